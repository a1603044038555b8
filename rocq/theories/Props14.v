(** Property theorems C59 (the library's sample functions and their hand-written references,
    src/drivers/testfunc.rs), and the closed form of the generalized Jacobian for C30. *)
From Coq Require Import Reals Lra List Arith ZArith NArith Bool Lia.
From Verif Require Import Base Float RealInst Operation Tape AContext Methods Function Spec TapeFacts DerivSpec DerivFacts2
  Matrix Jacobian AbsNormal AnfSpec AnfFacts AnfFacts2 Checkpoint CheckSpec CheckMain GenJac GenSpec GenFacts
  GenExplicit Samples SampleFacts ExamplesR ExamplesGen.
Import ListNotations.
Open Scope R_scope.

(** *** C30 The result in closed form: with U = G2 Y Sigma (1 - L Sigma)^-1 ([gj_formula] writes this
    without the inverse: U = (U L + G2 Y) Sigma), where G2, gamma2 are the continuation's,
    G = G2 J + U Z and gamma = gamma2 + G2 b + U a.  Sigma: the signs of the switching values in the
    direction dx, ties decided by the given bits. *)
Theorem C30_closed_form :
  forall red (f : func R) x dx bits next w t w' N,
  rayon red -> fn_n f = Ok (length x) -> fn_tape Rops f x w = Ok (t, w') -> NoDup (t_deps t) -> abs_once t ->
  anf_of t N -> length dx = length x -> next_ok (num_deps t) next ->
  exists G dz sigma, generalized_jacobian Rops red f x dx bits next w = Ok (G, w') /\
    switching N dx dz /\ selected bits dz sigma /\ g_mult G = (zeros dz + next_mult next)%nat /\
    gj_formula N (num_deps t) next sigma G.
Proof. exact gj_explicit. Qed.
Print Assumptions C30_closed_form.

(** There is only one such G. *)
Theorem C30_closed_form_unique :
  forall (t : tape R) (N : anf) next sigma G1 G2,
  wf_tape t -> anf_of t N -> next_ok (num_deps t) next -> length sigma = num_abs t ->
  gj_formula N (num_deps t) next sigma G1 -> gj_formula N (num_deps t) next sigma G2 ->
  g_hom G1 = g_hom G2 /\ g_inh G1 = g_inh G2.
Proof. exact gj_formula_unique. Qed.
Print Assumptions C30_closed_form_unique.

(** *** C59 The half pipe max(x2^2 - max(x1, 0), 0), as a function and as a chain of two, ... *)
Theorem C59_value :
  forall x1 x2, outputs (halfpipe Rops) [x1; x2] = [Rmax (x2 * x2 - Rmax x1 0) 0] /\
  exists c, halfpipe_chain Rops = Ok c /\ outputs c [x1; x2] = [Rmax (x2 * x2 - Rmax x1 0) 0].
Proof. exact (fun x1 x2 => conj (halfpipe_outputs x1 x2) (halfpipe_chain_outputs x1 x2)). Qed.
Print Assumptions C59_value.

(** ... its abs-normal form is the hand-written reference at every point, ... *)
Theorem C59_abs_normal_form :
  forall red x1 x2 w, rayon red ->
  exists N, halfpipe_anf Rops x1 x2 = Ok N /\ abs_normal Rops red (halfpipe Rops) [x1; x2] w = Ok N.
Proof. exact halfpipe_anf_right. Qed.
Print Assumptions C59_abs_normal_form.

(** ... its generalized Jacobian is the hand-written reference at every point in every direction,
    with no continuation or with the identity, ... *)
Theorem C59_generalized_jacobian :
  forall red x1 x2 d1 d2 next w, rayon red -> next = None \/ next = Some (mkG (m_id Rops 1) [0] 0) ->
  exists G w', halfpipe_jacobian Rops x1 x2 d1 d2 = Ok G /\
    generalized_jacobian Rops red (halfpipe Rops) [x1; x2] [d1; d2] [0%N] next w = Ok (G, w').
Proof.
  exact (fun red x1 x2 d1 d2 next w HR Hn =>
    match hp_jacobian_right red x1 x2 d1 d2 next w HR Hn with
    | ex_intro _ w' E => ex_intro _ _ (ex_intro _ w' (conj (hp_jacobian_value x1 x2 d1 d2) E))
    end).
Qed.
Print Assumptions C59_generalized_jacobian.

(** ... also computed over the chain, with any number of checkpoints, ... *)
Theorem C59_chain :
  forall red est x1 x2 d1 d2 (k : option nat) w, rayon red -> accurate est 3 ->
  match k with Some c => (2 <= c)%nat | None => True end ->
  exists c G w', halfpipe_chain Rops = Ok c /\ halfpipe_jacobian Rops x1 x2 d1 d2 = Ok G /\
    generalized_jacobian_chain Rops red est c [x1; x2] [d1; d2] k w = Ok (G, w').
Proof.
  exact (fun red est x1 x2 d1 d2 k w HR HA Hk =>
    match halfpipe_chain_right red est x1 x2 d1 d2 k w HR HA Hk with
    | ex_intro _ c (ex_intro _ w' (conj E1 E2)) =>
        ex_intro _ c (ex_intro _ _ (ex_intro _ w' (conj E1 (conj (hp_jacobian_value x1 x2 d1 d2) E2))))
    end).
Qed.
Print Assumptions C59_chain.

(** ... and that reference selects, by the signs of x1 + d1 and of the linearised
    x2^2 - max(x1, 0), one of the smooth pieces 0, x2^2 and x2^2 - x1: the matrix is the gradient of the
    piece at x, the vector is the piece minus the function at x. *)
Theorem C59_reference_is_the_active_piece :
  forall x1 x2 d1 d2, exists g1 g2 c G,
  halfpipe_jacobian Rops x1 x2 d1 d2 = Ok G /\
  g_hom G = mkM 1 2 [[g1; g2]] /\ g_inh G = [c - Rmax (x2 * x2 - Rmax x1 0) 0] /\
  let u := x1 + d1 in
  let v := x2 * x2 + 2 * x2 * d2 - Rmax u 0 in
  (v <= 0 -> g1 = 0 /\ g2 = 0 /\ c = 0) /\
  (0 < v -> u <= 0 -> g1 = 0 /\ g2 = 2 * x2 /\ c = x2 * x2) /\
  (0 < v -> 0 < u -> g1 = -1 /\ g2 = 2 * x2 /\ c = x2 * x2 - x1) /\
  g_mult G = zeros [u; v].
Proof. exact hp_reference_piece. Qed.
Print Assumptions C59_reference_is_the_active_piece.

(** The case with both switches at 0 and a direction away from it. *)
Example C59_example :
  hp_piece 0 0 (-1) 1 = mkG (mkM 1 2 [[0; 0]]) [0 - Rmax (0 * 0 - Rmax 0 0) 0] 1.
Proof. exact hp_piece_0. Qed.

(** C30's hypotheses are met as in C30_example (Props6.v); an instance of the formula with L <> 0: the
    half pipe on the piece x2^2 - x1. *)
Example C30_closed_form_example : gj_formula (hp_N 1 2) 1 None [1; 1] (hp_piece 1 2 0 0).
Proof. exact hp_formula_example. Qed.
