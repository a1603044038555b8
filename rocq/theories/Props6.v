(** Property theorems C30-C35: generalized Jacobians (vocabulary in AnfSpec.v and GenSpec.v). *)
From Coq Require Import Reals Lra List Arith ZArith NArith Bool Lia SpecFloat.
From Verif Require Import Base Float Operation Tape AContext Methods Function Spec Param Instances
  ReplayFacts Replay2 ApiFacts3 RealInst FloatInst DerivSpec DerivFacts LinearFacts DerivFacts2 Matrix MatrixFacts AbsNormal
  AbsNormalFacts AnfSpec RVec AnfFacts AnfFacts2 Checkpoint CheckSpec CheckMain GenJac GenSpec GenFacts GenMain
  ExamplesR ExamplesAnf ExamplesGen.
Import ListNotations.
Open Scope R_scope.

(** *** C30 The generalized Jacobian reproduces the piecewise linearisation.
    [anf_of t N]: N is the abs-normal form of the tape (every tape has one, C27).
    [switching N dx dz]: dz are the switching values belonging to dx.
    [selected bits dz sigma]: sigma holds their signs, zeros taking theirs from the bits.
    [compatible N sigma dx']: the switching values belonging to dx' have the signs sigma. *)
Theorem C30_reproduces_the_linearisation :
  forall red (f : func R) x dx bits w t w' N,
  rayon red -> fn_n f = Ok (length x) -> fn_tape Rops f x w = Ok (t, w') -> NoDup (t_deps t) -> abs_once t ->
  anf_of t N -> length dx = length x ->
  exists G dz sigma, generalized_jacobian Rops red f x dx bits None w = Ok (G, w') /\
    switching N dx dz /\ selected bits dz sigma /\
    shape (g_hom G) (num_deps t) (length x) /\ length (g_inh G) = num_deps t /\
    compatible N sigma dx /\
    forall dx' dy', length dx' = length x -> compatible N sigma dx' ->
      tape_forward Rops t dx' = Ok dy' -> vadd (mulv (g_hom G) dx') (g_inh G) = dy'.
Proof.
  intros red f x dx bits w t w' N HR En HT ND NA HN L.
  destruct (gj_correct red f x dx bits None w t w' N HR En HT ND NA HN L I)
    as (G & dz & sg & E & SW & HS & _ & SG & LG & HG).
  exists G, dz, sg. pose proof (compatible_dx N bits dx dz sg SW HS) as HC. auto 10.
Qed.
Print Assumptions C30_reproduces_the_linearisation.

(** In particular for the direction itself: G dx + gamma are the dvalue()s of f at (x, dx). *)
Theorem C30_at_the_direction :
  forall red (f : func R) x dx bits w t w',
  rayon red -> fn_n f = Ok (length x) -> fn_tape Rops f x w = Ok (t, w') -> NoDup (t_deps t) -> abs_once t ->
  length dx = length x ->
  exists G outs, generalized_jacobian Rops red f x dx bits None w = Ok (G, w') /\
    (forall w2, eval Rops f (map (fun p => af_new (fst p) (snd p)) (combine x dx)) w2 = Ok (outs, w2)) /\
    vadd (mulv (g_hom G) dx) (g_inh G) = map af_dv outs.
Proof.
  intros red f x dx bits w t w' HR En HT ND NA L.
  destruct (fn_tape_wf Rops _ _ _ _ _ HT) as ([W _] & _ & _). destruct (anf_exists t W) as [N HN].
  destruct (C30_reproduces_the_linearisation red f x dx bits w t w' N HR En HT ND NA HN L)
    as (G & dz & sg & E & SW & HS & SG & LG & HC & HG).
  destruct (forward_is_tapeless Rops f x w t w' dx HT L (R_const_tangents f x dx)) as (outs & Eo & Ef).
  exists G, outs. split; [exact E|]. split; [exact Eo|]. apply HG; auto.
Qed.
Print Assumptions C30_at_the_direction.

(** Without zero switching values (multiplicity 0) it holds in a whole neighbourhood of dx: G is
    the derivative of the piecewise linearisation at dx. *)
Theorem C30_derivative_when_multiplicity_is_zero :
  forall red (f : func R) x dx bits next w t w',
  rayon red -> fn_n f = Ok (length x) -> fn_tape Rops f x w = Ok (t, w') -> NoDup (t_deps t) -> abs_once t ->
  length dx = length x -> next_ok (num_deps t) next ->
  exists G, generalized_jacobian Rops red f x dx bits next w = Ok (G, w') /\
    (g_mult G = next_mult next -> exists d, 0 < d /\ forall dx' dy', length dx' = length x ->
      nrm1 (vsub dx' dx) < d -> tape_forward Rops t dx' = Ok dy' ->
      vadd (mulv (g_hom G) dx') (g_inh G) = next_map next dy').
Proof. exact gj_near. Qed.
Print Assumptions C30_derivative_when_multiplicity_is_zero.

(** Without abs it is the Jacobian: the matrix A whose product is the forward sweep. *)
Theorem C30_jacobian_without_abs :
  forall red (f : func R) x dx bits w t w' A,
  rayon red -> fn_n f = Ok (length x) -> fn_tape Rops f x w = Ok (t, w') -> NoDup (t_deps t) -> no_abs t ->
  represents t A -> length dx = length x ->
  generalized_jacobian Rops red f x dx bits None w = Ok (mkG A (repeat 0 (num_deps t)) 0, w').
Proof. exact gj_smooth. Qed.
Print Assumptions C30_jacobian_without_abs.

(** If a variable is passed to abs twice the result is wrong: for |x0| + |x0| at (1, 2) in
    direction (1, 0) the increment is 2, but G = (1, 0) and gamma = 0 give 1. *)
Theorem C30_repeated_abs_refuted :
  exists t w' w2 G, fn_tape d64 ex_abs2 [lit 1; lit 2] world0 = Ok (t, w') /\
    tape_forward d64 t [lit 1; lit 0] = Ok [lit 2] /\
    generalized_jacobian d64 (@concat _) ex_abs2 [lit 1; lit 2] [lit 1; lit 0] [] None world0 = Ok (G, w2) /\
    g_hom G = mkM 1 2 [[lit 1; lit 0]] /\ g_inh G = [lit 0] /\ g_mult G = 0%nat.
Proof.
  eexists _, _, _, _. split; [vm_compute; reflexivity|]. split; [vm_compute; reflexivity|].
  split; [vm_compute; reflexivity|]. repeat split; vm_compute; reflexivity.
Qed.
Print Assumptions C30_repeated_abs_refuted.

Example C30_example : exists t w' N, fn_tape Rops rx_pl [1; -2] world0 = Ok (t, w') /\ anf_of t N /\
  fn_n rx_pl = Ok 2%nat /\ num_abs t = 2%nat /\ NoDup (t_deps t) /\ abs_once t.
Proof.
  destruct rx_pl_tape as (t & w' & E & W & _ & _ & Ns & ND & NA).
  destruct (anf_exists t W) as [N HN]. exists t, w', N. auto 10.
Qed.
Example C30_example_smooth : exists t w' A, fn_tape Rops rx_f [2; 3] world0 = Ok (t, w') /\ no_abs t /\
  NoDup (t_deps t) /\ represents t A /\ fn_n rx_f = Ok 2%nat.
Proof.
  destruct (fn_tape Rops rx_f [2; 3] world0) as [[t w']|p] eqn:E; [|exfalso; revert E; rtape; discriminate].
  destruct (fn_tape_wf Rops _ _ _ _ _ E) as ([W _] & _ & N).
  assert (no_abs t /\ NoDup (t_deps t)) as [NA ND].
  { revert E; rtape; intros [= <- _]. split; [reflexivity|]. cbn. repeat constructor; cbn; intuition discriminate. }
  exists t, w', (tmat t). split; [reflexivity|]. split; [auto|]. split; [auto|]. split; [apply represented; auto|reflexivity].
Qed.

(** *** C31 Switching values are computed exactly: the iteration started at a + Z dx ends after at
    most num_abs rounds in the unique solution of dz = a + Z dx + L |dz|. *)
Theorem C31_switching_values_exact :
  forall red (t : tape R) (a : antape) (N : anf) dx,
  rayon red -> wf_tape t -> an_new t = Ok a -> anf_of t N -> length dx = num_indeps t ->
  exists dz, dz_loop Rops red (l_tape a) (vadd (f_a N) (mulv (f_zmat N) dx)) (num_abs t)
      (vadd (f_a N) (mulv (f_zmat N) dx)) = Ok dz /\
    switching N dx dz /\ forall zh, switching N dx zh -> zh = dz.
Proof. exact dz_exact. Qed.
Print Assumptions C31_switching_values_exact.

(** Small changes of the direction change the switching values little. *)
Theorem C31_switching_values_continuous :
  forall (t : tape R) (N : anf) dx zh, wf_tape t -> anf_of t N -> length dx = num_indeps t ->
  switching N dx zh -> forall b e, 0 < e -> exists d, 0 < d /\
    forall dx' zh', length dx' = num_indeps t -> nrm1 (vsub dx' dx) < d -> switching N dx' zh' ->
    forall i, (i < b)%nat -> Rabs (nth i zh' 0 - nth i zh 0) < e.
Proof. exact switching_near. Qed.
Print Assumptions C31_switching_values_continuous.

Example C31_example : exists t N, anf_of t N /\ wf_tape t /\ num_abs t = 2%nat /\ num_indeps t = 2%nat.
Proof. exact rx_pl_anf. Qed.

(** *** C32 Multiplicity and sign bits.
    [zeros dz]: how many switching values are zero. *)
Theorem C32_multiplicity_and_signs :
  forall red (f : func R) x dx bits next w t w' N,
  rayon red -> fn_n f = Ok (length x) -> fn_tape Rops f x w = Ok (t, w') -> NoDup (t_deps t) -> abs_once t ->
  anf_of t N -> length dx = length x -> next_ok (num_deps t) next ->
  exists G dz sigma, generalized_jacobian Rops red f x dx bits next w = Ok (G, w') /\
    switching N dx dz /\ selected bits dz sigma /\ g_mult G = (zeros dz + next_mult next)%nat.
Proof.
  intros red f x dx bits next w t w' N HR En HT ND NA HN L Hnx.
  destruct (gj_correct red f x dx bits next w t w' N HR En HT ND NA HN L Hnx)
    as (G & dz & sg & E & SW & HS & Hm & _). exists G, dz, sg. auto.
Qed.
Print Assumptions C32_multiplicity_and_signs.

(** Every combination of signs that fits the switching values can be selected, with bytes below
    256; and the bits determine the signs. *)
Theorem C32_every_combination :
  forall dz sigma, length sigma = length dz ->
  (forall i, (i < length dz)%nat -> (nth i sigma 0 = 1 \/ nth i sigma 0 = -1) /\
     nth i sigma 0 * nth i dz 0 = Rabs (nth i dz 0)) ->
  exists bytes, Forall (fun b => (b < 256)%N) bytes /\ selected bytes dz sigma.
Proof. exact every_selection. Qed.
Print Assumptions C32_every_combination.

Theorem C32_bits_determine_signs :
  forall bytes dz s1 s2, selected bytes dz s1 -> selected bytes dz s2 -> s1 = s2.
Proof. exact selected_unique. Qed.
Print Assumptions C32_bits_determine_signs.

(** both signs of |x| at 0, selected by the bit; the library's own test of the bit iterator *)
Example C32_example :
  (exists w, generalized_jacobian d64 (@concat _) ex_abs [lit 0] [lit 0] [1%N] None world0
     = Ok (mkG (mkM 1 1 [[lit 1]]) [lit 0] 1, w)) /\
  (exists w, generalized_jacobian d64 (@concat _) ex_abs [lit 0] [lit 0] [0%N] None world0
     = Ok (mkG (mkM 1 1 [[f_neg d64 (lit 1)]]) [lit 0] 1, w)).
Proof. split; eexists; vm_compute; reflexivity. Qed.
Example C32_example_bits :
  map (bit [131; 199]%N) (seq 0 18) =
  [true; true; false; false; false; false; false; true; true; true; true; false; false; false; true; true; false; false].
Proof. reflexivity. Qed.
Example C32_example_selected : selected [2%N] [0; 5; 0] [-1; 1; 1].
Proof.
  assert (is_zero 0 = true) as Z0 by (unfold is_zero; destruct (Req_EM_T 0 0); [reflexivity|lra]).
  assert (is_zero 5 = false) as Z5 by (unfold is_zero; destruct (Req_EM_T 5 0); [lra|reflexivity]).
  split; [reflexivity|]. intros [|[|[|i]]] Hi; cbn [nth firstn length] in *; try lia; (split; [|split]); intros; try lra;
    unfold zeros; cbn [filter]; rewrite ?Z0, ?Z5; cbv; lra.
Qed.

(** *** C33 Composition through next.
    [next_map next y]: G2 y + gamma2 for next = Some (G2, gamma2), y for None. *)
Theorem C33_composition :
  forall red (f : func R) x dx bits next w t w' N,
  rayon red -> fn_n f = Ok (length x) -> fn_tape Rops f x w = Ok (t, w') -> NoDup (t_deps t) -> abs_once t ->
  anf_of t N -> length dx = length x -> next_ok (num_deps t) next ->
  exists G dz sigma, generalized_jacobian Rops red f x dx bits next w = Ok (G, w') /\
    switching N dx dz /\ selected bits dz sigma /\
    g_mult G = (zeros dz + next_mult next)%nat /\
    shape (g_hom G) (next_rows (num_deps t) next) (length x) /\
    length (g_inh G) = next_rows (num_deps t) next /\
    forall dx' dy', length dx' = length x -> compatible N sigma dx' ->
      tape_forward Rops t dx' = Ok dy' -> vadd (mulv (g_hom G) dx') (g_inh G) = next_map next dy'.
Proof. exact gj_correct. Qed.
Print Assumptions C33_composition.

Example C33_example : next_ok 1 (Some rx_next) /\ next_map (Some rx_next) [2] = [3 * 2 + 0 + 1].
Proof. split; [exact rx_next_ok|reflexivity]. Qed.

(** *** C34 The chain driver reproduces the chain's piecewise linearisation.
    [compose]: the generalized Jacobians of all functions composed without checkpointing.
    [tame]: each function of the chain can be taped at the point it is reached with, has the input
    dimension it reports, does not return a variable twice, nor pass one to abs twice. *)
Theorem C34_checkpointing_does_not_matter :
  forall red (est : Z -> Z -> Z) (c : func R) x dx k w,
  accurate est (Z.of_nat (chain_len c) + 1) -> (Z.of_nat (chain_len c) + 1 <= 2 ^ 32)%Z -> (2 <= k)%nat ->
  match compose red (fn_iter c) x dx with
  | Ok G => exists w', generalized_jacobian_chain Rops red est c x dx (Some k) w = Ok (G, w')
  | Panic p => generalized_jacobian_chain Rops red est c x dx (Some k) w = Panic p
  end.
Proof. exact gj_chain_compose. Qed.
Print Assumptions C34_checkpointing_does_not_matter.

Theorem C34_chain_linearisation :
  forall red (c : func R) x dx, rayon red -> tame (fn_iter c) x -> length dx = length x ->
  exists G ys, compose red (fn_iter c) x dx = Ok G /\
    (forall w, eval Rops c (map (fun p => af_new (fst p) (snd p)) (combine x dx)) w = Ok (ys, w)) /\
    shape (g_hom G) (length ys) (length x) /\ length (g_inh G) = length ys /\
    vadd (mulv (g_hom G) dx) (g_inh G) = map af_dv ys.
Proof. exact gj_chain_correct. Qed.
Print Assumptions C34_chain_linearisation.

(** Whatever the estimate inside the schedule and the number of checkpoints: if the driver
    returns, it returns the composition. *)
Theorem C34_whatever_the_estimate :
  forall red (est : Z -> Z -> Z) (c : func R) x dx k w G w',
  generalized_jacobian_chain Rops red est c x dx k w = Ok (G, w') -> compose red (fn_iter c) x dx = Ok G.
Proof. exact gj_chain_any. Qed.
Print Assumptions C34_whatever_the_estimate.

Example C34_example : tame (fn_iter rx_chain) [1; -2].
Proof. exact rx_chain_tame. Qed.
Example C34_example_computed : exists w,
  generalized_jacobian_chain d64 (@concat _) (fun _ _ => 1%Z) (Chain [ex_abs; ex_abs]) [lit 1] [lit (-3)] None world0
  = Ok (mkG (mkM 1 1 [[f_neg d64 (lit 1)]]) [lit (-2)] 0, w).
Proof. eexists. vm_compute. reflexivity. Qed.

(** *** C35 The chain driver accepts every chain - refuted: with the default number of
    checkpoints it panics for every chain of exactly one function ... *)
Theorem C35_one_function_refuted :
  forall (F : Type) (Fo : Fops F) red est (c : func F) x dx w, chain_len c = 1%nat ->
  generalized_jacobian_chain Fo red est c x dx None w = Panic PAssert.
Proof. exact @gj_chain_one. Qed.
Print Assumptions C35_one_function_refuted.

(** ... and works for every longer one. *)
Theorem C35_longer_chains :
  forall red (est : Z -> Z -> Z) (c : func R) x dx w, rayon red ->
  accurate est (Z.of_nat (chain_len c) + 1) -> (Z.of_nat (chain_len c) + 1 <= 2 ^ 32)%Z ->
  (2 <= chain_len c)%nat -> tame (fn_iter c) x -> length dx = length x ->
  exists G w', generalized_jacobian_chain Rops red est c x dx None w = Ok (G, w').
Proof.
  intros red est c x dx w HR A B Hk HT L.
  destruct (gj_chain_correct red c x dx HR HT L) as (G & ys & E & _).
  pose proof (gj_chain_compose red est c x dx (chain_len c) w A B Hk) as H. rewrite E in H.
  destruct H as [w' H]. exists G, w'. exact H.
Qed.
Print Assumptions C35_longer_chains.

Example C35_example : chain_len (chain_new rx_abs) = 1%nat /\ chain_len rx_chain = 2%nat.
Proof. split; reflexivity. Qed.
