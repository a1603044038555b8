(** Property theorems C70: the generalized Jacobian as a limiting Jacobian. *)
From Coq Require Import Reals List Arith NArith Bool.
From Verif Require Import Base Float Operation Tape AContext Methods Function Spec RealInst Instances DerivSpec
  Matrix MatrixFacts AbsNormal AnfSpec AnfFacts2 GenJac GenSpec LimitSpec LimitFacts LimitExample ExamplesGen.
Import ListNotations.
Open Scope R_scope.

(** *** C70 The generalized Jacobian is a limiting Jacobian of the linearisation.
    [limiting F A c x]: arbitrarily close to x there are points near which the function F is the
    affine map A x + c.  Here F is the piecewise linearisation, i.e. the forward sweep of the tape
    (followed by the continuation [next], if given).

    If at most one switching value is zero, the result is a limiting Jacobian whatever the bits. *)
Theorem C70_multiplicity_at_most_one :
  forall red (f : func R) x dx bits next w t w',
  rayon red -> fn_n f = Ok (length x) -> fn_tape Rops f x w = Ok (t, w') -> NoDup (t_deps t) -> abs_once t ->
  length dx = length x -> next_ok (num_deps t) next ->
  exists G, generalized_jacobian Rops red f x dx bits next w = Ok (G, w') /\
    ((g_mult G <= next_mult next + 1)%nat ->
     limiting (fun dx' r => exists dy', tape_forward Rops t dx' = Ok dy' /\ r = next_map next dy') (g_hom G) (g_inh G) dx).
Proof. exact gj_limiting. Qed.
Print Assumptions C70_multiplicity_at_most_one.

(** For any multiplicity it is one if the selected signs are taken, strictly, by the switching
    values of directions arbitrarily close to dx. *)
Theorem C70_signs_that_occur :
  forall red (f : func R) x dx bits next w t w' N,
  rayon red -> fn_n f = Ok (length x) -> fn_tape Rops f x w = Ok (t, w') -> NoDup (t_deps t) -> abs_once t ->
  anf_of t N -> length dx = length x -> next_ok (num_deps t) next ->
  exists G dz sigma, generalized_jacobian Rops red f x dx bits next w = Ok (G, w') /\
    switching N dx dz /\ selected bits dz sigma /\
    ((forall e, 0 < e -> exists p zp, length p = length x /\ nrm1 (vsub p dx) < e /\ switching N p zp /\
        forall i, (i < num_abs t)%nat -> nth i sigma 0 * nth i zp 0 > 0) ->
     limiting (fun dx' r => exists dy', tape_forward Rops t dx' = Ok dy' /\ r = next_map next dy') (g_hom G) (g_inh G) dx).
Proof. exact gj_limiting_strict. Qed.
Print Assumptions C70_signs_that_occur.

(** Not so in general: |x| - |-x| is 0 everywhere, and so is its linearisation at 0, but with the
    bits that [generalized_jacobian_chain] always uses the result at 0 is the matrix (-2). *)
Theorem C70_any_signs_refuted :
  exists (f : func R) t w' G w2,
    fn_n f = Ok 1%nat /\ fn_tape Rops f [0] world0 = Ok (t, w') /\ NoDup (t_deps t) /\ abs_once t /\
    generalized_jacobian Rops (@concat _) f [0] [0] [0%N] None world0 = Ok (G, w2) /\
    (forall v, tape_forward Rops t [v] = Ok [0]) /\
    g_hom G = mkM 1 1 [[-2]] /\ g_mult G = 2%nat /\
    ~ limiting (fun dx' r => length dx' = 1%nat /\ tape_forward Rops t dx' = Ok r) (g_hom G) (g_inh G) [0].
Proof.
  destruct rx_zero_tape as (t & w' & E & ND & NA & HT). destruct rx_zero_gj as (G & w2 & EG & Eh & Ei & Em).
  exists rx_zero, t, w', G, w2. split; [reflexivity|]. split; [exact E|]. split; [exact ND|]. split; [exact NA|].
  split; [exact EG|]. split; [exact HT|]. split; [exact Eh|]. split; [exact Em|]. rewrite Eh, Ei.
  apply rx_zero_not_limiting. clear E EG. intros x y [L H]. destruct x as [|v [|]]; try discriminate L. rewrite HT in H. injection H as <-. reflexivity.
Qed.
Print Assumptions C70_any_signs_refuted.

(** |x| at 0 has multiplicity 1; with the bit set the result is the right derivative. *)
Example C70_example_one : rayon (@concat (nat * list R)) /\
  exists t w' G w2, fn_n rx_abs = Ok 1%nat /\ fn_tape Rops rx_abs [0] world0 = Ok (t, w') /\ NoDup (t_deps t) /\ abs_once t /\
    generalized_jacobian Rops (@concat _) rx_abs [0] [0] [1%N] None world0 = Ok (G, w2) /\
    g_hom G = mkM 1 1 [[1]] /\ g_mult G = 1%nat.
Proof.
  split; [apply rayon_exists|]. destruct rx_abs0_tape as (t & w' & E & ND & NA). destruct rx_abs0_gj as (G & w2 & EG & Eh & Em).
  exists t, w', G, w2. split; [reflexivity|]. auto 10.
Qed.
(** (|x0|, |x1|) at the origin: two zeros, and every choice of signs occurs nearby. *)
Example C70_example_two : exists t w' N, fn_n rx_two = Ok 2%nat /\ fn_tape Rops rx_two [0; 0] world0 = Ok (t, w') /\
  NoDup (t_deps t) /\ abs_once t /\ num_abs t = 2%nat /\ anf_of t N /\
  forall sigma, length sigma = 2%nat -> (forall i, (i < 2)%nat -> nth i sigma 0 = 1 \/ nth i sigma 0 = -1) ->
    forall e, 0 < e -> exists p zp, length p = 2%nat /\ nrm1 (vsub p [0; 0]) < e /\ switching N p zp /\
      forall i, (i < 2)%nat -> nth i sigma 0 * nth i zp 0 > 0.
Proof.
  destruct rx_two_tape as (t & w' & E & ND & NA & Ns & HN). exists t, w', rx_two_anf.
  split; [reflexivity|]. split; [exact E|]. split; [exact ND|]. split; [exact NA|]. split; [exact Ns|].
  split; [exact HN|]. exact rx_two_signs.
Qed.
