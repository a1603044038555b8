(** Property theorems C95: quadratic models from nested AFloats. *)
From Coq Require Import Reals Lra List Arith ZArith Bool Lia.
From Verif Require Import Base Float Operation Tape AContext Methods Function Spec Param
  Instances RealInst DerivSpec DerivFacts2 ExamplesR Nested NestedSpec NestedMain Taylor2.
Import ListNotations.
Open Scope R_scope.

(** *** C95 Value, derivative and second derivative returned by nested variables
    AFloat::new(AFloat::new(x, h), AFloat::new(h, 0)) are the coefficients of the quadratic Taylor polynomial along
    h: the error at x + s h is o(s^2), for every output. *)
Theorem C95_quadratic_model :
  forall (f : func R) (x h : list R) (ys : list N2),
  length h = length x -> same_branches_near f x ->
  regular2 f (nested_in x h h (repeat 0 (length x))) ->
  nested_eval Rops f (nested_in x h h (repeat 0 (length x))) = Ok ys ->
  forall k y, nth_error ys k = Some y ->
  forall e, 0 < e -> exists d, 0 < d /\ forall s, Rabs s < d ->
    Rabs (nth k (outputs f (vadd x (vscal s h))) 0
          - (fst (fst y) + s * snd (fst y) + s * s / 2 * snd (snd y))) <= e * (s * s).
Proof. exact nested_taylor. Qed.
Print Assumptions C95_quadratic_model.

(** So derivative 0 and positive second derivative mean a strict minimum along h. *)
Theorem C95_minimum_along_a_line :
  forall (f : func R) (x h : list R) (ys : list N2) (k : nat) (y : N2),
  length h = length x -> same_branches_near f x ->
  regular2 f (nested_in x h h (repeat 0 (length x))) ->
  nested_eval Rops f (nested_in x h h (repeat 0 (length x))) = Ok ys ->
  nth_error ys k = Some y -> snd (fst y) = 0 -> 0 < snd (snd y) ->
  exists d, 0 < d /\ forall s, Rabs s < d -> s <> 0 ->
    nth k (outputs f x) 0 < nth k (outputs f (vadd x (vscal s h))) 0.
Proof. exact nested_minimum. Qed.
Print Assumptions C95_minimum_along_a_line.

(** x0^2 + x0 x1 + x1^2 at the origin, along (a, b) not 0. *)
Example C95_example :
  forall a b : R, (a <> 0 \/ b <> 0) ->
  let f := Simple 2 1 (Let2 BMul 0 0 (Let2 BMul 0 1 (Let2 BMul 1 1 (Let2 BAdd 2 3 (Let2 BAdd 5 4 (Ret [6]%nat)))))) in
  same_branches_near f [0; 0] /\ regular2 f (nested_in [0; 0] [a; b] [a; b] (repeat 0 2)) /\
  exists y, nested_eval Rops f (nested_in [0; 0] [a; b] [a; b] (repeat 0 2)) = Ok [y] /\
    snd (fst y) = 0 /\ 0 < snd (snd y).
Proof.
  intros a b Hab f. split; [left; cbn; auto|]. split.
  - intros ys P H. cbn in H. injection H as _ <-. cbn. auto 10.
  - eexists. split; [rewrite nested_eval_eq; cbn; reflexivity|]. cbn. unfold dual. cbn. split; [ring|].
    match goal with |- 0 < ?e => replace e with (a * a + b * b + (a + b) * (a + b)) by ring end.
    pose proof (Rle_0_sqr a). pose proof (Rle_0_sqr b). pose proof (Rle_0_sqr (a + b)). unfold Rsqr in *.
    destruct Hab as [Hz|Hz]; apply Rsqr_pos_lt in Hz; unfold Rsqr in Hz; lra.
Qed.
