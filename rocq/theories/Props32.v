(** Property theorems C82: nested AFloats on piecewise affine functions. *)
From Coq Require Import Reals Lra List Arith ZArith Bool SpecFloat.
From Verif Require Import Base Float Operation Tape AContext Methods Function Spec Param RealInst FloatInst
  Instances FunctionFacts ApiFacts3 DerivSpec DerivFacts2 Nested NestedSpec NestedAffine ExamplesR.
Import ListNotations.
Open Scope R_scope.

(** *** C82 AFloats of AFloats on piecewise affine functions compute exact second differences.
    The variables are AFloat::new(AFloat::new(x, u), AFloat::new(v, w)); f performs only sums,
    differences, products with constants, quotients by nonzero constants and absolute values on
    what depends on the inputs ([piecewise_affine]), and either never looks at values
    ([straight_f]) or takes the same branches at the four points. *)
Theorem C82_second_differences :
  forall (f : func R) (x u v w y : list R) (wd : world R),
  length u = length x -> length v = length x -> length w = length x ->
  piecewise_affine f x ->
  straight_f f \/ (agree_f Rops f x (vadd x u) /\ agree_f Rops f x (vadd x v) /\
                   agree_f Rops f x (vadd (vadd (vadd x u) v) w)) ->
  eval_float Rops f x wd = Ok (y, wd) ->
  exists ys y10 y01 y11,
    nested_eval Rops f (nested_in x u v w) = Ok ys /\
    eval_float Rops f (vadd x u) wd = Ok (y10, wd) /\
    eval_float Rops f (vadd x v) wd = Ok (y01, wd) /\
    eval_float Rops f (vadd (vadd (vadd x u) v) w) wd = Ok (y11, wd) /\
    length ys = length y /\ length y10 = length y /\ length y01 = length y /\
    length y11 = length y /\
    forall k, (k < length y)%nat ->
      nth k ys ((0, 0), (0, 0))
      = ((nth k y 0, nth k y10 0 - nth k y 0),
         (nth k y01 0 - nth k y 0, nth k y11 0 - nth k y01 0 - nth k y10 0 + nth k y 0)).
Proof. exact nested_second_difference_eval. Qed.
Print Assumptions C82_second_differences.

(** | 3 x0 - |x1| | at (1, -2). *)
Example C82_example :
  piecewise_affine rx_pl [1; -2] /\ straight_f rx_pl /\
  exists y, eval_float Rops rx_pl [1; -2] world0 = Ok (y, world0) /\ length y = 1%nat.
Proof.
  split; [exact rx_pl_affine|]. split; [cbn; auto|]. eexists. split; reflexivity.
Qed.

(** So the last component is a difference over the whole step, not a second derivative: |x| at -1/2,
    where it is affine, yields 1 with the usual seeds, in exact and in double precision. *)
Theorem C82_kink_within_step_refuted :
  exists y, nested_eval Rops na_abs [((- / 2, 1), (1, 0))] = Ok [y] /\ snd (snd y) = 1 /\
  exists g' : R -> R,
    (exists d, 0 < d /\ forall t, Rabs (t - - / 2) < d ->
       derivable_pt_lim (fun s => nth 0 (outputs na_abs [s]) 0) t (g' t)) /\
    derivable_pt_lim g' (- / 2) 0.
Proof. exact na_abs_kink. Qed.
Print Assumptions C82_kink_within_step_refuted.

Theorem C82_kink_within_step_binary64_refuted :
  forall T : libm, exists y,
  nested_eval (f64ops T) na_abs [((SFopp half64, lit 1), (lit 1, lit 0))] = Ok [y] /\
  snd (snd y) = lit 1.
Proof. exact na_abs_kink64. Qed.
Print Assumptions C82_kink_within_step_binary64_refuted.
