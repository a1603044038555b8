(** Property theorems C56: second derivatives by nested AFloats. *)
From Coq Require Import Reals Lra List Arith ZArith Bool Lia SpecFloat.
From Verif Require Import Base Float Operation Tape AContext Methods Function Spec Param
  Instances ApiFacts3 RealInst FloatInst DerivSpec DerivFacts2 Nested NestedSpec NestedMain
  ExamplesR.
Import ListNotations.
Open Scope R_scope.

(** *** C56 AFloats of AFloats compute second derivatives.
    [nested_eval Rops f X]: f evaluated on variables of type AFloat<AFloat<_>>, without contexts;
    each is ((value, derivative), (derivative, second derivative)).
    [regular2]: all operations are inside the domain where they are twice differentiable, there is
    no abs, and no base or exponent of a power has first derivative 0 but second derivative
    not 0.  [outputs f x]: the values of f. *)
Theorem C56_second_derivative :
  forall (f : func R) (x : R) (y : N2),
  same_branches_near f [x] -> regular2 f [((x, 1), (1, 0))] ->
  nested_eval Rops f [((x, 1), (1, 0))] = Ok [y] ->
  let g s := nth 0 (outputs f [s]) 0 in
  fst (fst y) = g x /\ derivable_pt_lim g x (snd (fst y)) /\ fst (snd y) = snd (fst y) /\
  exists g' : R -> R,
    (exists d, 0 < d /\ forall t, Rabs (t - x) < d -> derivable_pt_lim g t (g' t)) /\
    derivable_pt_lim g' x (snd (snd y)).
Proof. exact nested_one_input. Qed.
Print Assumptions C56_second_derivative.

(** Any number of inputs and outputs, any directions: the values, the derivatives along u and v, and
    the mixed second derivative of (t, s) |-> f(x + t u + s (v + t w)). *)
Theorem C56_mixed_second_derivatives :
  forall (f : func R) (x u v w : list R) (ys : list N2),
  length u = length x -> length v = length x -> length w = length x ->
  same_branches_near f x -> regular2 f (nested_in x u v w) ->
  nested_eval Rops f (nested_in x u v w) = Ok ys ->
  length ys = length (outputs f x) /\
  forall k y, nth_error ys k = Some y ->
  let g t s := nth k (outputs f (plane x u v w t s)) 0 in
  fst (fst y) = nth k (outputs f x) 0 /\
  derivable_pt_lim (fun t => g t 0) 0 (snd (fst y)) /\
  exists g' : R -> R,
    (exists d, 0 < d /\ forall t, Rabs t < d -> derivable_pt_lim (g t) 0 (g' t)) /\
    fst (snd y) = g' 0 /\
    derivable_pt_lim g' 0 (snd (snd y)).
Proof. exact nested_second_derivative. Qed.
Print Assumptions C56_mixed_second_derivatives.

(** x^3 at 2 (value 8, derivative 12, second derivative 12), and a function of two inputs. *)
Definition nx_cube : func R := AdvFn 1 1 (Let1 (UPowi 3) 0 (Ret [1]%nat)).
Example C56_example :
  same_branches_near nx_cube [2] /\ regular2 nx_cube [((2, 1), (1, 0))] /\
  exists y, nested_eval Rops nx_cube [((2, 1), (1, 0))] = Ok [y].
Proof.
  split; [left; cbn; auto|]. split.
  - intros ys P H. cbn -[Rpowf IZR] in H. injection H as _ <-. split; auto.
    intros z [= <-]. cbn. split; [left; lra|]. split; auto.
  - rewrite nested_eval_eq. eexists. reflexivity.
Qed.

Example C56_example_two :
  same_branches_near rx_f [2; 3] /\ regular2 rx_f (nested_in [2; 3] [1; 0] [1; 5] [0; 7]) /\
  exists ys, nested_eval Rops rx_f (nested_in [2; 3] [1; 0] [1; 5] [0; 7]) = Ok ys.
Proof.
  split; [left; cbn; auto|]. split.
  - intros ys P H. cbn -[Rpowf IZR powerRZ] in H. injection H as _ <-. cbn.
    repeat split; auto; try lra. intros y [= <-]. lra.
  - rewrite nested_eval_eq. eexists. reflexivity.
Qed.

(** Without the proviso about powers the second derivative can be wrong: for sqrt(x*x+1) at 0 the
    code returns 0, the second derivative is 1 (the test [dx != 0] of the power rule compares the
    values of AFloats only). *)
Theorem C56_stationary_base_refuted :
  exists (f : func R) (y : N2),
  straight_f f /\ regular f [0] /\ nested_eval Rops f [((0, 1), (1, 0))] = Ok [y] /\
  let g s := nth 0 (outputs f [s]) 0 in
  exists g' : R -> R, (forall t, derivable_pt_lim g t (g' t)) /\ derivable_pt_lim g' 0 1 /\
    snd (snd y) = 0.
Proof.
  exists (nx_sqrt 1). eexists. split; [cbn; auto|]. split; [|split; [|cbv zeta]].
  - intros ys P H. cbn -[Rpowf] in H. injection H as _ <-. repeat split; auto.
    intros y [= <-]. left. cbn. lra.
  - rewrite nested_eval_eq. reflexivity.
  - exists (fun t => t / sqrt (t * t + 1)). split; [|split; [apply nx_sqrt_d2|]].
    + intros t. eapply Approx.d_ext; [|apply nx_sqrt_d1]. intros s. cbn beta.
      rewrite nx_sqrt_out. reflexivity.
    + erewrite (nx_sqrt_nested Rops 1 _ 0 1 1 0); [cbn; unfold dual; cbn; ring| | |].
      * rewrite nested_eval_eq. reflexivity.
      * apply Reqb_true. cbn. ring.
      * apply Reqb_true. reflexivity.
Qed.
Print Assumptions C56_stationary_base_refuted.

(** The same in binary64, whatever the power function of the platform returns. *)
Theorem C56_stationary_base_binary64_refuted :
  forall T : libm, exists y,
  nested_eval (f64ops T) (nx_sqrt (lit 1)) [((lit 0, lit 1), (lit 1, lit 0))] = Ok [y] /\
  snd y = (lit 0, lit 0).
Proof.
  intros T. eexists. split; [rewrite nested_eval_eq; reflexivity|].
  erewrite (nx_sqrt_nested (f64ops T) (lit 1) _ (lit 0) (lit 1) (lit 1) (lit 0));
    [reflexivity|rewrite nested_eval_eq; reflexivity|vm_compute; reflexivity|reflexivity].
Qed.
Print Assumptions C56_stationary_base_binary64_refuted.

(** The inner level of the nested evaluation is AFloat: [Dops Fo] is what the methods and comparisons
    of AFloat return on variables without context ([det]), and these record nothing. *)
Theorem C56_inner_level_is_afloat :
  forall (F G : Type) (Fo : Fops F) (tof : F -> option G) (w : world G) (x y : F * F) (n : Z),
  let op := from_op Fo tof in let cst := af_const Fo in let D := Dops Fo in
  m_add op (det x) (det y) w = Ok (det (f_add D x y), w) /\
  m_sub op (det x) (det y) w = Ok (det (f_sub D x y), w) /\
  m_mul op (det x) (det y) w = Ok (det (f_mul D x y), w) /\
  m_div op (det x) (det y) w = Ok (det (f_div D x y), w) /\
  m_powf op (det x) (det y) w = Ok (det (f_powf D x y), w) /\
  m_neg Fo op cst (det x) w = Ok (det (f_neg D x), w) /\
  m_abs op (det x) w = Ok (det (f_abs D x), w) /\
  m_sin op (det x) w = Ok (det (f_sin D x), w) /\
  m_cos op (det x) w = Ok (det (f_cos D x), w) /\
  m_tan op (det x) w = Ok (det (f_tan D x), w) /\
  m_exp op (det x) w = Ok (det (f_exp D x), w) /\
  m_ln op (det x) w = Ok (det (f_ln D x), w) /\
  m_asin op (det x) w = Ok (det (f_asin D x), w) /\
  m_acos op (det x) w = Ok (det (f_acos D x), w) /\
  m_atan op (det x) w = Ok (det (f_atan D x), w) /\
  m_sqrt Fo op cst (det x) w = Ok (det (f_sqrt D x), w) /\
  m_powi Fo op cst (det x) n w = Ok (det (f_powi D x n), w) /\
  (cst (f_zero Fo) = det (f_zero D) /\ cst (f_one Fo) = det (f_one D) /\
   cst (f_half Fo) = det (f_half D) /\ cst (f_of_Z Fo n) = det (f_of_Z D n)) /\
  (af_eqb Fo (det x) (det y) = f_eqb D x y /\ af_ltb Fo (det x) (det y) = f_ltb D x y).
Proof. exact @Dops_is_afloat. Qed.
Print Assumptions C56_inner_level_is_afloat.
