(** Property theorems C91: derivatives of any order by nested AFloats. *)
From Coq Require Import Reals Lra List Arith ZArith Bool Lia SpecFloat.
From Verif Require Import Base Float Operation Tape AContext Methods Function Spec Param
  Instances ApiFacts3 RealInst FloatInst DerivSpec DerivFacts2 Nested NestedSpec NestedMain
  Nest NestSpec NestMain NestExtra.
Import ListNotations.
Open Scope R_scope.

(** *** C91 AFloats nested to any depth compute derivatives of any order.
    [nest R K]: AFloat<AFloat<..>>, K levels, without contexts, each level a value and a derivative;
    [nest_eval Rops k f X]: f evaluated on such variables of K = S k levels; [nval]: the innermost value.
    [regular_n]: every operation is inside the domain where it is differentiable K times, there is no
    abs, and what is raised to a power, by the program or by a derivative rule, has no derivative that is 0
    in value only.
    The inputs are a surface [point X t] with K parameters; every output is the list of all its
    derivatives at 0, by each subset of the parameters ([derivs]). *)
Theorem C91_mixed_derivatives :
  forall (k : nat) (f : func R) (X ys : list (nest R (S k))),
  same_branches_near f (map (nval (S k)) X) -> regular_n k f X ->
  nest_eval Rops k f X = Ok ys ->
  length ys = length (outputs f (map (nval (S k)) X)) /\
  forall j y, nth_error ys j = Some y ->
    derivs (S k) y (fun e => nth j (outputs f (map (fun a => point (S k) a e) X)) 0).
Proof. exact nest_derivatives. Qed.
Print Assumptions C91_mixed_derivatives.

(** One input with derivative 1 at each level: D 0 = f, D 1, .., D (S k) are the derivatives of f of
    these orders, and the component reached by taking the derivative j times holds the j-th. *)
Theorem C91_derivatives_of_one_input :
  forall (k : nat) (f : func R) (x : R) (y : nest R (S k)),
  same_branches_near f [x] -> regular_n k f [seed (S k) x] ->
  nest_eval Rops k f [seed (S k) x] = Ok [y] ->
  exists D : nat -> R -> R,
    (forall s, D O s = nth 0 (outputs f [s]) 0) /\
    derivatives_at (S k) x D /\
    forall p, length p = S k -> comp (S k) p y = D (count p) x.
Proof. exact nest_one_input. Qed.
Print Assumptions C91_derivatives_of_one_input.

(** exp(x)/x at 2, to any order. *)
Example C91_example : forall k,
  same_branches_near nx_quot [2] /\ regular_n k nx_quot [seed (S k) 2] /\
  exists y, nest_eval Rops k nx_quot [seed (S k) 2] = Ok [y].
Proof.
  intros k. split; [apply nx_quot_branches|]. split; [apply nx_quot_regular; lra|].
  rewrite nest_eval_eq. eexists. reflexivity.
Qed.

(** Sums, differences, products, negation, sin, cos and exp need no proviso. *)
Theorem C91_entire_functions :
  forall (k : nat) (f : func R) (X ys : list (nest R (S k))),
  same_branches_near f (map (nval (S k)) X) -> entire_f f ->
  nest_eval Rops k f X = Ok ys ->
  length ys = length (outputs f (map (nval (S k)) X)) /\
  forall j y, nth_error ys j = Some y ->
    derivs (S k) y (fun e => nth j (outputs f (map (fun a => point (S k) a e) X)) 0).
Proof. exact nest_entire. Qed.
Print Assumptions C91_entire_functions.

(** exp(x * y) * x with any inputs, to any order. *)
Definition nx_exp2 : func R := AdvFn 2 1 (Let2 BMul 0 1 (Let1 UExp 2 (Let2 BMul 3 0 (Ret [4]%nat)))).
Example C91_entire_example : forall k (a b : nest R (S k)),
  same_branches_near nx_exp2 (map (nval (S k)) [a; b]) /\ entire_f nx_exp2 /\
  exists ys, nest_eval Rops k nx_exp2 [a; b] = Ok ys.
Proof.
  intros k a b. split; [left; cbn; auto|]. split; [cbn; auto 10|].
  rewrite nest_eval_eq. eexists. reflexivity.
Qed.

(** Without the proviso the third derivative can be wrong: that of tan at 0 is 2, the code returns 0 (it
    squares cos x, whose derivative is 0 at 0 in value only). *)
Theorem C91_third_derivative_of_tan_refuted :
  exists (D : nat -> R -> R) (y : nest R 3),
  (forall s, nth 0 (outputs nx_tan [s]) 0 = D O s) /\ derivatives_at 3 0 D /\ D 3%nat 0 = 2 /\
  nest_eval Rops 2 nx_tan [seed 3 0] = Ok [y] /\ comp 3 [true; true; true] y = 0.
Proof. exact nest_tan_wrong. Qed.
Print Assumptions C91_third_derivative_of_tan_refuted.

(** In binary64 the third derivative of x.powi(2) at 0 is NaN, whenever pow(0, -1) is infinite. *)
Theorem C91_third_derivative_of_a_square_refuted :
  forall T : libm,
  l_powf T (lit 0) (lit (-1)) = S754_infinity false ->
  exists y : nest spec_float 3,
    nest_eval (f64ops T) 2 nx_sq
      [(((lit 0, lit 1), (lit 1, lit 0)), ((lit 1, lit 0), (lit 0, lit 0)))] = Ok [y] /\
    snd (snd (snd y)) = S754_nan.
Proof. exact nest_sq_nan. Qed.
Print Assumptions C91_third_derivative_of_a_square_refuted.

(** One level is the tapeless evaluation of the other properties, two levels the one of C56. *)
Theorem C91_depths_one_and_two :
  forall (F : Type) (Fo : Fops F) (f : func F),
  (forall X, nest_eval Fo 0 f X = d_eval Fo f X) /\ (forall X, nest_eval Fo 1 f X = nested_eval Fo f X).
Proof. intros F Fo f. split; intros X; reflexivity. Qed.
Print Assumptions C91_depths_one_and_two.

(** Each level is AFloat over the level below: [nops Fo (S k)] is what the methods and comparisons of
    AFloat<_> over [nops Fo k] return on variables without context, and these record nothing. *)
Theorem C91_levels_are_afloats :
  forall (F G : Type) (Fo : Fops F) (k : nat) (tof : nest F k -> option G) (w : world G) (x y : nest F (S k)) (n : Z),
  let op := from_op (nops Fo k) tof in let cst := af_const (nops Fo k) in let D := nops Fo (S k) in
  m_add op (det x) (det y) w = Ok (det (f_add D x y), w) /\
  m_sub op (det x) (det y) w = Ok (det (f_sub D x y), w) /\
  m_mul op (det x) (det y) w = Ok (det (f_mul D x y), w) /\
  m_div op (det x) (det y) w = Ok (det (f_div D x y), w) /\
  m_powf op (det x) (det y) w = Ok (det (f_powf D x y), w) /\
  m_neg (nops Fo k) op cst (det x) w = Ok (det (f_neg D x), w) /\
  m_abs op (det x) w = Ok (det (f_abs D x), w) /\
  m_sin op (det x) w = Ok (det (f_sin D x), w) /\
  m_cos op (det x) w = Ok (det (f_cos D x), w) /\
  m_tan op (det x) w = Ok (det (f_tan D x), w) /\
  m_exp op (det x) w = Ok (det (f_exp D x), w) /\
  m_ln op (det x) w = Ok (det (f_ln D x), w) /\
  m_asin op (det x) w = Ok (det (f_asin D x), w) /\
  m_acos op (det x) w = Ok (det (f_acos D x), w) /\
  m_atan op (det x) w = Ok (det (f_atan D x), w) /\
  m_sqrt (nops Fo k) op cst (det x) w = Ok (det (f_sqrt D x), w) /\
  m_powi (nops Fo k) op cst (det x) n w = Ok (det (f_powi D x n), w) /\
  (cst (f_zero (nops Fo k)) = det (f_zero D) /\ cst (f_one (nops Fo k)) = det (f_one D) /\
   cst (f_half (nops Fo k)) = det (f_half D) /\ cst (f_of_Z (nops Fo k) n) = det (f_of_Z D n)) /\
  (af_eqb (nops Fo k) (det x) (det y) = f_eqb D x y /\ af_ltb (nops Fo k) (det x) (det y) = f_ltb D x y).
Proof. intros F G Fo k. exact (@Dops_is_afloat (nest F k) G (nops Fo k)). Qed.
Print Assumptions C91_levels_are_afloats.
