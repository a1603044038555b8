(** What the public constructors of operations stand for. *)
From Coq Require Import Reals List.
From Verif Require Import Base Float Operation.
Import ListNotations.

(** In any arithmetic: constructor and function *)
Definition unary_ops {F} (Fo : Fops F) : list ((nat -> nat -> operation) * (F -> F)) :=
  [(op_sin, f_sin Fo); (op_cos, f_cos Fo); (op_tan, f_tan Fo); (op_abs, f_abs Fo); (op_exp, f_exp Fo); (op_ln, f_ln Fo);
   (op_asin, f_asin Fo); (op_acos, f_acos Fo); (op_atan, f_atan Fo)].
Definition binary_ops {F} (Fo : Fops F) : list ((nat -> nat -> nat -> operation) * (F -> F -> F)) :=
  [(op_add, f_add Fo); (op_sub, f_sub Fo); (op_mul, f_mul Fo); (op_div, f_div Fo); (op_powf, f_powf Fo)].

Open Scope R_scope.
(** Over the reals: constructor, function and where it is differentiable *)
Definition unary_fns : list ((nat -> nat -> operation) * (R -> R) * (R -> Prop)) :=
  [(op_sin, sin, fun _ => True); (op_cos, cos, fun _ => True); (op_tan, tan, fun x => cos x <> 0);
   (op_exp, exp, fun _ => True); (op_ln, ln, fun x => 0 < x); (op_asin, asin, fun x => -1 < x < 1);
   (op_acos, acos, fun x => -1 < x < 1); (op_atan, atan, fun _ => True)].
Definition binary_fns : list ((nat -> nat -> nat -> operation) * (R -> R -> R) * (R -> R -> Prop)) :=
  [(op_add, Rplus, fun _ _ => True); (op_sub, Rminus, fun _ _ => True); (op_mul, Rmult, fun _ _ => True);
   (op_div, Rdiv, fun _ y => y <> 0); (op_powf, Rpower, fun x _ => 0 < x)].
