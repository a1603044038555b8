(** Property theorems C77: single operations (tables of constructors and functions in OpSpec.v). *)
From Coq Require Import Reals Lra List Arith ZArith Bool Lia.
From Verif Require Import Base Float Operation RealInst DerivSpec Tape OpSpec OpFacts.
Import ListNotations.
Open Scope nat_scope.

(** *** C77 Operations do what their constructors say.
    In any arithmetic an operation overwrites the slot of its result by the function of its arguments'
    slots and changes nothing else; it panics exactly when a slot does not exist. *)
Theorem C77_unary_values :
  forall {F : Type} (Fo : Fops F) mk f vid i v v' d, In (mk, f) (unary_ops Fo) ->
  op_zero_order Fo (mk vid i) v = Ok v' <-> vid < length v /\ i < length v /\ v' = update v vid (f (nth i v d)).
Proof. exact @unary_executes. Qed.
Print Assumptions C77_unary_values.

Theorem C77_binary_values :
  forall {F : Type} (Fo : Fops F) mk f vid i j v v' d, In (mk, f) (binary_ops Fo) ->
  op_zero_order Fo (mk vid i j) v = Ok v' <->
  vid < length v /\ i < length v /\ j < length v /\ v' = update v vid (f (nth i v d) (nth j v d)).
Proof. exact @binary_executes. Qed.
Print Assumptions C77_binary_values.

(** [nop] does nothing; [constant] keeps the value and has the tangent 0. *)
Theorem C77_nop :
  forall {F : Type} (Fo : Fops F) v dv vbar,
  op_zero_order Fo op_nop v = Ok v /\ op_first_order Fo op_nop v dv = Ok dv /\ op_first_order_reverse Fo op_nop v vbar = Ok vbar.
Proof. exact @nop_executes. Qed.
Print Assumptions C77_nop.

Theorem C77_constant :
  forall {F : Type} (Fo : Fops F) vid v dv vbar, vid < length dv ->
  op_zero_order Fo (op_constant vid) v = Ok v /\
  op_first_order Fo (op_constant vid) v dv = Ok (update dv vid (f_zero Fo)) /\
  op_first_order_reverse Fo (op_constant vid) v vbar = Ok vbar.
Proof. exact @constant_executes. Qed.
Print Assumptions C77_constant.

Open Scope R_scope.
(** Over the reals, where the function is differentiable, the tangent of the result is the derivative
    along the arguments' tangents. *)
Theorem C77_unary_tangent :
  forall mk f D vid i v dv, In (mk, f, D) unary_fns -> (i < length v)%nat -> (i < length dv)%nat -> (vid < length dv)%nat ->
  D (nth i v 0) ->
  exists l, derivable_pt_lim (fun s => f (nth i v 0 + s * nth i dv 0)) 0 l /\
    op_first_order Rops (mk vid i) v dv = Ok (update dv vid l).
Proof. exact unary_tangent. Qed.
Print Assumptions C77_unary_tangent.

Theorem C77_binary_tangent :
  forall mk f D vid i j v dv, In (mk, f, D) binary_fns -> (i < length v)%nat -> (j < length v)%nat ->
  (i < length dv)%nat -> (j < length dv)%nat -> (vid < length dv)%nat -> D (nth i v 0) (nth j v 0) ->
  exists l, derivable_pt_lim (fun s => f (nth i v 0 + s * nth i dv 0) (nth j v 0 + s * nth j dv 0)) 0 l /\
    op_first_order Rops (mk vid i j) v dv = Ok (update dv vid l).
Proof. exact binary_tangent. Qed.
Print Assumptions C77_binary_tangent.

(** The reverse step adds the result's adjoint times the gradient: paired with any tangents, the
    adjoints gain the result's adjoint times the derivative along them. *)
Theorem C77_unary_adjoint :
  forall mk f D vid i v vbar, In (mk, f, D) unary_fns -> (i < length v)%nat -> (i < length vbar)%nat ->
  (vid < length vbar)%nat -> D (nth i v 0) ->
  exists vbar', op_first_order_reverse Rops (mk vid i) v vbar = Ok vbar' /\
    forall dv l, length dv = length vbar -> derivable_pt_lim (fun s => f (nth i v 0 + s * nth i dv 0)) 0 l ->
      dot vbar' dv = dot vbar dv + nth vid vbar 0 * l.
Proof. exact unary_adjoint. Qed.
Print Assumptions C77_unary_adjoint.

Theorem C77_binary_adjoint :
  forall mk f D vid i j v vbar, In (mk, f, D) binary_fns -> (i < length v)%nat -> (j < length v)%nat ->
  (i < length vbar)%nat -> (j < length vbar)%nat -> (vid < length vbar)%nat -> vid <> i ->
  D (nth i v 0) (nth j v 0) ->
  exists vbar', op_first_order_reverse Rops (mk vid i j) v vbar = Ok vbar' /\
    forall dv l, length dv = length vbar ->
      derivable_pt_lim (fun s => f (nth i v 0 + s * nth i dv 0) (nth j v 0 + s * nth j dv 0)) 0 l ->
      dot vbar' dv = dot vbar dv + nth vid vbar 0 * l.
Proof. exact binary_adjoint. Qed.
Print Assumptions C77_binary_adjoint.

(** [abs]: the tangent is the increment of the absolute value; the reverse step panics. *)
Theorem C77_abs :
  forall vid i v dv vbar, (i < length v)%nat -> (i < length dv)%nat -> (vid < length dv)%nat ->
  op_first_order Rops (op_abs vid i) v dv = Ok (update dv vid (Rabs (nth i v 0 + nth i dv 0) - Rabs (nth i v 0))) /\
  op_first_order_reverse Rops (op_abs vid i) v vbar = Panic PAbsReverse.
Proof. exact abs_tangent. Qed.
Print Assumptions C77_abs.

(** 6 / 2 into slot 2: the value 3, and the adjoints 1/2 and -3/2 of the arguments. *)
Example C77_example :
  In (op_div, Rdiv, fun _ y : R => y <> 0) binary_fns /\ (2 : R) <> 0 /\ (2 <> 0)%nat /\
  op_zero_order Rops (op_div 2 0 1) [6; 2; 0] = Ok [6; 2; 6 / 2] /\
  exists a b, op_first_order_reverse Rops (op_div 2 0 1) [6; 2; 3] [0; 0; 1] = Ok [a; b; 1] /\ a = 1 / 2 /\ b = -3 / 2.
Proof.
  split; [cbn; auto|]. split; [lra|]. split; [lia|]. split; [reflexivity|].
  eexists _, _. split; [reflexivity|]. cbn. change (Pos.to_nat 2) with 2%nat. split; field.
Qed.
Print Assumptions C77_example.
