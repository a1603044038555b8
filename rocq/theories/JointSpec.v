(** Vocabulary of C69: what threads compute jointly on one context. *)
From Coq Require Import List Arith ZArith Bool.
From Verif Require Import Base Float Operation Tape AContext Concurrent ConcSpec.
Import ListNotations.

(** What has been computed: independent variables (by id), constants, operations. *)
Inductive expr (S : Type) : Type :=
| EIndep (k : nat)
| EConst (s : S)
| EOp1 (oc : OpCode) (e : expr S)
| EOp2 (oc : OpCode) (e1 e2 : expr S).
Arguments EIndep {S}. Arguments EConst {S}. Arguments EOp1 {S}. Arguments EOp2 {S}.

Section Spec.
Context {S F : Type} (So : Fops S) (Fo : Fops F) (tof : S -> option F).

(** The value of an expression when the independent variables with the ids [ids] have the values
    [x]. *)
Inductive has_value (ids : list nat) (x : list F) : expr S -> F -> Prop :=
| hv_indep p k v : nth_error ids p = Some k -> nth_error x p = Some v -> has_value ids x (EIndep k) v
| hv_const s v : tof s = Some v -> has_value ids x (EConst s) v
| hv_op1 oc e a v : has_value ids x e a -> zero_order_value Fo oc a None = Ok v ->
    has_value ids x (EOp1 oc e) v
| hv_op2 oc e1 e2 a b v : has_value ids x e1 a -> has_value ids x e2 b ->
    zero_order_value Fo oc a (Some b) = Ok v -> has_value ids x (EOp2 oc e1 e2) v.

(** Its value together with its derivative in the direction [dx] of the independent variables. *)
Inductive has_tangent (ids : list nat) (x dx : list F) : expr S -> F -> F -> Prop :=
| ht_indep p k v d : nth_error ids p = Some k -> nth_error x p = Some v -> nth_error dx p = Some d ->
    has_tangent ids x dx (EIndep k) v d
| ht_const s v : tof s = Some v -> has_tangent ids x dx (EConst s) v (f_zero Fo)
| ht_op1 oc e a da v d : has_tangent ids x dx e a da -> zero_order_value Fo oc a None = Ok v ->
    first_order_value Fo oc a None da None = Ok d -> has_tangent ids x dx (EOp1 oc e) v d
| ht_op2 oc e1 e2 a da b db v d : has_tangent ids x dx e1 a da -> has_tangent ids x dx e2 b db ->
    zero_order_value Fo oc a (Some b) = Ok v -> first_order_value Fo oc a (Some b) da (Some db) = Ok d ->
    has_tangent ids x dx (EOp2 oc e1 e2) v d.

(** State [g'] comes some time after the state [g] of the process, whatever the threads have done
    meanwhile. *)
Definition later (g g' : sys S F) : Prop := reachable So tof g /\ exists s, play So tof g s = Some g'.

(** Thread [i] makes the call [m] in state [g] of the process, and the call returns [r] in state
    [g']; the other threads may have done anything meanwhile. *)
Definition returns (g : sys S F) (i : nat) (m : @move S) (r : ret S F) (g' : sys S F) : Prop :=
  reachable So tof g /\ exists g1 s, step So tof g i m = Some g1 /\ carries_on i s /\ play So tof g1 s = Some g' /\
    t_code (g_thr g' i) = Some (Ret r).

(** In state [g] variable [z], recorded on a context (or a constant), has been computed as [e], by
    whichever threads. *)
Inductive computed : sys S F -> AF S -> expr S -> Prop :=
| co_const g v dv : computed g (mkAF v dv None) (EConst v)
| co_later g g' z e : computed g z e -> later g g' -> computed g' z e
| co_seed g z dv e : computed g z e -> computed g (mkAF (af_v z) dv (af_ctx z)) e
| co_indep g i a n z c k g' : returns g i (DoIndep a n) (RVar z) g' -> af_ctx z = Some (c, k) ->
    computed g' z (EIndep k)
| co_op1 g i oc n x e z c k g' : nth_error (g_vars g) n = Some x -> computed g x e ->
    returns g i (DoOp oc n None) (RVar z) g' -> af_ctx z = Some (c, k) -> computed g' z (EOp1 oc e)
| co_op2 g i oc n1 n2 x1 x2 e1 e2 z c k g' :
    nth_error (g_vars g) n1 = Some x1 -> nth_error (g_vars g) n2 = Some x2 ->
    computed g x1 e1 -> computed g x2 e2 ->
    returns g i (DoOp oc n1 (Some n2)) (RVar z) g' -> af_ctx z = Some (c, k) ->
    computed g' z (EOp2 oc e1 e2).

(** The value of a variable on a tape: that under its id, or its own if it is a constant. *)
Definition value_in (t : tape F) (z : AF S) : option F :=
  match af_ctx z with Some (_, k) => nth_error (t_vals t) k | None => tof (af_v z) end.

(** Context [a] has the number [c]. *)
Definition number (g : sys S F) (a c : nat) : Prop := exists r, g_arc g a = Some r /\ a_cid r = c.
End Spec.
