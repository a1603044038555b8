(** Specifications used by the property theorems, stated without the algorithms of the model:
    what a well formed tape is and which equations a replay or a derivative sweep must solve. *)
From Coq Require Import List Arith ZArith Bool Lia Sorted.
From Verif Require Import Base Float Operation Tape.
Import ListNotations.

(** Operation codes with two operands, resp. one. *)
Definition binary_oc (oc : OpCode) : bool :=
  match oc with Add | Sub | Mul | Div | Powf => true | _ => false end.
Definition unary_oc (oc : OpCode) : bool :=
  match oc with
  | Sin | Cos | Tan | Abs | Exp | Ln | Asin | Acos | Atan => true
  | _ => false
  end.

Definition is_nop (o : operation) : bool := opcode_eqb (opcode o) Nop.

(** The ids that some operation defines, in tape order. *)
Definition def_ids (ops : list operation) : list nat :=
  map vid (filter (fun o => negb (is_nop o)) ops).

Arguments def_ids : simpl never.

(** An operation defines one of the ids 0..N-1 and reads only smaller ids, as many as its
    operation code needs. *)
Definition wf_op (N : nat) (o : operation) : Prop :=
  match opcode o with
  | Nop => True
  | Const => vid o < N
  | oc =>
      vid o < N /\
      (exists i, arg1 o = Some i /\ i < vid o) /\
      (if binary_oc oc then exists j, arg2 o = Some j /\ j < vid o else arg2 o = None)
  end.

(** A tape that can be swept: single assignment, arguments before results, everything in
    range. *)
Record wf_tape {F : Type} (t : tape F) : Prop := {
  wf_ops : forall o, In o (t_ops t) -> wf_op (length (t_vals t)) o;
  wf_sorted : StronglySorted lt (def_ids (t_ops t));
  wf_indep_range : forall i, In i (t_indeps t) -> i < length (t_vals t);
  wf_indep_nodup : NoDup (t_indeps t);
  wf_indep_def : forall i, In i (t_indeps t) -> ~ In i (def_ids (t_ops t));
  wf_dep_range : forall d, In d (t_deps t) -> d < length (t_vals t)
}.

(** What a recording produces: in addition no [Nop]s, constants without arguments, and every
    value id is an independent variable or the result of exactly one operation. *)
Record recorded_tape {F : Type} (t : tape F) : Prop := {
  rt_wf : wf_tape t;
  rt_no_nop : forall o, In o (t_ops t) -> opcode o <> Nop;
  rt_const : forall o, In o (t_ops t) -> opcode o = Const -> arg1 o = None /\ arg2 o = None;
  rt_cover : forall k, k < length (t_vals t) -> In k (t_indeps t) \/ In k (def_ids (t_ops t))
}.

Section Equations.
Context {F : Type} (Fo : Fops F).

(** [arr] holds the vector [x] at the positions [ids]. *)
Definition seeded (ids : list nat) (x arr : list F) : Prop :=
  forall k i, nth_error ids k = Some i ->
  exists a, nth_error x k = Some a /\ nth_error arr i = Some a.

(** [arr] satisfies the equation of an operation: the result entry is the elementary function
    applied to the argument entries. *)
Definition value_eq (arr : list F) (o : operation) : Prop :=
  match opcode o with
  | Nop | Const => True
  | oc =>
      exists i a r, arg1 o = Some i /\ nth_error arr i = Some a /\
        nth_error arr (vid o) = Some r /\
        match arg2 o with
        | None => zero_order_value Fo oc a None = Ok r
        | Some j => exists b, nth_error arr j = Some b /\ zero_order_value Fo oc a (Some b) = Ok r
        end
  end.

(** The values of all ids when the tape is evaluated at [x]. *)
Record values_at (t : tape F) (x arr : list F) : Prop := {
  va_len : length arr = length (t_vals t);
  va_seed : seeded (t_indeps t) x arr;
  va_op : forall o, In o (t_ops t) -> value_eq arr o;
  va_keep : forall k, k < length (t_vals t) -> ~ In k (t_indeps t) ->
    (forall o, In o (t_ops t) -> vid o = k -> opcode o = Const \/ opcode o = Nop) ->
    nth_error arr k = nth_error (t_vals t) k
}.

(** [darr] satisfies the differentiated equation of an operation at the values [v]. *)
Definition tangent_eq (v darr : list F) (o : operation) : Prop :=
  match opcode o with
  | Nop => True
  | Const => nth_error darr (vid o) = Some (f_zero Fo)
  | oc =>
      exists i a d r, arg1 o = Some i /\ nth_error v i = Some a /\ nth_error darr i = Some d /\
        nth_error darr (vid o) = Some r /\
        match arg2 o with
        | None => first_order_value Fo oc a None d None = Ok r
        | Some j => exists b e, nth_error v j = Some b /\ nth_error darr j = Some e /\
                    first_order_value Fo oc a (Some b) d (Some e) = Ok r
        end
  end.

(** The tangents of all ids for the tangent [dx] of the independents. *)
Record tangents_at (t : tape F) (dx darr : list F) : Prop := {
  ta_len : length darr = length (t_vals t);
  ta_seed : seeded (t_indeps t) dx darr;
  ta_op : forall o, In o (t_ops t) -> tangent_eq (t_vals t) darr o;
  ta_zero : forall k, k < length (t_vals t) -> ~ In k (t_indeps t) ->
    ~ In k (def_ids (t_ops t)) -> nth_error darr k = Some (f_zero Fo)
}.

End Equations.
