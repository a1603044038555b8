(** Model of src/tape.rs. *)
From Coq Require Import List Arith ZArith Bool Lia.
From Verif Require Import Base Float Operation.
Import ListNotations.

(** tape.rs:6-16: the required methods of [trait Tape], i.e. what a tape exposes.
    [AContextTape] (acontext.rs:207-235) is exactly such a record.  Simplification: the
    mutable view [values_mut] is modelled by returning the tape with new values; the
    implementations whose [values_mut] panics (abs_normal.rs:246-248) are treated in
    AbsNormal.v. *)
Record tape (F : Type) : Type := mkTape {
  t_indeps : list nat;
  t_deps : list nat;
  t_ops : list operation;
  t_vals : list F
}.
Arguments mkTape {F}. Arguments t_indeps {F}. Arguments t_deps {F}. Arguments t_ops {F}.
Arguments t_vals {F}.

Section Tape.
Context {F : Type} (Fo : Fops F).

(** tape.rs:19-21 *)
Definition num_indeps (t : tape F) : nat := length (t_indeps t).

(** tape.rs:24-26 *)
Definition num_deps (t : tape F) : nat := length (t_deps t).

Definition is_abs (o : operation) : bool := opcode_eqb (opcode o) Abs.

(** tape.rs:29-33 *)
Definition num_abs (t : tape F) : nat := length (filter is_abs (t_ops t)).

(** [iter().max().unwrap_or(0)] *)
Definition max_or_0 (l : list nat) : nat := fold_right Nat.max 0 l.

(** tape.rs:36-41 *)
Definition max_id (t : tape F) : nat :=
  Nat.max (Nat.max (max_or_0 (t_indeps t)) (max_or_0 (t_deps t)))
          (max_or_0 (map vid (t_ops t))).

(** [for (idx, vid) in ids.iter().enumerate() { arr[*vid] = x[idx]; }]
    (tape.rs:65-67, 78-80, 95-97) *)
Fixpoint scatter (ids : list nat) (x : list F) (arr : list F) : res (list F) :=
  match ids with
  | [] => Ok arr
  | i :: ids' =>
      match x with
      | [] => Panic PIndex
      | a :: x' => arr' <- set arr i a ;; scatter ids' x' arr'
      end
  end.

(** [for (idx, vid) in ids.iter().enumerate() { y[idx] = arr[*vid]; }]
    (tape.rs:46-48, 55-57, 85-87, 102-104) *)
Definition gather (ids : list nat) (arr : list F) : res (list F) := mapM (get arr) ids.

(** tape.rs:44-50 *)
Definition tape_x (t : tape F) : res (list F) := gather (t_indeps t) (t_vals t).

(** tape.rs:53-59 *)
Definition tape_y (t : tape F) : res (list F) := gather (t_deps t) (t_vals t).

(** tape.rs:68-70: all operations in recording order *)
Definition zero_sweep (ops : list operation) (v : list F) : res (list F) :=
  foldM (fun v o => op_zero_order Fo o v) ops v.

(** tape.rs:62-72 [Tape::zero_order] *)
Definition tape_zero_order (t : tape F) (x : list F) : res (tape F) :=
  _ <- assert (length x =? num_indeps t) ;;
  values <- scatter (t_indeps t) x (t_vals t) ;;
  values <- zero_sweep (t_ops t) values ;;
  Ok (mkTape (t_indeps t) (t_deps t) (t_ops t) values).

(** tape.rs:81-83 *)
Definition forward_sweep (ops : list operation) (v dv : list F) : res (list F) :=
  foldM (fun dv o => op_first_order Fo o v dv) ops dv.

(** tape.rs:75-89 [Tape::first_order_forward] *)
Definition tape_forward (t : tape F) (dx : list F) : res (list F) :=
  let v := t_vals t in
  dv <- scatter (t_indeps t) dx (repeat (f_zero Fo) (length v)) ;;
  dv <- forward_sweep (t_ops t) v dv ;;
  gather (t_deps t) dv.

(** tape.rs:98-100: operations in reverse order *)
Definition reverse_sweep (ops : list operation) (v vbar : list F) : res (list F) :=
  foldM (fun vbar o => op_first_order_reverse Fo o v vbar) (rev ops) vbar.

(** tape.rs:92-106 [Tape::first_order_reverse] *)
Definition tape_reverse (t : tape F) (ybar : list F) : res (list F) :=
  let v := t_vals t in
  vbar <- scatter (t_deps t) ybar (repeat (f_zero Fo) (length v)) ;;
  vbar <- reverse_sweep (t_ops t) v vbar ;;
  gather (t_indeps t) vbar.

End Tape.
