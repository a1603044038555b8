(** The API calls that [Function::tape] (function.rs:26-37) makes for a user function. *)
From Coq Require Import List Arith ZArith Bool Lia.
From Verif Require Import Base Float Operation Tape AContext Methods Function Spec Param Api.
Import ListNotations.

Section Trace.
Context {F : Type} (Fo : Fops F).

(** A variable of the function: its value, and its number among the thread's variables unless it
    is a constant that no call has created yet (afloat.rs:127-131). *)
Record tv : Type := mkTv { tv_v : F; tv_i : option nat }.

(** How many variables there are, and the calls so far. *)
Definition tlog : Type := nat * list (call F).
Definition emit (k : call F) (st : tlog) : tlog := (fst st, snd st ++ [k]).

(** The number of a variable; a constant is created now. *)
Definition place (x : tv) (st : tlog) : nat * tlog :=
  match tv_i x with
  | Some i => (i, st)
  | None => (fst st, (fst st + 1, snd st ++ [CVar (tv_v x) (f_zero Fo)]))
  end.

(** An operation is the call [COp]; its value decides the branches of the function.
    afloat.rs:47-95 *)
Definition t_fop (oc : OpCode) (x : tv) (y : option tv) : M tlog tv := fun st =>
  let '(i, st1) := place x st in
  let '(j, st2) := match y with
                   | None => (None, st1)
                   | Some y' => let '(j, st') := place y' st1 in (Some j, st')
                   end in
  match zero_order_value Fo oc (tv_v x) (option_map tv_v y) with
  | Panic p => Panic p
  | Ok v => Ok (mkTv v (Some (fst st2)), (fst st2 + 1, snd st2 ++ [COp oc i j]))
  end.

(** function.rs:28-30: every input is created and made independent *)
Fixpoint in_calls (i : nat) (x : list F) : list (call F) :=
  match x with
  | [] => []
  | v :: x' => CVar v (f_zero Fo) :: CIndep 0 i :: in_calls (i + 1) x'
  end.
Fixpoint in_vars (i : nat) (x : list F) : list tv :=
  match x with
  | [] => []
  | v :: x' => mkTv v (Some i) :: in_vars (i + 1) x'
  end.

(** function.rs:32: every output is made dependent *)
Fixpoint out_calls (y : list tv) (st : tlog) : tlog :=
  match y with
  | [] => st
  | v :: y' => let '(i, st') := place v st in out_calls y' (emit (CDep 0 i) st')
  end.

(** function.rs:26-37 in a fresh thread: its context has handle 0 *)
Definition fn_calls (f : func F) (x : list F) : res (list (call F)) :=
  match feval Fo t_fop (fun c => mkTv c None) tv_v f (in_vars 0 x) (length x, CNew :: in_calls 0 x) with
  | Ok (y, st) => Ok (snd (out_calls y st) ++ [CTape 0; CDrop 0])
  | Panic p => Panic p
  end.

End Trace.
