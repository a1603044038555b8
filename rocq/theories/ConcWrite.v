(** Vocabulary of C89: threads that also overwrite values through AFloat::value_mut (afloat.rs:32-34).
    The process is that of Concurrent.v, with one more move. *)
From Coq Require Import List Arith ZArith Bool Lia.
From Verif Require Import Base Float Operation Tape AContext Spec Ffi Concurrent.
Import ListNotations.

(** A move of Concurrent.v, or [*x.value_mut() = v] on a variable the thread knows (afloat.rs:32-34).
    Variables are copied freely, so the old one stays known, as with dvalue_mut in Concurrent.v. *)
Inductive wmove (S : Type) : Type :=
| Plain (m : @move S)
| SetValue (x : nat) (v : S).
Arguments Plain {S}. Arguments SetValue {S}.

Section Write.
Context {S F : Type} (So : Fops S) (tof : S -> option F).
Notation sys := (sys S F).

(** afloat.rs:32-34: the value changes, derivative and context stay. *)
Definition set_value (x : AF S) (v : S) : AF S := mkAF v (af_dv x) (af_ctx x).

(** One step of thread [i]. *)
Definition wstep (g : sys) (i : nat) (m : wmove S) : option sys :=
  match m with
  | Plain m => step So tof g i m
  | SetValue x v =>
      if i <? g_n g then
        match t_code (g_thr g i), nth_error (g_vars g) x with
        | None, Some x' => Some (add_var g (set_value x' v))
        | _, _ => None
        end
      else None
  end.

(** A schedule: which thread does what. *)
Fixpoint wplay (g : sys) (s : list (nat * wmove S)) : option sys :=
  match s with
  | [] => Some g
  | (i, m) :: s' => match wstep g i m with Some g' => wplay g' s' | None => None end
  end.

Definition wreachable (g : sys) : Prop := exists s, wplay sys0 s = Some g.

(** As in ConcSpec.v: a schedule that starts no new calls; thread [i] only carries on with the call
    it is in, and nobody passes it a handle; thread [k] does nothing; the number of steps of thread
    [i]. *)
Definition wonly_go (s : list (nat * wmove S)) : Prop := Forall (fun m => snd m = Plain Go) s.
Definition wcarries_on (i : nat) (s : list (nat * wmove S)) : Prop :=
  Forall (fun m => (fst m = i -> snd m = Plain Go) /\ forall a, snd m <> Plain (DoSend a i)) s.
Definition wrests (k : nat) (s : list (nat * wmove S)) : Prop := Forall (fun m => fst m <> k) s.
Definition wown_steps (i : nat) (s : list (nat * wmove S)) : nat := length (filter (fun m => fst m =? i) s).

End Write.
