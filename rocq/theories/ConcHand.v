(** Vocabulary of C90: threads that also record operations by hand, through the public method
    AContext::record (acontext.rs:147-164), besides assigning to value_mut() (ConcWrite.v). *)
From Coq Require Import List Arith ZArith Bool Lia.
From Verif Require Import Base Float Operation Tape AContext Spec Ffi Concurrent ConcWrite.
Import ListNotations.

(** A move of ConcWrite.v, or [ctx.record(oc, v, a1, a2)] on a handle of context [a] with whatever
    operands. *)
Inductive hmove (S : Type) : Type :=
| Api (m : wmove S)
| ByHand (a : nat) (oc : OpCode) (v : S) (a1 a2 : option nat).
Arguments Api {S}. Arguments ByHand {S}.

Section Hand.
Context {S F : Type} (So : Fops S) (tof : S -> option F).
Notation sys := (sys S F).

(** acontext.rs:147-164.  The id returned is a number; it is not kept, since anybody may write any
    number as an operand. *)
Definition c_record (a : nat) (oc : OpCode) (v : S) (a1 a2 : option nat) : code S F :=
  crit a (body_record tof oc v a1 a2) (finish (fun _ => RUnit)).

(** One step of thread [i]. *)
Definition hstep (g : sys) (i : nat) (m : hmove S) : option sys :=
  match m with
  | Api m => wstep So tof g i m
  | ByHand a oc v a1 a2 =>
      if i <? g_n g then
        if has a (t_refs (g_thr g i)) then begin g i (c_record a oc v a1 a2) else None
      else None
  end.

Fixpoint hplay (g : sys) (s : list (nat * hmove S)) : option sys :=
  match s with
  | [] => Some g
  | (i, m) :: s' => match hstep g i m with Some g' => hplay g' s' | None => None end
  end.

Definition hreachable (g : sys) : Prop := exists s, hplay sys0 s = Some g.

(** The next instruction of the call a thread is in. *)
Definition go : hmove S := Api (Plain Go).

(** As in ConcSpec.v: a schedule that starts no new calls; thread [i] only carries on with the call
    it is in, and nobody passes it a handle; thread [k] does nothing; the number of steps of thread
    [i]. *)
Definition honly_go (s : list (nat * hmove S)) : Prop := Forall (fun m => snd m = go) s.
Definition hcarries_on (i : nat) (s : list (nat * hmove S)) : Prop :=
  Forall (fun m => (fst m = i -> snd m = go) /\ forall a, snd m <> Api (Plain (DoSend a i))) s.
Definition hrests (k : nat) (s : list (nat * hmove S)) : Prop := Forall (fun m => fst m <> k) s.
Definition hown_steps (i : nat) (s : list (nat * hmove S)) : nat := length (filter (fun m => fst m =? i) s).

End Hand.
