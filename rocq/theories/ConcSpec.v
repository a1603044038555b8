(** Vocabulary of C46-C48. *)
From Coq Require Import List Arith ZArith Bool Lia.
From Verif Require Import Base Float Operation Tape AContext AContextFacts Spec Concurrent.
Import ListNotations.

Section Spec.
Context {S F : Type} (So : Fops S) (tof : S -> option F).

(** The value with id [k] was recorded from the scalar [s]. *)
Definition val_is (vals : list F) (k : nat) (s : S) : Prop :=
  exists fv, tof s = Some fv /\ nth_error vals k = Some fv.

(** The recorded result of an operation is the elementary function of its recorded operands. *)
Definition explained (vals : list F) (o : operation) : Prop :=
  opcode o = Const \/
  exists i a r, arg1 o = Some i /\ val_is vals i a /\ val_is vals (vid o) r /\
    match arg2 o with
    | None => zero_order_value So (opcode o) a None = Ok r
    | Some j => exists b, val_is vals j b /\ zero_order_value So (opcode o) a (Some b) = Ok r
    end.

(** A well formed and consistent recording. *)
Definition good_inner (i : inner F) : Prop :=
  recorded_tape (tape_of i) /\ forall o, In o (i_ops i) -> explained (i_vals i) o.

(** A variable agrees with the tape: its context exists and has its value under its id. *)
Definition agrees (g : sys S F) (x : AF S) : Prop :=
  match af_ctx x with
  | None => True
  | Some (c, v) => exists a r, g_arc g a = Some r /\ a_cid r = c /\ val_is (i_vals (a_inner r)) v (af_v x)
  end.

(** [l] is a prefix of [l']. *)
Definition prefix {A : Type} (l l' : list A) : Prop := exists m, l' = l ++ m.

(** Every part of the snapshot is an initial part of what context [r] has recorded. *)
Definition snapshot_of (t : tape F) (r : arc F) : Prop :=
  prefix (t_indeps t) (i_indeps (a_inner r)) /\ prefix (t_deps t) (i_deps (a_inner r)) /\
  prefix (t_ops t) (i_ops (a_inner r)) /\ prefix (t_vals t) (i_vals (a_inner r)).

(** A thread is between two API calls. *)
Definition idle (g : sys S F) (i : nat) : Prop := t_code (g_thr g i) = None.
(** Some thread has a handle of context [a]. *)
Definition live (g : sys S F) (a : nat) : Prop := exists i, In a (t_refs (g_thr g i)).

(** Thread [i] is about to take a lock that another thread [j] holds: the registry's or that
    of context [a]. *)
Definition waits_for (g : sys S F) (i j : nat) : Prop :=
  (exists k, t_code (g_thr g i) = Some (MLock k) /\ g_mlock g = Some j) \/
  (exists a k r, t_code (g_thr g i) = Some (Lock a k) /\ g_arc g a = Some r /\ a_lock r = Some j).

(** Thread [j] holds some lock. *)
Definition holds (g : sys S F) (j : nat) : Prop :=
  g_mlock g = Some j \/ exists a r, g_arc g a = Some r /\ a_lock r = Some j.

(** The code unlocks after at most [n] further micro-instructions, none of which can block. *)
Fixpoint unlocks (n : nat) (c : code S F) : Prop :=
  match c, n with
  | MUnlock _, _ | Unlock _ _ _, _ => True
  | MInsert _ _ k, Datatypes.S n' | MRemove _ k, Datatypes.S n' => unlocks n' k
  | MGet _ k, Datatypes.S n' => forall o, unlocks n' (k o)
  | Upgrade _ k, Datatypes.S n' => forall b, unlocks n' (k b)
  | Access _ _ k, Datatypes.S n' => forall c i, unlocks n' (k c i)
  | _, _ => False
  end.

(** Thread [i] has created context [a] but not yet entered it in the registry. *)
Definition constructing (g : sys S F) (i a : nat) : Prop :=
  exists c k, t_code (g_thr g i) = Some (MLock (MInsert c a k)) \/ t_code (g_thr g i) = Some (MInsert c a k).
(** Thread [i] has dropped the last handle of context [a] but not yet deleted its entry. *)
Definition destroying (g : sys S F) (i a : nat) : Prop :=
  exists k, t_code (g_thr g i) = Some (MLock (MRemove a k)) \/ t_code (g_thr g i) = Some (MRemove a k).

(** A schedule that starts no new calls. *)
Definition only_go (s : list (nat * @move S)) : Prop := Forall (fun m => snd m = Go) s.

(** Thread [i] only carries on with the call it is in, and nobody passes it a handle. *)
Definition carries_on (i : nat) (s : list (nat * @move S)) : Prop :=
  Forall (fun m => (fst m = i -> snd m = Go) /\ forall a, snd m <> DoSend a i) s.
(** Thread [k] does nothing. *)
Definition rests (k : nat) (s : list (nat * @move S)) : Prop := Forall (fun m => fst m <> k) s.
(** The number of steps of thread [i]. *)
Definition own_steps (i : nat) (s : list (nat * @move S)) : nat := length (filter (fun m => fst m =? i) s).

End Spec.
