(** Which inputs of a tape its outputs are connected with.  (Vocabulary of C84 and C85.) *)
From Coq Require Import List Arith ZArith Bool SpecFloat.
From Verif Require Import Base Float FloatInst Operation Tape.
Import ListNotations.

(** The operation computes something from the slot [i]. *)
Definition uses (o : operation) (i : nat) : Prop :=
  opcode o <> Nop /\ opcode o <> Const /\ (arg1 o = Some i \/ arg2 o = Some i).

(** There is a path of operations from the slot [i] to the slot [j]. *)
Inductive leads (ops : list operation) : nat -> nat -> Prop :=
| leads_refl i : leads ops i i
| leads_step i o j : In o ops -> uses o i -> leads ops (vid o) j -> leads ops i j.

(** Output [k] is connected with input [i]. *)
Definition connected {F : Type} (t : tape F) (i k : nat) : Prop :=
  exists a b, nth_error (t_indeps t) i = Some a /\ nth_error (t_deps t) k = Some b /\
    leads (t_ops t) a b.

(** The operations on the path are not powers. *)
Definition no_powf {F : Type} (t : tape F) : Prop := forall o, In o (t_ops t) -> opcode o <> Powf.

(** The elementary functions of the libm map NaN to NaN, as C demands. *)
Definition libm_nan (T : libm) : Prop :=
  l_sin T S754_nan = S754_nan /\ l_cos T S754_nan = S754_nan /\ l_tan T S754_nan = S754_nan /\
  l_exp T S754_nan = S754_nan /\ l_ln T S754_nan = S754_nan /\ l_asin T S754_nan = S754_nan /\
  l_acos T S754_nan = S754_nan /\ l_atan T S754_nan = S754_nan.
