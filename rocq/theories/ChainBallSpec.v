(** The chain driver as a computation on the tapes of the functions in the chain, in any arithmetic. *)
From Coq Require Import Reals List Arith NArith.
From Verif Require Import Base Float Operation Tape AContext Methods Function Spec Instances TapeFacts Matrix AbsNormal GenJac GenBallSpec.
Import ListNotations.

Section Along.
Context {F : Type} (Fo : Fops F) (red : list (list (nat * list F)) -> list (nat * list F)).

(** Replay the first tape at [x], push value and direction on to the rest, and hand the result for
    the rest to the first tape (drivers/generalized_jacobian.rs:149-187 without the checkpointing of
    drivers/checkpointing.rs). *)
Fixpoint along (ts : list (tape F)) (x dx : list F) : res (gjac F) :=
  match ts with
  | [] => Ok (mkG (m_id Fo (length x)) (repeat (f_zero Fo) (length x)) 0)
  | t :: ts' =>
      t1 <- tape_zero_order Fo t x ;;
      y <- tape_y t1 ;;
      dy <- tape_forward Fo t1 dx ;;
      g <- along ts' y dy ;;
      generalized_jacobian_tape Fo red t1 dx [0%N] (Some g)
  end.

(** The numbers whose signs are decided on the way, tape by tape. *)
Fixpoint along_switching (ts : list (tape F)) (x dx : list F) : res (list F) :=
  match ts with
  | [] => Ok []
  | t :: ts' =>
      t1 <- tape_zero_order Fo t x ;;
      y <- tape_y t1 ;;
      dy <- tape_forward Fo t1 dx ;;
      s <- switching_values Fo red t1 dx ;;
      r <- along_switching ts' y dy ;;
      Ok (s ++ r)
  end.

(** The tangents pushed through all tapes. *)
Fixpoint along_forward (ts : list (tape F)) (x dx : list F) : res (list F) :=
  match ts with
  | [] => Ok dx
  | t :: ts' =>
      t1 <- tape_zero_order Fo t x ;;
      y <- tape_y t1 ;;
      dy <- tape_forward Fo t1 dx ;;
      along_forward ts' y dy
  end.

(** Each tape is a tape and takes what the one before it returns, the first one [n] numbers. *)
Fixpoint fits (ts : list (tape F)) (n : nat) : Prop :=
  match ts with
  | [] => True
  | t :: ts' => wf_tape t /\ num_indeps t = n /\ fits ts' (num_deps t)
  end.

(** [ts] are the tapes the functions record, each at the values and for the direction the ones
    before it deliver; no function passes a nonzero tangent through a constant ([const_tangents_zero]
    in Instances.v). *)
Inductive recorded : list (func F) -> list F -> list F -> list (tape F) -> Prop :=
| recorded_nil x dx : recorded [] x dx []
| recorded_cons f fs x dx w t w' y dy ts :
    fn_n f = Ok (length x) -> fn_tape Fo f x w = Ok (t, w') -> const_tangents_zero Fo f x dx ->
    tape_y t = Ok y -> tape_forward Fo t dx = Ok dy ->
    recorded fs y dy ts -> recorded (f :: fs) x dx (t :: ts).
End Along.

(** [b] lies on the side that [a] selects; the drivers of the chain select the negative side at zero
    (drivers/generalized_jacobian.rs:178, the bit vector [0]). *)
Definition same_side (a b : R) : Prop := (0 < a -> 0 <= b)%R /\ (a <= 0 -> b <= 0)%R.
