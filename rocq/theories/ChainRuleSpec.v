(** Specification vocabulary for the chain rule. *)
From Coq Require Import List Arith.
From Verif Require Import Base Float Operation Tape AContext Methods Function Spec Instances.
Import ListNotations.

Section Links.
Context {F : Type} (Fo : Fops F).

(** [links fs x ts y]: [ts] are the tapes of the functions [fs], each recorded at the values the ones
    before it return, the first one at [x]; the last returns [y]. *)
Inductive links : list (func F) -> list F -> list (tape F) -> list F -> Prop :=
| links_nil x : links [] x [] x
| links_cons f fs x w t w' y ts z :
    fn_tape Fo f x w = Ok (t, w') -> tape_y t = Ok y -> links fs y ts z -> links (f :: fs) x (t :: ts) z.

(** Forward sweeps on all tapes, from the first to the last; reverse sweeps, from the last to the first. *)
Fixpoint push (ts : list (tape F)) (dx : list F) : res (list F) :=
  match ts with [] => Ok dx | t :: ts' => dy <- tape_forward Fo t dx ;; push ts' dy end.
Fixpoint pull (ts : list (tape F)) (ybar : list F) : res (list F) :=
  match ts with [] => Ok ybar | t :: ts' => zbar <- pull ts' ybar ;; tape_reverse Fo t zbar end.

(** No function passes a nonzero tangent through a constant, on the way of [dx] through the tapes (always
    so over the reals). *)
Fixpoint steady (fs : list (func F)) (ts : list (tape F)) (x dx : list F) : Prop :=
  match fs, ts with
  | f :: fs', t :: ts' =>
      const_tangents_zero Fo f x dx /\
      forall y dy, tape_y t = Ok y -> tape_forward Fo t dx = Ok dy -> steady fs' ts' y dy
  | _, _ => True
  end.
End Links.
