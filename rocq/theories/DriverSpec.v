(** Vocabulary for the panics of the drivers. *)
From Coq Require Import List Arith.
From Verif Require Import Base Float AContext Function Matrix GenJac.
Import ListNotations.

Section DriverSpec.
Context {F : Type} (Fo : Fops F).

(** The matrix in [next] is a matrix (every nalgebra matrix is). *)
Definition wf_next (next : option (gjac F)) : Prop :=
  match next with Some g => wf_mat (g_hom g) | None => True end.

(** [next] can be applied to m numbers. *)
Definition next_fits (m : nat) (next : option (gjac F)) : Prop :=
  match next with
  | Some g => m_cols (g_hom g) = m /\ length (g_inh g) = m_rows (g_hom g)
  | None => True
  end.
Definition rows_out (m : nat) (next : option (gjac F)) : nat :=
  match next with Some g => m_rows (g_hom g) | None => m end.
Definition mult_in (next : option (gjac F)) : nat :=
  match next with Some g => g_mult g | None => 0 end.

(** The functions, applied one after the other to plain numbers, lead from x to y, and each has
    the number of inputs it reports. *)
Inductive reaches : list (func F) -> list F -> list F -> Prop :=
| reaches_nil x : reaches [] x x
| reaches_cons f fs x y z :
    fn_n f = Ok (length x) -> eval_float Fo f x world0 = Ok (y, world0) -> reaches fs y z ->
    reaches (f :: fs) x z.
End DriverSpec.
