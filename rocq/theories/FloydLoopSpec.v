(** Specification of the shortest-path example's loop, in any arithmetic. *)
From Coq Require Import List.
From Verif Require Import Base Float Matrix Descent FloydLoop.
Import ListNotations.

Section Spec.
Context {F : Type} (Fo : Fops F).

Definition minus (u v : list F) : list F := map (fun ab => f_sub Fo (fst ab) (snd ab)) (combine u v).
(** one move of length [a] against the gradient [g] *)
Definition moved (p : list F) (a : F) (g : list F) : list F := minus p (map (f_mul Fo a) g).
(** the length of the next move: |dp . dg| / (dg . dg) *)
Definition next_length (dp dg : list F) : F :=
  f_div Fo (f_abs Fo (fdot Fo dp dg)) (fdot Fo dg dg).

(** [follows grad eps p a ps]: from [p], the first move having length [a], the method visits [ps]; it
    moves only where the gradient is longer than [eps]. *)
Inductive follows (grad : list F -> list F) (eps : F) : list F -> F -> list (list F) -> Prop :=
| stays p a : follows grad eps p a []
| moves p a p1 ps : f_ltb Fo eps (norm Fo (grad p)) = true -> p1 = moved p a (grad p) ->
    follows grad eps p1 (next_length (minus p1 p) (minus (grad p1) (grad p))) ps ->
    follows grad eps p a (p1 :: ps).

(** What is printed in an iteration that goes from one point to the next: the error where it starts,
    the gradient where it ends. *)
Definition lines (val : list F -> F) (grad : list F -> list F) (start : list F) (ps : list (list F)) : list (line F) :=
  flat_map (fun pq => [PrintE (f_sqrt Fo (val (fst pq))); PrintG (grad (snd pq))]) (combine (start :: ps) ps).
End Spec.
