(** Specification vocabulary: differences and distances of points. *)
From Coq Require Import Reals List.
From Verif Require Import DerivSpec.
Import ListNotations.
Open Scope R_scope.

(** the vector x - y *)
Definition vdiff (x y : list R) : list R := map (fun p => fst p - snd p) (combine x y).
(** the distance of two points, in the 1-norm *)
Definition dist1 (x y : list R) : R := nrm1 (vdiff x y).
