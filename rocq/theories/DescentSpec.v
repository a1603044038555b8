(** Specification of gradient descent with Barzilai-Borwein steps, over the reals. *)
From Coq Require Import Reals List.
From Verif Require Import Base.
Import ListNotations.
Local Open Scope R_scope.

(** [g] is the gradient of [E] at [p]. *)
Definition is_gradient (E : list R -> R) (p g : list R) : Prop :=
  length g = length p /\
  forall j, (j < length p)%nat ->
    derivable_pt_lim (fun s => E (update p j (nth j p 0 + s))) 0 (nth j g 0).

Fixpoint inner_product (u v : list R) : R :=
  match u, v with
  | a :: u', b :: v' => a * b + inner_product u' v'
  | _, _ => 0
  end.
Definition difference (u v : list R) : list R := map (fun ab => fst ab - snd ab) (combine u v).
Definition length2 (u : list R) : R := sqrt (inner_product u u).

(** [descends E eps p g a es p' g']: started at [p], where the gradient is [g], with step [a], the
    method visits points of errors [es] and arrives at [p'] with gradient [g'].  It moves only from
    points whose gradient is longer than [eps]. *)
Inductive descends (E : list R -> R) (eps : R)
  : list R -> list R -> R -> list R -> list R -> list R -> Prop :=
| at_rest p g a : is_gradient E p g -> descends E eps p g a [] p g
| one_step p g a p1 g1 es p' g' :
    is_gradient E p g -> eps < length2 g ->
    p1 = difference p (map (Rmult a) g) -> is_gradient E p1 g1 ->
    descends E eps p1 g1
      (Rabs (inner_product (difference p1 p) (difference g1 g)) /
       inner_product (difference g1 g) (difference g1 g)) es p' g' ->
    descends E eps p g a (E p1 :: es) p' g'.
