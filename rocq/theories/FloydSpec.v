(** Specification for the shortest-path example: walks in a weighted graph with vertices 0..n-1. *)
From Coq Require Import Reals Lra List Arith Bool.
Import ListNotations.
Open Scope R_scope.

(** [walk n W i j w]: some walk with at least one edge leads from i to j and has total weight w *)
Inductive walk (n : nat) (W : nat -> nat -> R) : nat -> nat -> R -> Prop :=
| walk_edge i j : (i < n)%nat -> (j < n)%nat -> walk n W i j (W i j)
| walk_cons i m j w : (i < n)%nat -> walk n W m j w -> walk n W i j (W i m + w).

(** the weight of a shortest walk *)
Definition shortest (n : nat) (W : nat -> nat -> R) (i j : nat) (d : R) : Prop :=
  walk n W i j d /\ forall w, walk n W i j w -> d <= w.

(** no walk back to its start has negative weight *)
Definition no_negative_cycle (n : nat) (W : nat -> nat -> R) : Prop :=
  forall i w, walk n W i i w -> 0 <= w.

(** A matrix in a vector, row by row. *)
Definition at_ (n : nat) (v : list R) (i j : nat) : R := nth (i * n + j) v 0.

(** The street map of the example: two-way streets, the one declared last counts; 0 from a crossing
    to itself, [inf] where there is no street. *)
Fixpoint street (inf : R) (last_first : list (nat * nat * R)) (i j : nat) : R :=
  match last_first with
  | [] => if Nat.eqb i j then 0 else inf
  | (u, v, w) :: l =>
      if (Nat.eqb i u && Nat.eqb j v) || (Nat.eqb i v && Nat.eqb j u) then w else street inf l i j
  end.

(** The share of green a light gives to one of its directions: the parameter clamped to
    [0.01, 0.99] for top/bottom, the rest for left/right; a street takes 1 + 1 / share. *)
Definition share (p : R) (top : bool) : R :=
  let q := Rmin (Rmax p (1 / 100)) (99 / 100) in if top then q else 1 - q.
Definition travel_time (params : list R) (light : nat) (top : bool) : R :=
  1 + 1 / share (nth light params 0) top.

(** Streets as the example lists them: ends, number of the light, whether top/bottom. *)
Definition street_ok (n nlights : nat) (e : nat * nat * (nat * bool)) : Prop :=
  let '(u, v, (l, _)) := e in (u < n)%nat /\ (v < n)%nat /\ (l < nlights)%nat.
(** with travel times, the last one first *)
Definition streets (params : list R) (edges : list (nat * nat * (nat * bool))) : list (nat * nat * R) :=
  rev (map (fun e => let '(u, v, (l, top)) := e in (u, v, travel_time params l top)) edges).

(** sum of the squares of d u v over a list of pairs *)
Definition sumsq (d : nat -> nat -> R) (l : list (nat * nat)) : R :=
  fold_left (fun r uv => r + d (fst uv) (snd uv) * d (fst uv) (snd uv)) l 0.
