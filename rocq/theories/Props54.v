(** Property theorems C102, error bounds. *)
From Coq Require Import Reals Lra List Arith ZArith Bool.
From Verif Require Import Base Float Operation Tape AContext Methods Function Spec Instances RealInst DerivSpec LinearFacts StableSpec
  SamePath SameStable Props52.
Import ListNotations.
Open Scope R_scope.

(** *** C102 The error of the piecewise linearisation is quadratic, with one constant for all base points x1 and
    all points v near a point where the function is recorded alike (C79 for these functions). *)
Theorem C102_quadratic_error :
  forall (f : func R) (x : list R) (w : world R) (t : tape R) (w' : world R),
  fn_tape Rops f x w = Ok (t, w') -> regular f x -> alike_near f x ->
  exists K d, 0 <= K /\ 0 < d /\ forall x1 v,
    length x1 = length x -> length v = length x -> dist1 x1 x < d -> dist1 v x < d -> forall w1,
    exists t1 w1' y1 dy yv,
      fn_tape Rops f x1 w1 = Ok (t1, w1') /\ tape_y t1 = Ok y1 /\
      tape_forward Rops t1 (vdiff v x1) = Ok dy /\
      (forall w2, eval_float Rops f v w2 = Ok (yv, w2)) /\
      length y1 = num_deps t /\ length dy = num_deps t /\ length yv = num_deps t /\
      forall j, (j < num_deps t)%nat ->
        Rabs (nth j yv 0 - nth j y1 0 - nth j dy 0) <= K * (dist1 v x1 * dist1 v x1) /\
        Rabs (nth j yv 0 - nth j y1 0) <= K * dist1 v x1 /\
        Rabs (nth j dy 0) <= K * dist1 v x1.
Proof. exact alike_quadratic. Qed.
Print Assumptions C102_quadratic_error.

(** Models made at two base points, compared at the same point v. *)
Theorem C102_models_at_two_points :
  forall (f : func R) (x : list R) (w : world R) (t : tape R) (w' : world R),
  fn_tape Rops f x w = Ok (t, w') -> regular f x -> alike_near f x ->
  exists K d, 0 <= K /\ 0 < d /\ forall x1 x2 v,
    length x1 = length x -> length x2 = length x -> length v = length x ->
    dist1 x1 x < d -> dist1 x2 x < d -> dist1 v x < d -> forall w1 w2,
    exists t1 w1' t2 w2' y1 y2 dy1 dy2,
      fn_tape Rops f x1 w1 = Ok (t1, w1') /\ fn_tape Rops f x2 w2 = Ok (t2, w2') /\
      tape_y t1 = Ok y1 /\ tape_y t2 = Ok y2 /\
      tape_forward Rops t1 (vdiff v x1) = Ok dy1 /\ tape_forward Rops t2 (vdiff v x2) = Ok dy2 /\
      length y1 = num_deps t /\ length y2 = num_deps t /\
      length dy1 = num_deps t /\ length dy2 = num_deps t /\
      forall j, (j < num_deps t)%nat ->
        Rabs ((nth j y1 0 + nth j dy1 0) - (nth j y2 0 + nth j dy2 0))
          <= K * (dist1 x1 x2 * (dist1 v x1 + dist1 v x2)).
Proof. exact alike_models. Qed.
Print Assumptions C102_models_at_two_points.

(** Without abs the derivatives are Lipschitz, for every direction. *)
Theorem C102_derivatives_lipschitz :
  forall (f : func R) (x : list R) (w : world R) (t : tape R) (w' : world R),
  fn_tape Rops f x w = Ok (t, w') -> regular f x -> alike_near f x -> no_abs t ->
  exists K d, 0 <= K /\ 0 < d /\ forall x1 x2,
    length x1 = length x -> length x2 = length x -> dist1 x1 x < d -> dist1 x2 x < d ->
    forall w1 w2, exists t1 w1' t2 w2',
      fn_tape Rops f x1 w1 = Ok (t1, w1') /\ fn_tape Rops f x2 w2 = Ok (t2, w2') /\
      forall h, length h = length x -> exists dy1 dy2,
        tape_forward Rops t1 h = Ok dy1 /\ tape_forward Rops t2 h = Ok dy2 /\
        length dy1 = num_deps t /\ length dy2 = num_deps t /\
        forall j, (j < num_deps t)%nat -> Rabs (nth j dy1 0 - nth j dy2 0) <= K * dist1 x1 x2 * nrm1 h.
Proof. exact alike_lipschitz. Qed.
Print Assumptions C102_derivatives_lipschitz.

(** The function that compares its two inputs. *)
Example C102_example_bounds :
  regular (ex_compare Rops) [1; 3] /\ alike_near (ex_compare Rops) [1; 3] /\ ~ same_branches_near (ex_compare Rops) [1; 3] /\
  exists t w', fn_tape Rops (ex_compare Rops) [1; 3] world0 = Ok (t, w') /\ no_abs t /\ num_deps t = 1%nat.
Proof.
  destruct C102_example as (A & B & C & t & w' & T & N & D & _). do 3 (split; auto). exists t, w'. auto.
Qed.
