(** Property theorems C79: the error of the piecewise linearisation is quadratic. *)
From Coq Require Import Reals Lra List Arith ZArith Bool.
From Verif Require Import Base Float Operation Tape AContext Methods Function Spec RealInst Instances
  DerivSpec DerivFacts2 LinearFacts ExamplesR StableSpec StableMain StableLin StableEx.
Import ListNotations.
Open Scope R_scope.

(** *** C79 The error of the piecewise linearisation is quadratic, near every regular point.
    [vdiff v x1] is the vector v - x1, [dist1] the distance in the 1-norm.  One constant serves for
    all base points x1 and all points v near x, on whichever side of a kink they lie. *)
Theorem C79_quadratic_error :
  forall (f : func R) (x : list R) (w : world R) (t : tape R) (w' : world R),
  fn_tape Rops f x w = Ok (t, w') -> regular f x -> same_branches_near f x ->
  exists K d, 0 <= K /\ 0 < d /\ forall x1 v,
    length x1 = length x -> length v = length x -> dist1 x1 x < d -> dist1 v x < d -> forall w1,
    exists t1 w1' y1 dy yv,
      fn_tape Rops f x1 w1 = Ok (t1, w1') /\ tape_y t1 = Ok y1 /\
      tape_forward Rops t1 (vdiff v x1) = Ok dy /\
      (forall w2, eval_float Rops f v w2 = Ok (yv, w2)) /\
      length y1 = num_deps t /\ length dy = num_deps t /\ length yv = num_deps t /\
      forall j, (j < num_deps t)%nat ->
        Rabs (nth j yv 0 - nth j y1 0 - nth j dy 0) <= K * (dist1 v x1 * dist1 v x1) /\
        Rabs (nth j yv 0 - nth j y1 0) <= K * dist1 v x1 /\
        Rabs (nth j dy 0) <= K * dist1 v x1.
Proof. exact quadratic_error. Qed.
Print Assumptions C79_quadratic_error.

(** Models made at two base points, compared at the same point v. *)
Theorem C79_models_at_two_points :
  forall (f : func R) (x : list R) (w : world R) (t : tape R) (w' : world R),
  fn_tape Rops f x w = Ok (t, w') -> regular f x -> same_branches_near f x ->
  exists K d, 0 <= K /\ 0 < d /\ forall x1 x2 v,
    length x1 = length x -> length x2 = length x -> length v = length x ->
    dist1 x1 x < d -> dist1 x2 x < d -> dist1 v x < d -> forall w1 w2,
    exists t1 w1' t2 w2' y1 y2 dy1 dy2,
      fn_tape Rops f x1 w1 = Ok (t1, w1') /\ fn_tape Rops f x2 w2 = Ok (t2, w2') /\
      tape_y t1 = Ok y1 /\ tape_y t2 = Ok y2 /\
      tape_forward Rops t1 (vdiff v x1) = Ok dy1 /\ tape_forward Rops t2 (vdiff v x2) = Ok dy2 /\
      length y1 = num_deps t /\ length y2 = num_deps t /\
      length dy1 = num_deps t /\ length dy2 = num_deps t /\
      forall j, (j < num_deps t)%nat ->
        Rabs ((nth j y1 0 + nth j dy1 0) - (nth j y2 0 + nth j dy2 0))
          <= K * (dist1 x1 x2 * (dist1 v x1 + dist1 v x2)).
Proof. exact linearisation_stable. Qed.
Print Assumptions C79_models_at_two_points.

(** Without abs the derivatives themselves are Lipschitz, for every direction. *)
Theorem C79_derivatives_lipschitz :
  forall (f : func R) (x : list R) (w : world R) (t : tape R) (w' : world R),
  fn_tape Rops f x w = Ok (t, w') -> regular f x -> same_branches_near f x -> no_abs t ->
  exists K d, 0 <= K /\ 0 < d /\ forall x1 x2,
    length x1 = length x -> length x2 = length x -> dist1 x1 x < d -> dist1 x2 x < d ->
    forall w1 w2, exists t1 w1' t2 w2',
      fn_tape Rops f x1 w1 = Ok (t1, w1') /\ fn_tape Rops f x2 w2 = Ok (t2, w2') /\
      forall h, length h = length x -> exists dy1 dy2,
        tape_forward Rops t1 h = Ok dy1 /\ tape_forward Rops t2 h = Ok dy2 /\
        length dy1 = num_deps t /\ length dy2 = num_deps t /\
        forall j, (j < num_deps t)%nat ->
          Rabs (nth j dy1 0 - nth j dy2 0) <= K * dist1 x1 x2 * nrm1 h.
Proof. exact derivatives_lipschitz. Qed.
Print Assumptions C79_derivatives_lipschitz.

(** With abs the increments at two base points cannot be compared in this way, only the models as in
    C79_models_at_two_points: |x| at e and at -e, along e. *)
Theorem C79_increments_refuted :
  forall K d, 0 < d -> exists x1 x2 h t1 w1 t2 w2 a b,
    Rabs x1 < d /\ Rabs x2 < d /\ Rabs h < d /\
    fn_tape Rops rx_abs [x1] world0 = Ok (t1, w1) /\ fn_tape Rops rx_abs [x2] world0 = Ok (t2, w2) /\
    tape_forward Rops t1 [h] = Ok [a] /\ tape_forward Rops t2 [h] = Ok [b] /\
    K * Rabs (x1 - x2) * Rabs h < Rabs (a - b).
Proof. exact increments_jump. Qed.
Print Assumptions C79_increments_refuted.

Example C79_example :
  exists t w', fn_tape Rops rx_ps [0; 3] world0 = Ok (t, w') /\ regular rx_ps [0; 3] /\
    same_branches_near rx_ps [0; 3] /\ num_abs t = 1%nat /\ num_deps t <> 0%nat.
Proof.
  rtape. eexists _, _. split; [reflexivity|]. split; [apply rx_ps_regular|].
  split; [left; repeat split|]. split; [reflexivity|discriminate].
Qed.

Example C79_example_lipschitz :
  exists t w', fn_tape Rops rx_f [2; 3] world0 = Ok (t, w') /\ regular rx_f [2; 3] /\
    same_branches_near rx_f [2; 3] /\ no_abs t /\ num_deps t = 2%nat.
Proof.
  rtape. eexists _, _. split; [reflexivity|]. split; [apply rx_f_regular|].
  split; [left; repeat split|]. split; reflexivity.
Qed.
