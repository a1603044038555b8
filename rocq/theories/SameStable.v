(** Error bounds for functions that are recorded alike near a point. *)
From Coq Require Import Reals Lra List Arith ZArith Bool Lia.
From Verif Require Import Base Float Operation Tape AContext Methods Function Spec Param TapeFacts
  Instances FunctionFacts ReplayFacts ApiFacts3 Replay2 Shape RecordFacts RealInst DerivSpec
  DerivFacts LinearFacts StableSpec Stable StableMain StableLin SamePath.
Import ListNotations.
Open Scope R_scope.

(** Where the function is recorded as at [x], it records what the path taken at [x] records. *)
Lemma alike_tape f x x' w t w2 : recorded_alike Rops f x x' -> fn_tape Rops (resolve_f Rops f x) x' w = Ok (t, w2) ->
  exists w3, fn_tape Rops f x' w = Ok (t, w3).
Proof.
  intros (wa & t1 & wa' & wb & t2 & wb' & T1 & T2 & S) G. pose proof (proj2 (replay_iff Rops _ _ _ _ _ _ _ _ _ _ T1 T2) S) as Z.
  pose proof (fn_tape_world Rops f x' wb w) as W. rewrite T2 in W. destruct W as (w3 & T3).
  destruct (zero_order_same Rops _ _ _ Z) as (_ & _ & _ & L). destruct (fresh Rops _ _ _ _ _ T1) as (_ & N & _).
  rewrite fn_tape_resolve in T1.
  destruct (replay_is_record Rops _ _ _ _ _ x' w T1) as (t4 & w4 & T4 & Z4); [congruence|left; apply resolve_f_straight|].
  assert (t4 = t2) by congruence. assert (t4 = t) by congruence. subst. eauto.
Qed.

Lemma near_alike f x : alike_near f x -> exists r, 0 < r /\ forall v, length v = length x -> dist1 v x < r -> recorded_alike Rops f x v.
Proof.
  intros (r & Hr & P). exists r. split; auto. intros v L N. rewrite <- (vadd_vdiff x v L). apply P; auto. now apply vdiff_length.
Qed.

Theorem alike_quadratic f x w t w' :
  fn_tape Rops f x w = Ok (t, w') -> regular f x -> alike_near f x ->
  exists K d, 0 <= K /\ 0 < d /\ forall x1 v,
    length x1 = length x -> length v = length x -> dist1 x1 x < d -> dist1 v x < d -> forall w1,
    exists t1 w1' y1 dy yv,
      fn_tape Rops f x1 w1 = Ok (t1, w1') /\ tape_y t1 = Ok y1 /\
      tape_forward Rops t1 (vdiff v x1) = Ok dy /\
      (forall w2, eval_float Rops f v w2 = Ok (yv, w2)) /\
      length y1 = num_deps t /\ length dy = num_deps t /\ length yv = num_deps t /\
      forall j, (j < num_deps t)%nat ->
        Rabs (nth j yv 0 - nth j y1 0 - nth j dy 0) <= K * (dist1 v x1 * dist1 v x1) /\
        Rabs (nth j yv 0 - nth j y1 0) <= K * dist1 v x1 /\
        Rabs (nth j dy 0) <= K * dist1 v x1.
Proof.
  intros T RG A. destruct (near_alike f x A) as (r & Hr & P). rewrite fn_tape_resolve in T.
  destruct (quadratic_error _ x w t w' T (regular_resolve f x RG) (or_introl (resolve_f_straight Rops f x))) as (K & d & HK & Hd & H).
  exists K, (Rmin d r). split; auto. split; [apply Rmin_glb_lt; auto|]. intros x1 v L1 L2 D1 D2 w1.
  pose proof (Rmin_l d r). pose proof (Rmin_r d r).
  destruct (H x1 v L1 L2 ltac:(lra) ltac:(lra) w1) as (t1 & w1' & y1 & dy & yv & T1 & B1 & B2 & B3 & B4).
  destruct (alike_tape f x x1 w1 t1 w1' (P x1 L1 ltac:(lra)) T1) as (w3 & T3).
  exists t1, w3, y1, dy, yv. split; auto. split; auto. split; auto. split; auto.
  intros w2. rewrite <- (alike_eval Rops f x); auto. apply P; auto. lra.
Qed.

Theorem alike_models f x w t w' :
  fn_tape Rops f x w = Ok (t, w') -> regular f x -> alike_near f x ->
  exists K d, 0 <= K /\ 0 < d /\ forall x1 x2 v,
    length x1 = length x -> length x2 = length x -> length v = length x ->
    dist1 x1 x < d -> dist1 x2 x < d -> dist1 v x < d -> forall w1 w2,
    exists t1 w1' t2 w2' y1 y2 dy1 dy2,
      fn_tape Rops f x1 w1 = Ok (t1, w1') /\ fn_tape Rops f x2 w2 = Ok (t2, w2') /\
      tape_y t1 = Ok y1 /\ tape_y t2 = Ok y2 /\
      tape_forward Rops t1 (vdiff v x1) = Ok dy1 /\ tape_forward Rops t2 (vdiff v x2) = Ok dy2 /\
      length y1 = num_deps t /\ length y2 = num_deps t /\
      length dy1 = num_deps t /\ length dy2 = num_deps t /\
      forall j, (j < num_deps t)%nat ->
        Rabs ((nth j y1 0 + nth j dy1 0) - (nth j y2 0 + nth j dy2 0))
          <= K * (dist1 x1 x2 * (dist1 v x1 + dist1 v x2)).
Proof.
  intros T RG A. destruct (near_alike f x A) as (r & Hr & P). rewrite fn_tape_resolve in T.
  destruct (linearisation_stable _ x w t w' T (regular_resolve f x RG) (or_introl (resolve_f_straight Rops f x))) as (K & d & HK & Hd & H).
  exists K, (Rmin d r). split; auto. split; [apply Rmin_glb_lt; auto|]. intros x1 x2 v L1 L2 L3 D1 D2 D3 w1 w2.
  pose proof (Rmin_l d r). pose proof (Rmin_r d r).
  destruct (H x1 x2 v L1 L2 L3 ltac:(lra) ltac:(lra) ltac:(lra) w1 w2) as (t1 & w1' & t2 & w2' & y1 & y2 & dy1 & dy2 & T1 & T2 & B).
  destruct (alike_tape f x x1 w1 t1 w1' (P x1 L1 ltac:(lra)) T1) as (w3 & T3).
  destruct (alike_tape f x x2 w2 t2 w2' (P x2 L2 ltac:(lra)) T2) as (w4 & T4).
  exists t1, w3, t2, w4, y1, y2, dy1, dy2. auto.
Qed.

Theorem alike_lipschitz f x w t w' :
  fn_tape Rops f x w = Ok (t, w') -> regular f x -> alike_near f x -> no_abs t ->
  exists K d, 0 <= K /\ 0 < d /\ forall x1 x2,
    length x1 = length x -> length x2 = length x -> dist1 x1 x < d -> dist1 x2 x < d ->
    forall w1 w2, exists t1 w1' t2 w2',
      fn_tape Rops f x1 w1 = Ok (t1, w1') /\ fn_tape Rops f x2 w2 = Ok (t2, w2') /\
      forall h, length h = length x -> exists dy1 dy2,
        tape_forward Rops t1 h = Ok dy1 /\ tape_forward Rops t2 h = Ok dy2 /\
        length dy1 = num_deps t /\ length dy2 = num_deps t /\
        forall j, (j < num_deps t)%nat -> Rabs (nth j dy1 0 - nth j dy2 0) <= K * dist1 x1 x2 * nrm1 h.
Proof.
  intros T RG A NA. destruct (near_alike f x A) as (r & Hr & P). rewrite fn_tape_resolve in T.
  destruct (derivatives_lipschitz _ x w t w' T (regular_resolve f x RG) (or_introl (resolve_f_straight Rops f x)) NA) as (K & d & HK & Hd & H).
  exists K, (Rmin d r). split; auto. split; [apply Rmin_glb_lt; auto|]. intros x1 x2 L1 L2 D1 D2 w1 w2.
  pose proof (Rmin_l d r). pose proof (Rmin_r d r).
  destruct (H x1 x2 L1 L2 ltac:(lra) ltac:(lra) w1 w2) as (t1 & w1' & t2 & w2' & T1 & T2 & B).
  destruct (alike_tape f x x1 w1 t1 w1' (P x1 L1 ltac:(lra)) T1) as (w3 & T3).
  destruct (alike_tape f x x2 w2 t2 w2' (P x2 L2 ltac:(lra)) T2) as (w4 & T4).
  exists t1, w3, t2, w4. auto.
Qed.
