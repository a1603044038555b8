(** Second order Taylor expansion along a line from nested AFloats. *)
From Coq Require Import Reals Lra List Arith ZArith Bool Lia.
From Verif Require Import Base Float Operation Tape AContext Methods Function Spec Param
  Instances RealInst Approx DerivSpec DerivFacts2 LinearFacts JacobianFacts ExamplesR Nested NestedSpec NestedMain
  SweepFacts Hess HessComp HessMain.
Import ListNotations.
Open Scope R_scope.

(** Taylor's theorem with Peano's remainder. *)
Lemma taylor_peano (g g' : R -> R) (c : R) :
  (exists d, 0 < d /\ forall t, Rabs t < d -> derivable_pt_lim g t (g' t)) ->
  derivable_pt_lim g' 0 c ->
  forall e, 0 < e -> exists d, 0 < d /\ forall s, Rabs s < d ->
    Rabs (g s - (g 0 + s * g' 0 + s * s / 2 * c)) <= e * (s * s).
Proof.
  intros (d1 & Hd1 & Hg) Hc e He.
  destruct (Hc e He) as [[d2 Hd2] H2]. cbn in H2.
  exists (Rmin d1 d2). split; [apply Rmin_glb_lt; auto|]. intros s Hs.
  pose proof (Rmin_l d1 d2). pose proof (Rmin_r d1 d2).
  set (phi := fun t => g t - (g 0 + t * g' 0 + t * t / 2 * c)).
  assert (forall t, Rabs t < d1 -> derivable_pt_lim phi t (g' t - g' 0 - t * c)) as Hphi.
  { intros t Ht. unfold phi.
    replace (g' t - g' 0 - t * c) with (g' t - (0 + (1 * g' 0 + t * 0) + ((1 * t + t * 1) / 2 * c + t * t / 2 * 0))) by field.
    apply derivable_pt_lim_minus; [apply Hg; auto|].
    apply derivable_pt_lim_plus; [apply derivable_pt_lim_plus|].
    - apply derivable_pt_lim_const.
    - apply (derivable_pt_lim_mult (fun t => t) (fun _ => g' 0)); [apply derivable_pt_lim_id|apply derivable_pt_lim_const].
    - apply (derivable_pt_lim_mult (fun t => t * t / 2) (fun _ => c)); [|apply derivable_pt_lim_const].
      unfold Rdiv. replace ((1 * t + t * 1) * / 2) with ((1 * t + t * 1) * / 2 + t * t * 0) by ring.
      apply (derivable_pt_lim_mult (fun t => t * t) (fun _ => / 2)); [|apply derivable_pt_lim_const].
      apply (derivable_pt_lim_mult (fun t => t) (fun t => t)); apply derivable_pt_lim_id. }
  assert (phi 0 = 0) as P0 by (unfold phi; lra).
  assert (exists t, Rabs t <= Rabs s /\ phi s = (g' t - g' 0 - t * c) * s) as (t & Hts & E).
  { destruct (Rtotal_order s 0) as [Hs0|[->|Hs0]].
    - rewrite Rabs_left in Hs by auto.
      destruct (MVT_cor2 phi (fun t => g' t - g' 0 - t * c) s 0 Hs0) as (t & E & Ht).
      { intros t Ht. apply Hphi. rewrite Rabs_left1 by lra. lra. }
      exists t. rewrite !Rabs_left1 by lra. split; [lra|]. rewrite P0 in E. lra.
    - exists 0. rewrite P0. split; [lra|ring].
    - rewrite Rabs_right in Hs by lra.
      destruct (MVT_cor2 phi (fun t => g' t - g' 0 - t * c) 0 s Hs0) as (t & E & Ht).
      { intros t Ht. apply Hphi. rewrite Rabs_right by lra. lra. }
      exists t. rewrite !Rabs_right by lra. split; [lra|]. rewrite P0 in E. lra. }
  change (g s - (g 0 + s * g' 0 + s * s / 2 * c)) with (phi s). rewrite E.
  assert (Rabs (g' t - g' 0 - t * c) <= e * Rabs t) as Hb.
  { destruct (Req_dec t 0) as [->|Ht0].
    - rewrite Rabs_R0. replace (g' 0 - g' 0 - 0 * c) with 0 by ring. rewrite Rabs_R0. lra.
    - assert (Rabs t < d2) as Ht2 by lra. specialize (H2 t Ht0 Ht2). rewrite Rplus_0_l in H2.
      replace (g' t - g' 0 - t * c) with (((g' t - g' 0) / t - c) * t) by (field; auto).
      rewrite Rabs_mult. apply Rmult_le_compat_r; [apply Rabs_pos|lra]. }
  rewrite Rabs_mult. pose proof (Rabs_pos s). pose proof (Rabs_pos t).
  assert (s * s = Rabs s * Rabs s) as -> by (rewrite <- Rabs_mult, Rabs_pos_eq; [auto|nra]).
  apply Rle_trans with (e * Rabs t * Rabs s); [apply Rmult_le_compat_r; auto|].
  rewrite Rmult_assoc. apply Rmult_le_compat_l; [lra|]. apply Rmult_le_compat_r; auto.
Qed.

(** The point x + s h. *)
Theorem nested_taylor f x h ys :
  length h = length x -> same_branches_near f x ->
  regular2 f (nested_in x h h (repeat 0 (length x))) ->
  nested_eval Rops f (nested_in x h h (repeat 0 (length x))) = Ok ys ->
  forall k y, nth_error ys k = Some y ->
  forall e, 0 < e -> exists d, 0 < d /\ forall s, Rabs s < d ->
    Rabs (nth k (outputs f (vadd x (vscal s h))) 0
          - (fst (fst y) + s * snd (fst y) + s * s / 2 * snd (snd y))) <= e * (s * s).
Proof.
  intros Lh SB HR HN k y Hy.
  destruct (nested_second_derivative f x h h (repeat 0 (length x)) ys) as [_ HD]; auto using repeat_length.
  destruct (HD k y Hy) as (Hv & Hd & g' & (d & Hd0 & Hg) & Hg0 & Hgg).
  set (g := fun s => nth k (outputs f (vadd x (vscal s h))) 0).
  assert (forall t s, nth k (outputs f (plane x h h (repeat 0 (length x)) t s)) 0 = g (t + s)) as Hpl.
  { intros t s. unfold g. rewrite (plane_0 x h h (length x)) by auto. f_equal. f_equal.
    clear - Lh. revert h Lh. induction x as [|a x IH]; intros [|b h] Lh; try discriminate; auto.
    cbn. f_equal; [ring|apply IH; cbn in Lh; lia]. }
  assert (forall t, Rabs t < d -> derivable_pt_lim g t (g' t)) as Hgt.
  { intros t Ht. specialize (Hg t Ht). intros e He. destruct (Hg e He) as [dl Hdl]. exists dl.
    intros hh H1 H2. specialize (Hdl hh H1 H2). rewrite !Hpl in Hdl. rewrite !Rplus_0_l, Rplus_0_r in Hdl. exact Hdl. }
  assert (g' 0 = snd (fst y)) as E1.
  { eapply (uniqueness_limite g 0); [apply Hgt; rewrite Rabs_R0; auto|].
    eapply d_ext; [|exact Hd]. intros t. cbn beta. rewrite Hpl, Rplus_0_r. auto. }
  assert (g 0 = fst (fst y)) as E0.
  { rewrite Hv. unfold g. f_equal. f_equal. clear - Lh. revert h Lh.
    induction x as [|a x IH]; intros [|b h] Lh; try discriminate; auto. cbn. f_equal; [ring|apply IH; cbn in Lh; lia]. }
  intros e He. destruct (taylor_peano g g' (snd (snd y)) ltac:(exists d; auto) Hgg e He) as (d' & Hd' & HT).
  exists d'. split; auto. intros s Hs. rewrite <- E0, <- E1. apply HT; auto.
Qed.

(** The sign of the second derivative decides. *)
Theorem nested_minimum f x h ys k y :
  length h = length x -> same_branches_near f x ->
  regular2 f (nested_in x h h (repeat 0 (length x))) ->
  nested_eval Rops f (nested_in x h h (repeat 0 (length x))) = Ok ys ->
  nth_error ys k = Some y -> snd (fst y) = 0 -> 0 < snd (snd y) ->
  exists d, 0 < d /\ forall s, Rabs s < d -> s <> 0 ->
    nth k (outputs f x) 0 < nth k (outputs f (vadd x (vscal s h))) 0.
Proof.
  intros Lh SB HR HN Hy H1 H2.
  destruct (nested_second_derivative f x h h (repeat 0 (length x)) ys) as [_ HD]; auto using repeat_length.
  destruct (HD k y Hy) as (Hv & _).
  destruct (nested_taylor f x h ys Lh SB HR HN k y Hy (snd (snd y) / 4)) as (d & Hd & HT); [lra|].
  exists d. split; auto. intros s Hs Hs0. specialize (HT s Hs). rewrite H1 in HT.
  rewrite <- Hv. assert (0 < s * s) by nra.
  pose proof (Rle_abs (- (nth k (outputs f (vadd x (vscal s h))) 0 - (fst (fst y) + s * 0 + s * s / 2 * snd (snd y))))) as HA.
  rewrite Rabs_Ropp in HA. nra.
Qed.
