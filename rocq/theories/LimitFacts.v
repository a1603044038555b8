(** The generalized Jacobian as a limiting Jacobian of the piecewise linearisation. *)
From Coq Require Import Reals Lra List Arith ZArith NArith Bool Lia Classical.
From Verif Require Import Base Float Operation Tape AContext Methods Function Spec TapeFacts
  SweepFacts RealInst Param Instances FunctionFacts ReplayFacts Replay2 ApiFacts3 DerivSpec DerivFacts LinearFacts DerivFacts2
  Matrix MatrixFacts Jacobian JacobianFacts AbsNormal AbsNormalFacts AnfSpec RVec AnfFacts AnfFacts2
  ChainFacts Checkpoint CheckSpec CheckMain GenJac GenSpec GenFacts GenMain LimitSpec.
Import ListNotations.
Local Open Scope R_scope.

(** ** The linear system with fixed signs: z = c + L Sigma z *)
Section Signs.
Context (Z L : matrix R) (s n : nat) (sg : list R).
Context (SZ : shape Z s n) (SL : shape L s s) (Low : strictly_lower L) (Lsg : length sg = s).

Definition sg_step (c z : list R) : list R := vadd c (mulv L (vmul sg z)).

Lemma sg_step_len c z : length c = s -> length z = s -> length (sg_step c z) = s.
Proof. intros Lc Lz. unfold sg_step. rewrite vadd_len; auto. rewrite (mulv_len L s s); auto. Qed.

Lemma sg_solve c : length c = s -> exists z, length z = s /\ z = sg_step c z.
Proof.
  intros Lc.
  set (dom := fun z : list R => length z = s).
  set (agree := fun k (x y : list R) => forall i, (i < k)%nat -> nth i x 0 = nth i y 0).
  assert (forall x, dom x -> dom (sg_step c x)) as Hd by (intros x Dx; apply sg_step_len; auto).
  assert (forall x y, dom x -> dom y -> agree 0%nat x y) as H0 by (intros x y _ _ i Hi; lia).
  assert (forall k x y, dom x -> dom y -> agree k x y -> agree (S k) (sg_step c x) (sg_step c y)) as HS.
  { intros k x y Dx Dy Ag i Hi. unfold sg_step, dom in *.
    rewrite !nth_vadd by (rewrite (mulv_len L s s); auto). f_equal.
    apply (lower_prefix L s); auto.
    - rewrite !vmul_len by congruence. auto.
    - intros j Hj. rewrite !nth_vmul by congruence. rewrite Ag by lia. auto. }
  assert (forall x y, dom x -> dom y -> agree s x y -> x = y) as Hs.
  { intros x y Dx Dy Ag. unfold dom in *. apply nth_ext0; [congruence|]. intros i Hi. apply Ag. lia. }
  destruct (settle_fix (sg_step c) dom agree s Hd H0 HS Hs c Lc) as (p & Dp & Ep & _).
  exists p. auto.
Qed.

(** solutions for a right-hand side Z v are bounded by a multiple of v *)
Lemma sg_bound : (forall i, Rabs (nth i sg 0) <= 1) -> exists C, 0 < C /\ forall v w, length v = n -> length w = s ->
  w = sg_step (mulv Z v) w -> forall i, Rabs (nth i w 0) <= C * nrm1 v.
Proof.
  intros Hsg. enough (forall b, exists C, 0 < C /\ forall v w, length v = n -> length w = s ->
    w = sg_step (mulv Z v) w -> forall i, (i < b)%nat -> Rabs (nth i w 0) <= C * nrm1 v) as H.
  { destruct (H s) as (C & HC & HB). exists C. split; auto. intros v w Lv Lw E i.
    destruct (Nat.lt_ge_cases i s) as [Hi|Hi]; [apply (HB v w); auto|].
    rewrite nth_overflow by lia. rewrite Rabs_R0. apply Rmult_le_pos; [lra|apply nrm1_pos]. }
  induction b as [|b (C & HC & IH)].
  { exists 1. split; [lra|]. intros. lia. }
  set (CZ := nrm1 (row Z b)). set (CL := nrm1 (row L b)).
  assert (0 <= CZ /\ 0 <= CL) as [HZ HL] by (split; apply nrm1_pos).
  assert (0 <= CL * C) as HLC by (apply Rmult_le_pos; lra).
  exists (CZ + CL * C + C). split; [lra|]. intros v w Lv Lw E i Hi.
  pose proof (nrm1_pos v) as Nv. specialize (IH v w Lv Lw E).
  assert (0 <= CZ * nrm1 v) by (apply Rmult_le_pos; auto).
  assert (0 <= CL * C * nrm1 v) by (apply Rmult_le_pos; auto).
  assert (0 <= C * nrm1 v) by (apply Rmult_le_pos; lra).
  destruct (Nat.eq_dec i b) as [->|Ne].
  2: { specialize (IH i). assert (i < b)%nat as Hb by lia. specialize (IH Hb). lra. }
  destruct (Nat.lt_ge_cases b s) as [Hb|Hb].
  2: { rewrite nth_overflow by lia. rewrite Rabs_R0. lra. }
  rewrite E. unfold sg_step. rewrite nth_vadd by (rewrite (mulv_len Z s n), (mulv_len L s s); auto).
  rewrite !nth_mulv.
  set (u := vmul sg w). assert (length u = s) as Lu by (unfold u; rewrite vmul_len; congruence).
  set (u0 := firstn b u ++ repeat 0 (s - b)).
  assert (length u0 = s) as Lu0 by (unfold u0; rewrite app_length, firstn_length, repeat_length; lia).
  assert (forall j, (j < b)%nat -> nth j u0 0 = nth j u 0) as Eu.
  { intros j Hj. unfold u0. rewrite app_nth1 by (rewrite firstn_length; lia).
    rewrite <- (firstn_skipn b u) at 2. rewrite app_nth1 by (rewrite firstn_length; lia). auto. }
  rewrite (dot_prefix (row L b) u u0 b); [|congruence| |intros j Hj; symmetry; auto].
  2: { intros j Hj. rewrite row_ent. destruct (Nat.lt_ge_cases j s).
       - apply Low; auto. destruct SL as [_ [_ ->]]. auto.
       - unfold ent. fold (row L b). apply nth_overflow. rewrite (row_len _ s s); auto. }
  assert (Rabs (dot (row Z b) v) <= CZ * nrm1 v) as B1.
  { apply dot_bound; auto. intros k. apply nrm1_nth. }
  assert (Rabs (dot (row L b) u0) <= CL * (C * nrm1 v)) as B2.
  { apply dot_bound; auto. intros k. destruct (Nat.lt_ge_cases k b) as [Hk|Hk].
    - rewrite Eu by auto. unfold u. rewrite nth_vmul by congruence. rewrite Rabs_mult.
      specialize (IH k Hk). specialize (Hsg k). pose proof (Rabs_pos (nth k w 0)). pose proof (Rabs_pos (nth k sg 0)). nra.
    - unfold u0. rewrite app_nth2 by (rewrite firstn_length; lia). rewrite nth_repeat, Rabs_R0. auto. }
  eapply Rle_trans; [apply Rabs_triang|]. lra.
Qed.

(** multiples of solutions *)
Lemma sg_scale v w k : length v = n -> length w = s -> w = sg_step (mulv Z v) w ->
  map (Rmult k) w = sg_step (mulv Z (map (Rmult k) v)) (map (Rmult k) w).
Proof.
  intros Lv Lw E. apply nth_ext0.
  { rewrite map_length, sg_step_len; auto; [rewrite (mulv_len Z s n); auto|rewrite map_length; auto]. }
  intros i Hi. rewrite map_length in Hi.
  assert (forall u j, nth j (map (Rmult k) u) 0 = k * nth j u 0) as Em.
  { intros u j. rewrite <- (map_nth (Rmult k)). rewrite Rmult_0_r. auto. }
  assert (forall r u, dot r (map (Rmult k) u) = k * dot r u) as Ed.
  { intros r. induction r as [|a r IH]; intros [|b u]; cbn; try ring. rewrite IH. ring. }
  assert (vmul sg (map (Rmult k) w) = map (Rmult k) (vmul sg w)) as Ev.
  { apply nth_ext0; [rewrite map_length, !vmul_len; rewrite ?map_length; congruence|]. intros j Hj.
    rewrite Em, !nth_vmul, Em by (rewrite ?map_length; congruence). ring. }
  rewrite Em. unfold sg_step. rewrite Ev.
  rewrite nth_vadd by (rewrite (mulv_len Z s n), (mulv_len L s s); auto). rewrite !nth_mulv, !Ed.
  rewrite E at 1. unfold sg_step. rewrite nth_vadd by (rewrite (mulv_len Z s n), (mulv_len L s s); auto).
  rewrite !nth_mulv. ring.
Qed.
End Signs.

(** ** One zero switching value *)
Lemma zeros_one dz : zeros dz = 1%nat -> exists k, (k < length dz)%nat /\ nth k dz 0 = 0 /\
  forall i, (i < length dz)%nat -> i <> k -> nth i dz 0 <> 0.
Proof.
  induction dz as [|d dz IH]; intros Z; [discriminate|]. rewrite zeros_cons in Z.
  unfold is_zero in Z. destruct (Req_EM_T d 0) as [E|E].
  - exists 0%nat. split; [cbn; lia|]. split; [auto|]. intros [|i] Hi Ne; [lia|]. cbn in *.
    apply zeros_none; lia.
  - destruct IH as (k & Hk & E0 & H); [lia|]. exists (S k). split; [cbn; lia|]. split; [auto|].
    intros [|i] Hi Ne; cbn in *; auto. apply H; lia.
Qed.

Lemma min_abs_nz (dz : list R) :
  exists e, 0 < e /\ forall i, nth i dz 0 <> 0 -> e <= Rabs (nth i dz 0).
Proof.
  induction dz as [|d dz (e & He & Hi)].
  - exists 1. split; [lra|]. intros [|i] H; cbn in H; lra.
  - destruct (Req_EM_T d 0) as [->|Hd].
    + exists e. split; auto. intros [|i] H; cbn in *; [lra|auto].
    + exists (Rmin e (Rabs d)). split.
      * apply Rmin_pos; auto. apply Rabs_pos_lt. auto.
      * intros [|i] H; cbn in *; [apply Rmin_r|]. eapply Rle_trans; [apply Rmin_l|]. auto.
Qed.

Lemma nth_scale k v i : nth i (map (Rmult k) v) 0 = k * nth i v 0.
Proof. rewrite <- (map_nth (Rmult k)). rewrite Rmult_0_r. auto. Qed.
Lemma nrm1_scale k v : nrm1 (map (Rmult k) v) = Rabs k * nrm1 v.
Proof. induction v as [|a v IH]; cbn; [ring|]. rewrite IH, Rabs_mult. ring. Qed.

Lemma vadd_sub_cancel x v : length x = length v -> vsub (vadd x v) x = v.
Proof.
  intros L. apply nth_ext0; [rewrite vsub_len; rewrite ?vadd_len; auto|]. intros i Hi.
  rewrite nth_vsub, nth_vadd by (rewrite ?vadd_len; auto). ring.
Qed.
Lemma vsub_add_cancel x y : length x = length y -> vadd x (vsub y x) = y.
Proof.
  intros L. apply nth_ext0; [rewrite vadd_len; rewrite ?vsub_len; auto|]. intros i Hi.
  rewrite nth_vadd, nth_vsub by (rewrite ?vsub_len; auto). ring.
Qed.

(** a small change keeps the sign *)
Lemma same_sign a b s : (0 < a -> s = 1) -> (a < 0 -> s = -1) -> a <> 0 -> Rabs b < Rabs a ->
  s * (a + b) = Rabs (a + b) /\ a + b <> 0.
Proof.
  intros H1 H2 Ha Hb. destruct (Rtotal_order a 0) as [A|[A|A]]; [|contradiction|].
  - rewrite H2 by auto. rewrite (Rabs_left a) in Hb by auto. apply Rabs_def2 in Hb.
    rewrite Rabs_left by lra. split; lra.
  - rewrite H1 by auto. rewrite (Rabs_right a) in Hb by lra. apply Rabs_def2 in Hb.
    rewrite Rabs_right by lra. split; lra.
Qed.

Lemma selected_pm bits dz sg i : selected bits dz sg -> (i < length dz)%nat -> nth i sg 0 = 1 \/ nth i sg 0 = -1.
Proof.
  intros [_ H] Hi. destruct (H i Hi) as (H1 & H2 & H3). destruct (Rtotal_order (nth i dz 0) 0) as [A|[A|A]]; auto.
  rewrite H3 by auto. destruct (bit _ _); auto.
Qed.

Lemma pm_abs s : s = 1 \/ s = -1 -> Rabs s = 1.
Proof. intros [-> | ->]; [apply Rabs_R1|rewrite Rabs_left; lra]. Qed.

(** signs that the nonzero switching values of a point have are selected there *)
Lemma selected_strict bits zp sg : length sg = length zp ->
  (forall i, (i < length zp)%nat -> (nth i sg 0 = 1 \/ nth i sg 0 = -1) /\
     nth i sg 0 * nth i zp 0 = Rabs (nth i zp 0) /\ nth i zp 0 <> 0) ->
  zeros zp = 0%nat /\ selected bits zp sg.
Proof.
  intros L H. split.
  - assert (forall z, (forall i, (i < length z)%nat -> nth i z 0 <> 0) -> zeros z = 0%nat) as HZ.
    { induction z as [|a z IH]; intros HN; auto. rewrite zeros_cons. unfold is_zero.
      destruct (Req_EM_T a 0) as [E|E]; [exfalso; apply (HN 0%nat); cbn; auto; lia|].
      rewrite IH; auto. intros i Hi. apply (HN (S i)). cbn. lia. }
    apply HZ. intros i Hi. apply H. auto.
  - split; auto. intros i Hi. destruct (H i Hi) as (Hs & Ha & Hn). split; [|split].
    + intros P. rewrite Rabs_right in Ha by lra. destruct Hs as [Hs|Hs]; auto. rewrite Hs in Ha. lra.
    + intros P. rewrite Rabs_left in Ha by lra. destruct Hs as [Hs|Hs]; auto. rewrite Hs in Ha. lra.
    + intros P. contradiction.
Qed.

Section One.
Context (t : tape R) (N : anf) (W : wf_tape t) (HN : anf_of t N).
Context (dx dz sg : list R) (bits : list N.t).
Context (Ldx : length dx = num_indeps t) (SW : switching N dx dz) (HS : selected bits dz sg).

Lemma anf_shapes : shape (f_zmat N) (num_abs t) (num_indeps t) /\ shape (f_lmat N) (num_abs t) (num_abs t) /\
  length (f_a N) = num_abs t.
Proof.
  pose proof HN as [(a & z & EN & EZ & Rz & Rl & Rj & Ry & Ea & Eb)].
  destruct (an_sizes t a W EN) as (N1 & N2 & N3 & N4 & N5 & N6 & N7 & N8).
  assert (shape (f_zmat N) (num_abs t) (num_indeps t)) as SZ by (rewrite <- N1, <- N2; apply Rz).
  assert (shape (f_lmat N) (num_abs t) (num_abs t)) as SL by (rewrite <- N3 at 2; rewrite <- N4 at 1; apply Rl).
  destruct (an_z_ok t a W EN) as (z' & EZ' & Lz). assert (z' = z) as -> by congruence.
  split; [auto|]. split; [auto|]. rewrite Ea, vsub_len; auto. rewrite (mulv_len _ _ _ _ SL). auto.
Qed.

(** adding a solution of the system with fixed signs *)
Lemma shifted v w : length v = num_indeps t -> length w = num_abs t ->
  w = sg_step (f_lmat N) sg (mulv (f_zmat N) v) w ->
  (forall i, (i < num_abs t)%nat -> nth i sg 0 * (nth i dz 0 + nth i w 0) = Rabs (nth i dz 0 + nth i w 0)) ->
  switching N (vadd dx v) (vadd dz w).
Proof.
  intros Lv Lw E HA. destruct anf_shapes as (SZ & SL & La). destruct SW as [Lz Ez]. rewrite La in Lz.
  pose proof (proj1 HS) as Lsg.
  split; [rewrite vadd_len; congruence|].
  assert (vabs (vadd dz w) = vmul sg (vadd dz w)) as ->.
  { apply nth_ext0; [rewrite vabs_len, vmul_len; rewrite ?vadd_len; congruence|]. intros i Hi.
    rewrite vabs_len, vadd_len in Hi by congruence.
    rewrite nth_vabs, nth_vmul by (rewrite vadd_len; congruence). rewrite nth_vadd by congruence. rewrite HA by congruence. auto. }
  apply nth_ext0.
  { repeat (rewrite vadd_len); rewrite ?(mulv_len _ _ _ _ SZ), ?(mulv_len _ _ _ _ SL); try congruence. }
  intros i Hi. rewrite nth_vadd by congruence.
  rewrite !nth_vadd by (rewrite ?vadd_len; rewrite ?(mulv_len _ _ _ _ SZ), ?(mulv_len _ _ _ _ SL); congruence).
  rewrite Ez at 1. rewrite E at 1. unfold sg_step.
  rewrite !nth_vadd by (rewrite ?vadd_len; rewrite ?(mulv_len _ _ _ _ SZ), ?(mulv_len _ _ _ _ SL); congruence).
  rewrite <- (selected_abs bits dz sg HS). rewrite !nth_mulv.
  assert (vmul sg (vadd dz w) = vadd (vmul sg dz) (vmul sg w)) as ->.
  { apply nth_ext0; [rewrite vadd_len, !vmul_len; rewrite ?vadd_len, ?vmul_len; congruence|]. intros j Hj.
    rewrite nth_vadd by (rewrite !vmul_len; congruence). rewrite !nth_vmul by (rewrite ?vadd_len; congruence).
    rewrite nth_vadd by congruence. ring. }
  rewrite (dot_vadd_r _ dx v) by congruence. rewrite dot_vadd_r by (rewrite !vmul_len; congruence). ring.
Qed.

(** The region where the signs are those selected has an interior point arbitrarily near. *)
Definition open_region := forall e, 0 < e -> exists p, length p = num_indeps t /\ nrm1 (vsub p dx) < e /\
  exists d, 0 < d /\ forall dx', length dx' = num_indeps t -> nrm1 (vsub dx' p) < d -> compatible N sg dx'.

Lemma region_one : (zeros dz <= 1)%nat -> open_region.
Proof.
  intros Z e0 He0. destruct anf_shapes as (SZ & SL & La). pose proof (anf_lower t N W HN) as Low.
  assert (length dz = num_abs t) as Lz by (rewrite <- La; apply SW). pose proof (proj1 HS) as Lsg.
  assert (nrm1 (vsub dx dx) = 0) as N0.
  { assert (vsub dx dx = map (Rmult 0) dx) as ->.
    { apply nth_ext0; [rewrite vsub_len, map_length; auto|]. intros i _. rewrite nth_vsub by auto.
      rewrite nth_scale. ring. }
    rewrite nrm1_scale, Rabs_R0. ring. }
  destruct (Nat.eq_dec (zeros dz) 0) as [Z0|Z0].
  { exists dx. split; [auto|]. split; [lra|]. eapply compatible_near; eauto. }
  destruct (zeros_one dz) as (k & Hk & Ek & Hnz); [lia|]. destruct (min_abs_nz dz) as (e & He & Hm).
  assert (forall i, Rabs (nth i sg 0) <= 1) as H1.
  { intros i. destruct (Nat.lt_ge_cases i (length dz)) as [Hi|Hi].
    - rewrite (pm_abs _ (selected_pm bits dz sg i HS Hi)). lra.
    - rewrite nth_overflow by lia. rewrite Rabs_R0. lra. }
  destruct (sg_bound (f_zmat N) (f_lmat N) (num_abs t) (num_indeps t) sg SZ SL Low ltac:(congruence) H1) as (C & HC & HB).
  assert (0 < e / C) as HeC by (apply Rdiv_lt_0_compat; auto).
  (* the other switching values keep their signs *)
  assert (forall v w, length v = num_indeps t -> length w = num_abs t ->
    w = sg_step (f_lmat N) sg (mulv (f_zmat N) v) w -> nrm1 v < e / C ->
    forall i, (i < num_abs t)%nat -> i <> k ->
      nth i sg 0 * (nth i dz 0 + nth i w 0) = Rabs (nth i dz 0 + nth i w 0) /\ nth i dz 0 + nth i w 0 <> 0) as Hothers.
  { intros v w Lv Lw E Hv i Hi Ne. assert (nth i dz 0 <> 0) as Hn by (apply Hnz; congruence).
    destruct HS as [_ HS']. destruct (HS' i ltac:(congruence)) as (Hs1 & Hs2 & _).
    apply same_sign; auto. specialize (Hm i Hn). specialize (HB v w Lv Lw E i).
    assert (C * nrm1 v < C * (e / C)) by (apply Rmult_lt_compat_l; auto).
    replace (C * (e / C)) with e in H by (field; lra). lra. }
  destruct (classic (forall v w, length v = num_indeps t -> length w = num_abs t ->
    w = sg_step (f_lmat N) sg (mulv (f_zmat N) v) w -> nth k w 0 = 0)) as [A|A].
  - exists dx. split; [auto|]. split; [lra|]. exists (e / C). split; auto. intros dx' L' Hn.
    set (v := vsub dx' dx) in *. assert (length v = num_indeps t) as Lv by (unfold v; rewrite vsub_len; congruence).
    destruct (sg_solve (f_lmat N) (num_abs t) sg SL Low ltac:(congruence) (mulv (f_zmat N) v)) as (w & Lw & E).
    { apply (mulv_len _ _ _ _ SZ). }
    assert (forall i, (i < num_abs t)%nat -> nth i sg 0 * (nth i dz 0 + nth i w 0) = Rabs (nth i dz 0 + nth i w 0)) as HA.
    { intros i Hi. destruct (Nat.eq_dec i k) as [->|Ne].
      - rewrite Ek, (A v w) by auto. rewrite Rplus_0_r, Rabs_R0. ring.
      - apply (Hothers v w); auto. }
    exists (vadd dz w). pose proof (shifted v w Lv Lw E HA) as SW'.
    unfold v in SW'. rewrite vsub_add_cancel in SW' by congruence. split; auto.
    intros i Hi. rewrite vadd_len in Hi by congruence. rewrite nth_vadd by congruence. apply HA. congruence.
  - assert (exists v w, length v = num_indeps t /\ length w = num_abs t /\
      w = sg_step (f_lmat N) sg (mulv (f_zmat N) v) w /\ nth k w 0 <> 0) as (v & w & Lv & Lw & E & Hw).
    { apply NNPP. intros H. apply A. intros v w Lv Lw E. apply NNPP. intros Hw. apply H. exists v, w. auto. }
    assert (Hs : nth k sg 0 = 1 \/ nth k sg 0 = -1) by (eapply selected_pm; eauto).
    pose proof (nrm1_pos v) as Nv.
    set (m := Rmin e0 (e / C)). assert (0 < m) as Hm0 by (apply Rmin_pos; auto).
    assert (0 < Rabs (nth k w 0)) as Hw0 by (apply Rabs_pos_lt; auto).
    set (eta := m * Rabs (nth k w 0) / (nrm1 v + 1)).
    assert (0 < eta) as Heta.
    { unfold eta. apply Rdiv_lt_0_compat; [apply Rmult_lt_0_compat; auto|lra]. }
    set (c := nth k sg 0 * eta / nth k w 0).
    assert (Rabs c * nrm1 v < m) as Hc.
    { unfold c, Rdiv. rewrite !Rabs_mult. rewrite (pm_abs _ Hs).
      rewrite (Rabs_right eta) by lra. rewrite Rabs_inv. unfold eta.
      replace (1 * (m * Rabs (nth k w 0) / (nrm1 v + 1)) * / Rabs (nth k w 0) * nrm1 v) with (m * (nrm1 v / (nrm1 v + 1)))
        by (field; split; lra).
      assert (nrm1 v / (nrm1 v + 1) < 1) by (apply (Rmult_lt_reg_r (nrm1 v + 1)); [lra|]; field_simplify; lra).
      nra. }
    set (v' := map (Rmult c) v). set (w' := map (Rmult c) w).
    assert (length v' = num_indeps t) as Lv' by (unfold v'; rewrite map_length; auto).
    assert (length w' = num_abs t) as Lw' by (unfold w'; rewrite map_length; auto).
    assert (w' = sg_step (f_lmat N) sg (mulv (f_zmat N) v') w') as E'.
    { eapply sg_scale; eauto. congruence. }
    assert (nrm1 v' < m) as Hv' by (unfold v'; rewrite nrm1_scale; auto).
    assert (nth k w' 0 = nth k sg 0 * eta) as Ewk.
    { unfold w'. rewrite nth_scale. unfold c. field. auto. }
    assert (forall i, (i < num_abs t)%nat -> nth i sg 0 * (nth i dz 0 + nth i w' 0) = Rabs (nth i dz 0 + nth i w' 0) /\
      nth i dz 0 + nth i w' 0 <> 0) as HA.
    { intros i Hi. destruct (Nat.eq_dec i k) as [->|Ne].
      - rewrite Ek, Ewk, Rplus_0_l. destruct Hs as [-> | ->].
        + rewrite Rabs_right by lra. split; lra.
        + rewrite Rabs_left by lra. split; lra.
      - apply (Hothers v' w'); auto. eapply Rlt_le_trans; [apply Hv'|apply Rmin_r]. }
    exists (vadd dx v'). assert (length (vadd dx v') = num_indeps t) as Lp by (rewrite vadd_len; congruence).
    split; [auto|]. rewrite vadd_sub_cancel by congruence.
    split; [eapply Rlt_le_trans; [apply Hv'|apply Rmin_l]|].
    pose proof (shifted v' w' Lv' Lw' E' (fun i Hi => proj1 (HA i Hi))) as SW'.
    destruct (selected_strict bits (vadd dz w') sg) as [Z' HS'].
    { rewrite vadd_len; congruence. }
    { intros i Hi. rewrite vadd_len in Hi by congruence. split; [eapply selected_pm; eauto|].
      rewrite nth_vadd by congruence. apply HA. congruence. }
    eapply compatible_near; eauto.
Qed.

(** The same when strictly selected signs occur arbitrarily near. *)
Lemma region_strict :
  (forall e, 0 < e -> exists p zp, length p = num_indeps t /\ nrm1 (vsub p dx) < e /\ switching N p zp /\
     forall i, (i < num_abs t)%nat -> nth i sg 0 * nth i zp 0 > 0) -> open_region.
Proof.
  intros H e He. destruct (H e He) as (p & zp & Lp & Hp & SWp & HZ). exists p. split; [auto|]. split; [auto|].
  destruct anf_shapes as (SZ & SL & La). pose proof (proj1 HS) as Lsg.
  assert (length dz = num_abs t) as Lz by (rewrite <- La; apply SW).
  assert (length zp = num_abs t) as Lzp by (rewrite <- La; apply SWp).
  destruct (selected_strict bits zp sg) as [Z' HS'].
  { congruence. }
  { intros i Hi. assert (Hs : nth i sg 0 = 1 \/ nth i sg 0 = -1) by (eapply selected_pm; eauto; congruence).
    specialize (HZ i ltac:(congruence)). split; [auto|]. destruct Hs as [E|E]; rewrite E in *.
    - rewrite Rabs_right by lra. split; lra.
    - rewrite Rabs_left by lra. split; lra. }
  eapply compatible_near; eauto.
Qed.
End One.

(** ** The theorems *)
Theorem gj_limiting red (f : func R) x dx bits next w t w' :
  rayon red -> fn_n f = Ok (length x) -> fn_tape Rops f x w = Ok (t, w') -> NoDup (t_deps t) -> abs_once t ->
  length dx = length x -> next_ok (num_deps t) next ->
  exists G, generalized_jacobian Rops red f x dx bits next w = Ok (G, w') /\
    ((g_mult G <= next_mult next + 1)%nat ->
     limiting (fun dx' r => exists dy', tape_forward Rops t dx' = Ok dy' /\ r = next_map next dy') (g_hom G) (g_inh G) dx).
Proof.
  intros HR En HT ND NA L Hnx.
  destruct (fn_tape_wf Rops _ _ _ _ _ HT) as ([W _] & _ & Nx). destruct (anf_exists t W) as [N HN].
  destruct (gj_correct red f x dx bits next w t w' N HR En HT ND NA HN L Hnx)
    as (G & dz & sg & E & SW & HS & Hm & SG & LG & HG).
  exists G. split; auto. intros Em e He.
  destruct (region_one t N W HN dx dz sg bits ltac:(congruence) SW HS ltac:(lia) e He) as (p & Lp & Hp & d & Hd & H).
  exists p. split; [congruence|]. split; [auto|]. exists d. split; [auto|].
  intros dx' L' Hn. destruct (anf_correct t N dx' W HN ltac:(congruence)) as (zh & _ & _ & EF).
  eexists. split; [exact EF|]. apply HG; [congruence| |auto]. apply H; congruence.
Qed.

Theorem gj_limiting_strict red (f : func R) x dx bits next w t w' N :
  rayon red -> fn_n f = Ok (length x) -> fn_tape Rops f x w = Ok (t, w') -> NoDup (t_deps t) -> abs_once t ->
  anf_of t N -> length dx = length x -> next_ok (num_deps t) next ->
  exists G dz sigma, generalized_jacobian Rops red f x dx bits next w = Ok (G, w') /\
    switching N dx dz /\ selected bits dz sigma /\
    ((forall e, 0 < e -> exists p zp, length p = length x /\ nrm1 (vsub p dx) < e /\ switching N p zp /\
        forall i, (i < num_abs t)%nat -> nth i sigma 0 * nth i zp 0 > 0) ->
     limiting (fun dx' r => exists dy', tape_forward Rops t dx' = Ok dy' /\ r = next_map next dy') (g_hom G) (g_inh G) dx).
Proof.
  intros HR En HT ND NA HN L Hnx.
  destruct (fn_tape_wf Rops _ _ _ _ _ HT) as ([W _] & _ & Nx).
  destruct (gj_correct red f x dx bits next w t w' N HR En HT ND NA HN L Hnx)
    as (G & dz & sg & E & SW & HS & Hm & SG & LG & HG).
  exists G, dz, sg. split; [auto|]. split; [auto|]. split; [auto|]. intros Hst e He.
  destruct (region_strict t N W HN dx dz sg bits SW HS) with (e := e) as (p & Lp & Hp & d & Hd & H); auto.
  { intros e1 He1. destruct (Hst e1 He1) as (p & zp & Lp & Hr). exists p, zp. split; [congruence|auto]. }
  exists p. split; [congruence|]. split; [auto|]. exists d. split; [auto|].
  intros dx' L' Hn. destruct (anf_correct t N dx' W HN ltac:(congruence)) as (zh & _ & _ & EF).
  eexists. split; [exact EF|]. apply HG; [congruence| |auto]. apply H; congruence.
Qed.
