(** Without abs: derivatives at neighbouring points differ by at most a multiple of the distance. *)
From Coq Require Import Reals Lra List Arith ZArith Bool Lia.
From Verif Require Import Base Float Operation Tape AContext Methods Function Spec Param TapeFacts
  Instances FunctionFacts ReplayFacts ApiFacts3 Replay2 Shape RealInst Approx Smooth DerivSpec
  DerivFacts LinearFacts StableSpec Stable StableMain.
Import ListNotations.
Open Scope R_scope.

Lemma vdiff_length x y : length x = length y -> length (vdiff x y) = length y.
Proof. intros L. unfold vdiff. rewrite map_length, combine_length. lia. Qed.

Lemma vadd_vdiff : forall x x1, length x1 = length x -> vadd x (vdiff x1 x) = x1.
Proof.
  induction x as [|a l IH]; intros [|b x1] L; cbn in L; try discriminate; auto.
  unfold vadd, vdiff in *. cbn [combine map fst snd]. f_equal; [lra|]. apply IH. lia.
Qed.

(** The tape recorded at a neighbouring point has the same operations. *)
Lemma no_abs_near f x w t w' :
  fn_tape Rops f x w = Ok (t, w') -> no_abs t -> same_branches_near f x ->
  exists d, 0 < d /\ forall x1 w1 t1 w1', length x1 = length x -> dist1 x1 x < d ->
    fn_tape Rops f x1 w1 = Ok (t1, w1') -> no_abs t1.
Proof.
  intros HT NA HB.
  assert (exists d, 0 < d /\ forall x1, length x1 = length x -> dist1 x1 x < d ->
            straight_f f \/ agree_f Rops f x x1) as (d & Hd & H).
  { destruct HB as [HS|(d & Hd & HB)].
    - exists 1. split; [lra|]. auto.
    - exists d. split; auto. intros x1 L Hx. right. rewrite <- (vadd_vdiff x x1 L).
      apply HB; auto. apply vdiff_length; auto. }
  exists d. split; auto. intros x1 w1 t1 w1' L Hx HT1.
  destruct (replay_is_record Rops f x w t w' x1 w1 HT L (H x1 L Hx)) as (t2 & w3 & HT2 & Z).
  rewrite HT1 in HT2. injection HT2 as <- <-.
  destruct (fn_tape_wf Rops f x w t w' HT) as (R1 & _ & N1).
  destruct (zero_sweep_values Rops t x1 ltac:(apply R1)) as (t3 & E3 & A1 & A2 & A3 & V3).
  { congruence. }
  rewrite Z in E3. injection E3 as <-. unfold no_abs, num_abs in *. congruence.
Qed.

Lemma vdiff_scal : forall x1 h s, length h = length x1 -> vdiff (vadd x1 (vscal s h)) x1 = vscal s h.
Proof.
  induction x1 as [|a l IH]; intros [|b h] s L; cbn in L; try discriminate; auto.
  unfold vadd, vdiff, vscal in *. cbn [combine map fst snd]. f_equal; [lra|]. apply IH. lia.
Qed.

Lemma vdiff_comb : forall x1 x2 h s, length h = length x1 -> length x2 = length x1 ->
  vdiff (vadd x1 (vscal s h)) x2 = lincomb s 1 h (vdiff x1 x2).
Proof.
  induction x1 as [|a l IH]; intros [|c x2] [|b h] s L L2; cbn in L, L2; try discriminate; auto.
  unfold vadd, vdiff, vscal, lincomb in *. cbn [combine map fst snd]. f_equal; [lra|]. apply IH; lia.
Qed.

Lemma vscal_comb : forall h s, vscal s h = lincomb s 0 h h.
Proof.
  induction h as [|b h IH]; intros s; auto. unfold vscal, lincomb in *. cbn. f_equal; [lra|]. apply IH.
Qed.

Lemma nrm1_scal s h : nrm1 (vscal s h) = Rabs s * nrm1 h.
Proof. unfold vscal. induction h; cbn; [lra|]. rewrite Rabs_mult, IHh. lra. Qed.

Lemma nth_lincomb a b : forall x y j, length x = length y ->
  nth j (lincomb a b x y) 0 = a * nth j x 0 + b * nth j y 0.
Proof.
  induction x as [|u x IH]; intros [|v y] [|j] L; cbn in *; try discriminate; try lra.
  rewrite <- IH by lia. reflexivity.
Qed.

Theorem derivatives_lipschitz f x w t w' :
  fn_tape Rops f x w = Ok (t, w') -> regular f x -> same_branches_near f x -> no_abs t ->
  exists K d, 0 <= K /\ 0 < d /\ forall x1 x2,
    length x1 = length x -> length x2 = length x -> dist1 x1 x < d -> dist1 x2 x < d ->
    forall w1 w2, exists t1 w1' t2 w2',
      fn_tape Rops f x1 w1 = Ok (t1, w1') /\ fn_tape Rops f x2 w2 = Ok (t2, w2') /\
      forall h, length h = length x -> exists dy1 dy2,
        tape_forward Rops t1 h = Ok dy1 /\ tape_forward Rops t2 h = Ok dy2 /\
        length dy1 = num_deps t /\ length dy2 = num_deps t /\
        forall j, (j < num_deps t)%nat ->
          Rabs (nth j dy1 0 - nth j dy2 0) <= K * dist1 x1 x2 * nrm1 h.
Proof.
  intros HT HR HB NA.
  destruct (no_abs_near f x w t w' HT NA HB) as (d1 & Hd1 & HN).
  destruct (linearisation_stable f x w t w' HT HR HB) as (K & d2 & HK & Hd2 & HS).
  set (d := Rmin d1 d2). assert (0 < d) as Hd by (apply Rmin_pos; auto).
  pose proof (Rmin_l d1 d2) as M1. pose proof (Rmin_r d1 d2) as M2. fold d in M1, M2.
  exists (4 * K), (d / 4). split; [lra|]. split; [lra|].
  intros x1 x2 L1 L2 H1 H2 w1 w2.
  destruct (HS x1 x2 x1 L1 L2 L1 ltac:(lra) ltac:(lra) ltac:(lra) w1 w2)
    as (t1 & w1' & t2 & w2' & y1 & y2 & z1 & e & T1 & T2 & Y1 & Y2 & F1 & F2 & Ly1 & Ly2 & Lz1 & Le & S1).
  exists t1, w1', t2, w2'. split; auto. split; auto. intros h Lh.
  destruct (fn_tape_wf Rops f x1 w1 t1 w1' T1) as (R1 & _ & N1).
  destruct (fn_tape_wf Rops f x2 w2 t2 w2' T2) as (R2 & _ & N2).
  pose proof (HN x1 w1 t1 w1' L1 ltac:(lra) T1) as NA1.
  pose proof (HN x2 w2 t2 w2' L2 ltac:(lra) T2) as NA2.
  pose proof (vdiff_length x1 x2 ltac:(congruence)) as L12.
  assert (dist1 x1 x1 = 0) as E0 by apply dist1_self.
  assert (0 <= dist1 x1 x2) as Dp by apply nrm1_pos.
  assert (0 <= nrm1 h) as Hp by apply nrm1_pos.
  (* scale *)
  destruct (Req_dec (nrm1 h) 0) as [Z|Z].
  - assert (vscal 0 h = h) as Eh.
    { clear -Z. unfold vscal. induction h as [|a h IH]; auto. cbn in Z |- *.
      pose proof (Rabs_pos a) as Pa. pose proof (nrm1_pos h) as Ph.
      f_equal; [|apply IH; lra].
      destruct (Req_dec a 0) as [|N]; [lra|]. apply Rabs_pos_lt in N. lra. }
    destruct (forward_linear t1 0 0 h h ltac:(apply R1) NA1 ltac:(congruence) ltac:(congruence))
      as (u1 & u1' & U1 & U1' & V1). rewrite U1 in U1'. injection U1' as <-.
    destruct (forward_linear t2 0 0 h h ltac:(apply R2) NA2 ltac:(congruence) ltac:(congruence))
      as (u2 & u2' & U2 & U2' & V2). rewrite U2 in U2'. injection U2' as <-.
    rewrite <- vscal_comb, Eh in V1, V2. rewrite U1 in V1. rewrite U2 in V2.
    apply Ok_inj in V1, V2.
    assert (forall j, nth j u1 0 = 0) as Z1.
    { intros j. rewrite V1, nth_lincomb by auto. lra. }
    assert (forall j, nth j u2 0 = 0) as Z2.
    { intros j. rewrite V2, nth_lincomb by auto. lra. }
    exists u1, u2. split; auto. split; auto.
    assert (num_deps t1 = num_deps t /\ num_deps t2 = num_deps t) as [Q1 Q2].
    { apply gather_length in Y1, Y2. unfold num_deps in *. split; congruence. }
    unfold tape_forward in U1, U2.
    assert (length u1 = num_deps t1 /\ length u2 = num_deps t2) as [Lu1 Lu2].
    { apply bind_ok in U1 as (? & _ & U1). apply bind_ok in U1 as (? & _ & U1).
      apply bind_ok in U2 as (? & _ & U2). apply bind_ok in U2 as (? & _ & U2).
      apply gather_length in U1, U2. auto. }
    split; [congruence|]. split; [congruence|]. intros j _. rewrite Z1, Z2, Z, Rmult_0_r.
    replace (0 - 0) with 0 by lra. rewrite Rabs_R0. lra.
  - assert (0 < nrm1 h) as Hp' by lra.
    set (s := d / (2 * nrm1 h)). assert (0 < s) as Hs by (apply Rdiv_lt_0_compat; lra).
    assert (s * nrm1 h = d / 2) as Es by (unfold s; field; lra).
    set (v := vadd x1 (vscal s h)).
    assert (vdiff v x1 = vscal s h) as Ev1 by (apply vdiff_scal; congruence).
    assert (vdiff v x2 = lincomb s 1 h (vdiff x1 x2)) as Ev2 by (apply vdiff_comb; congruence).
    assert (dist1 v x1 = d / 2) as Dv1.
    { unfold dist1. rewrite Ev1, nrm1_scal, Rabs_right by lra. auto. }
    assert (length v = length x) as Lv.
    { unfold v. rewrite vadd_length; auto. unfold vscal. rewrite map_length. congruence. }
    assert (dist1 v x <= d / 2 + dist1 x1 x) as Dv.
    { rewrite <- Dv1. rewrite !dist1_dk by congruence. rewrite L1, Lv. apply dk_tri. }
    assert (dist1 x1 x2 <= d / 2) as D12.
    { assert (dist1 x1 x2 <= dist1 x1 x + dist1 x2 x) as A.
      { rewrite !dist1_dk by congruence. rewrite L1, L2. rewrite (dk_sym _ x2 x). apply dk_tri. }
      lra. }
    assert (dist1 v x2 <= d / 2 + dist1 x1 x2) as Dv2.
    { rewrite <- Dv1. rewrite !dist1_dk by congruence. rewrite L1, Lv. apply dk_tri. }
    destruct (HS x1 x2 v L1 L2 Lv ltac:(lra) ltac:(lra) ltac:(lra) w1 w2)
      as (t1' & w1'' & t2' & w2'' & y1' & y2' & a1 & a2 & T1' & T2' & Y1' & Y2' & A1 & A2
          & _ & _ & La1 & La2 & S2).
    rewrite T1 in T1'. injection T1' as <- <-. rewrite T2 in T2'. injection T2' as <- <-.
    rewrite Y1 in Y1'. injection Y1' as <-. rewrite Y2 in Y2'. injection Y2' as <-.
    rewrite Ev1 in A1. rewrite vscal_comb in A1. rewrite Ev2 in A2.
    destruct (forward_linear t1 s 0 h h ltac:(apply R1) NA1 ltac:(congruence) ltac:(congruence))
      as (u1 & u1' & U1 & U1' & V1). rewrite U1 in U1'. injection U1' as <-.
    destruct (forward_linear t2 s 1 h (vdiff x1 x2) ltac:(apply R2) NA2 ltac:(congruence)
                ltac:(congruence)) as (u2 & e' & U2 & E' & V2).
    rewrite F2 in E'. injection E' as <-.
    rewrite A1 in V1. rewrite A2 in V2. apply Ok_inj in V1, V2. subst a1 a2.
    (* the increment 0 at x1 *)
    assert (forall j, (j < num_deps t)%nat -> nth j z1 0 = 0) as Hz1.
    { intros j Hj.
      assert (vdiff x1 x1 = vscal 0 h) as Ez.
      { assert (length h = length x1) as L by congruence. clear -L. revert h L.
        induction x1 as [|a l IH]; intros [|b h] L; cbn in L; try discriminate; auto.
        unfold vdiff, vscal in *. cbn [combine map fst snd]. f_equal; [lra|]. apply IH. lia. }
      rewrite Ez, vscal_comb in F1.
      destruct (forward_linear t1 0 0 h h ltac:(apply R1) NA1 ltac:(congruence) ltac:(congruence))
        as (q & q' & Q & Q' & V). rewrite Q in Q'. injection Q' as <-.
      rewrite F1 in V. apply Ok_inj in V. rewrite V, nth_lincomb by auto. lra. }
    exists u1, u2. split; auto. split; auto.
    assert (length u1 = num_deps t) as Lu1.
    { unfold lincomb in La1. rewrite map_length, combine_length in La1. lia. }
    assert (length u2 = length e) as Lu2.
    { unfold lincomb in La2. rewrite map_length, combine_length in La2.
      apply Nat.le_antisymm; [|lia].
      unfold tape_forward in U2, F2.
      apply bind_ok in U2 as (? & _ & U2). apply bind_ok in U2 as (? & _ & U2).
      apply bind_ok in F2 as (? & _ & F2). apply bind_ok in F2 as (? & _ & F2).
      apply gather_length in U2, F2. lia. }
    split; auto. split; [congruence|]. intros j Hj.
    specialize (S1 j Hj). specialize (S2 j Hj). rewrite (Hz1 j Hj), E0 in S1.
    rewrite !nth_lincomb in S2 by auto. rewrite Dv1 in S2.
    set (m := dist1 x1 x2) in *.
    assert (s * Rabs (nth j u1 0 - nth j u2 0) <= K * m * (2 * d)) as A.
    { rewrite <- (Rabs_right s) at 1 by lra. rewrite <- Rabs_mult.
      replace (s * (nth j u1 0 - nth j u2 0)) with
        ((nth j y1 0 + (s * nth j u1 0 + 0 * nth j u1 0) -
          (nth j y2 0 + (s * nth j u2 0 + 1 * nth j e 0)))
         - (nth j y1 0 + 0 - (nth j y2 0 + nth j e 0))) by ring.
      eapply Rle_trans; [apply Rabs_triang|]. rewrite Rabs_Ropp.
      assert (K * (m * (d / 2 + dist1 v x2)) <= K * (m * (d + m))) as B1.
      { apply Rmult_le_compat_l; auto. apply Rmult_le_compat_l; auto. lra. }
      assert (K * (m * (0 + m)) <= K * (m * (d / 2))) as B2.
      { apply Rmult_le_compat_l; auto. apply Rmult_le_compat_l; auto. lra. }
      assert (K * (m * (d + m)) <= K * (m * (d + d / 2))) as B3.
      { apply Rmult_le_compat_l; auto. apply Rmult_le_compat_l; auto. lra. }
      eapply Rle_trans; [apply Rplus_le_compat; [apply S2|apply S1]|]. fold m. lra. }
    apply (Rmult_le_reg_l s); auto. eapply Rle_trans; [apply A|]. apply Req_le.
    replace (s * (4 * K * m * nrm1 h)) with (4 * K * m * (s * nrm1 h)) by ring. rewrite Es. field.
Qed.
