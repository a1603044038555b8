(** The estimate of checkpointing.rs:31-35 evaluated with rounding errors: if every operation is
    accurate to the relative error [eps], the result is off by less than one half. *)
From Coq Require Import Reals Lra Lia ZArith Psatz.
From Verif Require Import Base AContext Checkpoint CheckSpec CheckFacts Stirling.
Local Open Scope R_scope.

Definition eps : R := / 2 ^ 42.
Definition rel (x y : R) : Prop := Rabs (x - y) <= eps * Rabs y.

Lemma eps_val : eps = / 4398046511104. Proof. unfold eps. f_equal. lra. Qed.
Lemma eps_pos : 0 < eps <= / 1000. Proof. rewrite eps_val. lra. Qed.

(** A small relative error is a small additive error of the logarithm. *)
Lemma ln_small d : Rabs d <= eps -> Rabs (ln (1 + d)) <= 2 * eps.
Proof.
  intros H. pose proof eps_pos as E.
  assert (- eps <= d <= eps) as [H1 H2].
  { split; [pose proof (Rle_abs (- d)); rewrite Rabs_Ropp in *; lra|pose proof (Rle_abs d); lra]. }
  apply Rabs_le. split.
  - (* 1/(1+d) <= exp (2 eps) *)
    rewrite <- (Ropp_involutive (ln (1 + d))). apply Ropp_le_contravar.
    rewrite <- ln_Rinv by lra.
    apply Rle_trans with (ln (exp (2 * eps))); [|rewrite ln_exp; lra].
    assert (/ (1 + d) <= exp (2 * eps)) as HX.
    { pose proof (exp_ineq1_le (2 * eps)) as H3. apply Rle_trans with (1 + 2 * eps); [|lra].
      apply (Rmult_le_reg_l (1 + d)); [lra|]. rewrite Rinv_r by lra. nra. }
    destruct HX as [HX|HX]; [left; apply ln_increasing; auto; apply Rinv_0_lt_compat; lra|rewrite HX; lra].
  - apply Rle_trans with (ln (exp d)); [|rewrite ln_exp; lra].
    pose proof (exp_ineq1_le d) as [H3|H3]; [left; apply ln_increasing; lra|rewrite H3; lra].
Qed.

Lemma rel_pos x y : 0 < y -> rel x y -> exists th, x = y * exp th /\ Rabs th <= 2 * eps.
Proof.
  intros Hy H. unfold rel in H. pose proof eps_pos as E. rewrite (Rabs_pos_eq y) in H by lra.
  assert (Rabs ((x - y) / y) <= eps) as HD.
  { unfold Rdiv. rewrite Rabs_mult, (Rabs_pos_eq (/ y)) by (left; apply Rinv_0_lt_compat; auto).
    apply (Rmult_le_reg_r y); auto. rewrite Rmult_assoc, Rinv_l, Rmult_1_r by lra. exact H. }
  assert (x = y * (1 + (x - y) / y)) as EX by (field; lra).
  assert (0 < 1 + (x - y) / y) as HP.
  { pose proof (Rle_abs (- ((x - y) / y))). rewrite Rabs_Ropp in *. lra. }
  exists (ln (1 + (x - y) / y)). rewrite exp_ln by auto. split; [auto|apply ln_small; auto].
Qed.

Lemma exp_small th : Rabs th <= 64 * eps -> Rabs (exp th - 1) <= 2 * (64 * eps).
Proof.
  intros H. pose proof eps_val as E.
  assert (- (64 * eps) <= th <= 64 * eps) as [H1 H2].
  { split; [pose proof (Rle_abs (- th)); rewrite Rabs_Ropp in *; lra|pose proof (Rle_abs th); lra]. }
  pose proof (exp_ineq1_le th) as H3. pose proof (exp_ineq1_le (- th)) as H4.
  rewrite exp_Ropp in H4. pose proof (exp_pos th) as H5.
  assert (exp th * (1 - th) <= 1) as H6.
  { apply (Rmult_le_reg_r (/ exp th)); [apply Rinv_0_lt_compat; auto|].
    replace (exp th * (1 - th) * / exp th) with (1 + - th) by (field; lra). lra. }
  apply Rabs_le. split; [lra|]. nra.
Qed.

Lemma ln_pow2 k : ln (2 ^ k) = INR k * ln 2.
Proof.
  rewrite <- Rpower_pow by lra. unfold Rpower. rewrite ln_exp. reflexivity.
Qed.
Lemma ln2_lt1 : ln 2 < 1.
Proof.
  rewrite <- (ln_exp 1). apply ln_increasing; [lra|]. pose proof (exp_ineq1 1). lra.
Qed.
Lemma PI_lt4 : PI <= 4. Proof. apply PI_4. Qed.

Section Estimate.
Context (c r : Z) (Hc : (2 <= c)%Z) (Hr : (c + 1 < r)%Z) (HB : (r <= 2 ^ 32)%Z).
Let C := IZR c. Let RR := IZR r.
(** checkpointing.rs:34 with every intermediate result rounded *)
Context (e a pi b2 b3 b4 d p m v : R).
Context (He : rel e (exp (-1))) (Ha : rel a (e * C)) (Hpi : rel pi PI) (Hb2 : rel b2 (2 * pi * C))
  (Hb3 : rel b3 (sqrt b2)) (Hb4 : rel b4 (b3 * RR)) (Hd : rel d (1 / C)) (Hp : rel p (Rpower b4 d))
  (Hm : rel m (a * p)) (Hv : rel v (m - C)).

Lemma C2 : 2 <= C. Proof. unfold C. apply (IZR_le 2). lia. Qed.
Lemma CR : C <= 2 ^ 32 /\ RR <= 2 ^ 32 /\ 1 <= RR.
Proof.
  unfold C, RR. change (2 ^ 32) with (IZR 2 ^ 32). rewrite pow_IZR. repeat split; apply IZR_le; cbn in *; lia.
Qed.

Definition big : R := exp (-1) * C * Rpower (sqrt (2 * PI * C) * RR) (1 / C).

Lemma big_bound : 0 < big <= 2 ^ 33.
Proof.
  pose proof C2 as H2. pose proof CR as (HC & HR & _).
  split.
  { unfold big. apply Rmult_lt_0_compat; [apply Rmult_lt_0_compat; [apply exp_pos|lra]|apply exp_pos]. }
  pose proof (estimate_under (Z.to_nat c) r (Z.to_nat r) ltac:(lia) ltac:(lia)) as E.
  rewrite Z2Nat.id in E by lia.
  assert ((r <= Bn (Z.to_nat c) (Z.to_nat r))%Z) as HBn.
  { destruct (Z.to_nat c) as [|k] eqn:Ek; [lia|]. pose proof (Bn_ge_t k (Z.to_nat r)). lia. }
  specialize (E HBn). unfold estimate in E. fold C RR in E. fold big in E.
  rewrite !INR_IZR_INZ, !Z2Nat.id in E by lia. fold C RR in E. lra.
Qed.

Lemma estimate_close : Rabs (v - estimate c r) < 1 / 2.
Proof.
  pose proof C2 as H2. pose proof CR as (HC & HR & HR1). pose proof eps_pos as EP. pose proof eps_val as EV.
  pose proof PI_RGT_0 as PP. pose proof PI_lt4 as P4.
  assert (0 < exp (-1)) as E0 by apply exp_pos.
  destruct (rel_pos _ _ E0 He) as (t1 & E1 & B1).
  assert (0 < e) as He0 by (rewrite E1; apply Rmult_lt_0_compat; auto; apply exp_pos).
  assert (0 < e * C) as H0 by (apply Rmult_lt_0_compat; lra).
  destruct (rel_pos _ _ H0 Ha) as (t2 & Eq2 & B2).
  assert (0 < a) as Ha0 by (rewrite Eq2; apply Rmult_lt_0_compat; auto; apply exp_pos).
  destruct (rel_pos _ _ PP Hpi) as (t3 & Eq3 & B3).
  assert (0 < pi) as Hpi0 by (rewrite Eq3; apply Rmult_lt_0_compat; auto; apply exp_pos).
  assert (0 < 2 * pi * C) as H1 by (apply Rmult_lt_0_compat; lra).
  destruct (rel_pos _ _ H1 Hb2) as (t4 & Eq4 & B4).
  assert (0 < b2) as Hb20 by (rewrite Eq4; apply Rmult_lt_0_compat; auto; apply exp_pos).
  assert (0 < sqrt b2) as Hs0 by (apply sqrt_lt_R0; auto).
  destruct (rel_pos _ _ Hs0 Hb3) as (t5 & Eq5 & B5).
  assert (0 < b3) as Hb30 by (rewrite Eq5; apply Rmult_lt_0_compat; auto; apply exp_pos).
  assert (0 < b3 * RR) as Hb3r by (apply Rmult_lt_0_compat; lra).
  destruct (rel_pos _ _ Hb3r Hb4) as (t6 & Eq6 & B6).
  assert (0 < b4) as Hb40 by (rewrite Eq6; apply Rmult_lt_0_compat; auto; apply exp_pos).
  assert (0 < Rpower b4 d) as Hpw by apply exp_pos.
  destruct (rel_pos _ _ Hpw Hp) as (t7 & Eq7 & B7).
  assert (0 < p) as Hp0 by (rewrite Eq7; apply Rmult_lt_0_compat; auto; apply exp_pos).
  assert (0 < a * p) as Hap by (apply Rmult_lt_0_compat; auto).
  destruct (rel_pos _ _ Hap Hm) as (t8 & Eq8 & B8).
  (* the exponent *)
  assert (exists dd, d = (1 + dd) / C /\ Rabs dd <= eps) as (dd & Ed & Bd).
  { exists (d * C - 1). split; [field; lra|]. unfold rel in Hd.
    replace (d * C - 1) with ((d - 1 / C) * C) by (field; lra).
    rewrite Rabs_mult, (Rabs_pos_eq C) by lra.
    apply Rle_trans with (eps * Rabs (1 / C) * C); [apply Rmult_le_compat_r; [lra|exact Hd]|].
    rewrite Rabs_pos_eq; [right; field; lra|]. unfold Rdiv. rewrite Rmult_1_l. left. apply Rinv_0_lt_compat. lra. }
  set (B := sqrt (2 * PI * C) * RR).
  assert (0 < 2 * PI * C) as HQ by (apply Rmult_lt_0_compat; lra).
  assert (0 < sqrt (2 * PI * C)) as HQ0 by (apply sqrt_lt_R0; auto).
  assert (0 < B) as HB0 by (unfold B; apply Rmult_lt_0_compat; lra).
  assert (ln b4 = ln B + ((t3 + t4) / 2 + t5 + t6)) as Lb4.
  { rewrite Eq6, ln_mult, ln_exp by (auto; apply exp_pos). rewrite ln_mult by lra.
    rewrite Eq5, ln_mult, ln_exp by (auto; apply exp_pos).
    assert (ln (sqrt b2) = ln (sqrt (2 * PI * C)) + (t3 + t4) / 2) as HH.
    { assert (forall z, 0 < z -> ln (sqrt z) = ln z / 2) as LS.
      { intros z Hz. rewrite <- (sqrt_sqrt z) at 2 by lra. rewrite ln_mult by (apply sqrt_lt_R0; auto). field. }
      rewrite !LS by auto. rewrite Eq4, ln_mult, ln_exp by (auto; apply exp_pos).
      replace (2 * pi * C) with (2 * PI * C * exp t3) by (rewrite Eq3; ring).
      rewrite ln_mult, ln_exp by (auto; apply exp_pos). field. }
    rewrite HH. unfold B. rewrite ln_mult by lra. ring. }
  assert (0 <= ln B <= 64) as LB.
  { split.
    - rewrite <- ln_1. assert (1 <= B) as B1'.
      { unfold B. rewrite <- (Rmult_1_r 1). apply Rmult_le_compat; try lra.
        rewrite <- sqrt_1. apply sqrt_le_1_alt. pose proof PI2_1. nra. }
      destruct B1' as [B1'|B1']; [left; apply ln_increasing; lra|rewrite <- B1'; lra].
    - apply Rle_trans with (ln (2 ^ 64)).
      + left. apply ln_increasing; auto. apply Rle_lt_trans with (2 ^ 31 * 2 ^ 32); [|lra].
        unfold B. apply Rmult_le_compat; try lra.
        apply Rle_trans with (sqrt (2 ^ 31 * 2 ^ 31)); [|rewrite sqrt_square by lra; lra].
        apply sqrt_le_1_alt. nra.
      + rewrite ln_pow2. pose proof ln2_lt1. replace (INR 64) with 64 by (rewrite INR_IZR_INZ; reflexivity). lra. }
  (* collect *)
  set (T := t1 + t2 + t7 + t8 + (1 + dd) / C * ((t3 + t4) / 2 + t5 + t6) + dd / C * ln B).
  assert (m = big * exp T) as EM.
  { rewrite Eq8, Eq2, Eq7, E1. unfold big. fold B. unfold Rpower. rewrite Lb4, Ed.
    replace (exp (-1) * exp t1 * C * exp t2 * (exp ((1 + dd) / C * (ln B + ((t3 + t4) / 2 + t5 + t6))) * exp t7) * exp t8)
      with (exp (-1) * C * (exp ((1 + dd) / C * (ln B + ((t3 + t4) / 2 + t5 + t6))) * exp t1 * exp t2 * exp t7 * exp t8)) by ring.
    rewrite (Rmult_assoc (exp (-1) * C)). f_equal. rewrite <- !exp_plus. f_equal. unfold T. field. lra. }
  assert (Rabs T <= 64 * eps) as BT.
  { assert (forall z k, Rabs z <= k -> - k <= z <= k) as AB.
    { intros z k H. split; [pose proof (Rle_abs (- z)); rewrite Rabs_Ropp in *; lra|pose proof (Rle_abs z); lra]. }
    apply AB in B1. apply AB in B2. apply AB in B3. apply AB in B4. apply AB in B5. apply AB in B6.
    apply AB in B7. apply AB in B8. apply AB in Bd.
    assert (0 < / C <= / 2) as IC by (split; [apply Rinv_0_lt_compat; lra|apply Rinv_le_contravar; lra]).
    set (s := (t3 + t4) / 2 + t5 + t6) in *. assert (- (6 * eps) <= s <= 6 * eps) as Bs by (clear - B3 B4 B5 B6; unfold s; lra).
    assert (- (6 * eps) <= (1 + dd) / C * s <= 6 * eps) as Bk.
    { assert (0 <= (1 + dd) / C <= 1).
      { unfold Rdiv. split; [apply Rmult_le_pos; lra|]. nra. }
      set (k := (1 + dd) / C) in *. split; nra. }
    assert (- (32 * eps) <= dd / C * ln B <= 32 * eps) as Bl.
    { assert (- (eps / 2) <= dd / C <= eps / 2) by (unfold Rdiv; split; nra).
      set (k := dd / C) in *. split; nra. }
    unfold T. apply Rabs_le. lra. }
  apply exp_small in BT.
  destruct big_bound as [G0 G1].
  assert (Rabs (m - big) <= / 4) as D1.
  { rewrite EM. replace (big * exp T - big) with (big * (exp T - 1)) by ring.
    rewrite Rabs_mult, (Rabs_pos_eq big) by lra.
    apply Rle_trans with (2 ^ 33 * (2 * (64 * eps))); [|rewrite EV; lra].
    apply Rmult_le_compat; try lra. apply Rabs_pos. }
  assert (Rabs (m - C) <= 2 ^ 34) as D2.
  { assert (forall z k, Rabs z <= k -> - k <= z <= k) as AB.
    { intros z k H. split; [pose proof (Rle_abs (- z)); rewrite Rabs_Ropp in *; lra|pose proof (Rle_abs z); lra]. }
    apply AB in D1. apply Rabs_le. lra. }
  unfold rel in Hv.
  replace (v - estimate c r) with ((v - (m - C)) + (m - big)) by (unfold estimate, big, C, RR; ring).
  eapply Rle_lt_trans; [apply Rabs_triang|].
  assert (eps * Rabs (m - C) <= eps * 2 ^ 34) as D3 by (apply Rmult_le_compat_l; lra).
  rewrite EV in *. lra.
Qed.
End Estimate.
