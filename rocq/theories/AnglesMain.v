(** Conversions between degrees and radians: Jacobians, rounding errors, overflow. *)
From Coq Require Import Reals Lra List Arith ZArith Bool Lia SpecFloat.
From Flocq Require Import Core.
From Verif Require Import Base Float FloatInst Operation Tape AContext AContextFacts Methods Function Spec TapeFacts RealInst Param Instances
  FunctionFacts MethodSpec MethodFacts DerivFacts2 Matrix MatrixFacts Jacobian JacobianFacts AbsNormal AbsNormalFacts AnfSpec AnfFacts2
  SampleFacts UnitTests UnitFacts UnitFacts2 F64Facts F64Ops BallSpec Angles.
Import ListNotations.
Local Close Scope nat_scope.
Local Open Scope R_scope.

Ltac angle HP := match goal with |- context[acos 0] => rewrite acos_0 end;
  repeat match goal with |- context[- 0 / ?q] => replace (- 0 / q) with 0 by (unfold Rdiv; ring) end; unfold powerRZ; change (Pos.to_nat 2) with 2%nat; cbn [pow]; try (field; auto).

Definition degrees_tape (x : R) : tape R.
Proof. let v := rlazy (fn_tape Rops (degrees_fn Rops) [x] world0) in match v with Ok (?t, _) => exact t end. Defined.
Definition radians_tape (x : R) : tape R.
Proof. let v := rlazy (fn_tape Rops (radians_fn Rops) [x] world0) in match v with Ok (?t, _) => exact t end. Defined.

Theorem degrees_forward red x w : rayon red -> jacobian_forward Rops red (degrees_fn Rops) [x] w = Ok (mkM 1 1 [[180 / PI]]).
Proof.
  intros H. pose proof pi_pos as HP. rewrite (jacobian_forward_det Rops red (@concat _) _ [x] w H (@rayon_exists _)).
  match goal with |- ?t = _ => rcomp t end. do 4 f_equal. angle HP.
Qed.
Theorem radians_forward red x w : rayon red -> jacobian_forward Rops red (radians_fn Rops) [x] w = Ok (mkM 1 1 [[PI / 180]]).
Proof.
  intros H. pose proof pi_pos as HP. rewrite (jacobian_forward_det Rops red (@concat _) _ [x] w H (@rayon_exists _)).
  match goal with |- ?t = _ => rcomp t end. do 4 f_equal. angle HP.
Qed.
Theorem degrees_reverse red x0 x w : rayon red ->
  exists t w' t', fn_tape Rops (degrees_fn Rops) [x0] w = Ok (t, w') /\ tape_zero_order Rops t [x] = Ok t' /\
    tape_y t' = Ok [x * (180 / PI)] /\ jacobian_reverse Rops red t' = Ok (mkM 1 1 [[180 / PI]]).
Proof.
  intros H. pose proof pi_pos as HP.
  destruct (recorded_anywhere (degrees_fn Rops) [x0] (degrees_tape x0) _ w ltac:(rtape; reflexivity)) as (w' & E).
  eexists _, w', _. split; [exact E|]. split; [rcomp (tape_zero_order Rops (degrees_tape x0) [x]); reflexivity|].
  split.
  - match goal with |- ?t = _ => rcomp t end. do 2 f_equal. angle HP.
  - rewrite (jacobian_reverse_det Rops red (@concat _) _ H (@rayon_exists _)).
    match goal with |- ?t = _ => rcomp t end. do 4 f_equal. angle HP.
Qed.
Theorem radians_reverse red x0 x w : rayon red ->
  exists t w' t', fn_tape Rops (radians_fn Rops) [x0] w = Ok (t, w') /\ tape_zero_order Rops t [x] = Ok t' /\
    tape_y t' = Ok [x * (PI / 180)] /\ jacobian_reverse Rops red t' = Ok (mkM 1 1 [[PI / 180]]).
Proof.
  intros H. pose proof pi_pos as HP.
  destruct (recorded_anywhere (radians_fn Rops) [x0] (radians_tape x0) _ w ltac:(rtape; reflexivity)) as (w' & E).
  eexists _, w', _. split; [exact E|]. split; [rcomp (tape_zero_order Rops (radians_tape x0) [x]); reflexivity|].
  split.
  - match goal with |- ?t = _ => rcomp t end. do 2 f_equal. angle HP.
  - rewrite (jacobian_reverse_det Rops red (@concat _) _ H (@rayon_exists _)).
    match goal with |- ?t = _ => rcomp t end. do 4 f_equal. angle HP.
Qed.

(** ** Rounding *)
Lemma relative z y e : 0 <= e -> Rabs (y - z) <= e * Rabs z -> exists d, Rabs d <= e /\ y = z * (1 + d).
Proof.
  intros He H. destruct (Req_dec z 0) as [->|Hz].
  - exists 0. rewrite Rabs_R0 in *. rewrite Rmult_0_r in H. split; [lra|].
    pose proof (Rabs_pos (y - 0)). destruct (Req_dec (y - 0) 0) as [Z|N]; [lra|apply Rabs_no_R0 in N; lra].
  - exists ((y - z) / z). split; [|field; auto]. unfold Rdiv. rewrite Rabs_mult, Rabs_inv.
    assert (0 < Rabs z) by (apply Rabs_pos_lt; auto). apply Rmult_le_reg_r with (Rabs z); [auto|]. rewrite Rmult_assoc, Rinv_l by lra. lra.
Qed.
Lemma rnd_relative z : bpow radix2 (-1022) <= Rabs z -> exists d, Rabs d <= / 2 ^ 53 /\ rnd z = z * (1 + d).
Proof. intros H. apply relative; [|apply rnd_rel; auto]. left. apply Rinv_0_lt_compat, pow_lt. lra. Qed.

(** The library's acos(0). *)
Lemma half_pi T : libm_accurate T -> exists h d, f64 (l_acos T (S754_zero false)) h /\ Rabs d <= / 2 ^ 49 /\ h = PI / 2 * (1 + d).
Proof.
  intros A. destruct (la_acos T A (S754_zero false) 0) as (h & Hh & He).
  - exists (BinarySingleNaN.B754_zero false). repeat split.
  - lra.
  - rewrite acos_0. pose proof PI_RGT_0. pose proof PI_4. rewrite Rabs_right by lra. unfold huge.
    apply Rle_trans with (2 ^ 1); [lra|]. apply Rle_pow; [lra|lia].
  - rewrite acos_0 in He. exists h. destruct (relative (PI / 2) h (/ 2 ^ 49)) as (d & Hd & E).
    + left. apply Rinv_0_lt_compat, pow_lt. lra.
    + eapply Rle_trans; [exact He|]. pose proof PI2_3_2. pose proof PI_RGT_0. rewrite Rabs_right by lra.
      assert (tiny <= / 2 ^ 50) as Ht.
      { unfold tiny. apply Rinv_le; [apply pow_lt; lra|]. apply Rle_pow; [lra|lia]. }
      assert (/ 2 ^ 49 = 2 * / 2 ^ 50) as -> by lra.
      unfold lib_err. assert (0 < / 2 ^ 50) by (apply Rinv_0_lt_compat, pow_lt; lra). nra.
    + exists d. auto.
Qed.

Definition moderate (a : R) : Prop := bpow radix2 (-900) <= Rabs a <= bpow radix2 900.

Lemma quotient_err e1 e2 e3 : Rabs e1 <= / 2 ^ 53 -> Rabs e2 <= / 2 ^ 49 -> Rabs e3 <= / 2 ^ 53 ->
  Rabs ((1 + e1) / (1 + e2) * (1 + e3) - 1) <= / 2 ^ 48.
Proof.
  intros H1 H2 H3. apply Rabs_le_inv in H1, H2, H3. apply Rabs_le.
  assert (0 < 1 + e2) as P by lra.
  replace ((1 + e1) / (1 + e2) * (1 + e3) - 1) with ((e1 + e3 + e1 * e3 - e2) / (1 + e2)) by (field; lra).
  assert (- / 2 ^ 100 <= e1 * e3 <= / 2 ^ 100) as Q by nra.
  split.
  - apply Rmult_le_reg_r with (1 + e2); [auto|]. unfold Rdiv. rewrite Rmult_assoc, Rinv_l, Rmult_1_r by lra. nra.
  - apply Rmult_le_reg_r with (1 + e2); [auto|]. unfold Rdiv. rewrite Rmult_assoc, Rinv_l, Rmult_1_r by lra. nra.
Qed.
Lemma product_err e1 e2 e3 : Rabs e1 <= / 2 ^ 53 -> Rabs e2 <= / 2 ^ 49 -> Rabs e3 <= / 2 ^ 53 ->
  Rabs ((1 + e2) * (1 + e1) * (1 + e3) - 1) <= / 2 ^ 48.
Proof.
  intros H1 H2 H3. apply Rabs_le_inv in H1, H2, H3. apply Rabs_le.
  assert (- / 2 ^ 100 <= e1 * e3 <= / 2 ^ 100) as Q by nra.
  assert (- / 2 ^ 50 <= e1 + e3 + e1 * e3 <= / 2 ^ 50) as Q2 by lra.
  replace ((1 + e2) * (1 + e1) * (1 + e3) - 1) with (e2 + (e1 + e3 + e1 * e3) + e2 * (e1 + e3 + e1 * e3)) by ring.
  set (s := e1 + e3 + e1 * e3) in *. assert (- / 2 ^ 98 <= e2 * s <= / 2 ^ 98) by nra. lra.
Qed.

Lemma in_range a c z : moderate a -> / 1000 <= c <= 1000 -> Rabs z = Rabs a * c ->
  bpow radix2 (-1022) <= Rabs z /\ small z.
Proof.
  intros [H1 H2] Hc ->. assert (bpow radix2 (-1022) <= bpow radix2 (-900) * bpow radix2 (-10)) as B1.
  { rewrite <- bpow_plus. apply bpow_le. lia. }
  assert (bpow radix2 900 * bpow radix2 10 <= bpow radix2 1023) as B2.
  { rewrite <- bpow_plus. apply bpow_le. lia. }
  assert (bpow radix2 (-10) = / 1024) as E1 by (cbn; lra). assert (bpow radix2 10 = 1024) as E2 by (cbn; lra).
  rewrite E1 in B1. rewrite E2 in B2. pose proof (bpow_gt_0 radix2 (-900)). pose proof (bpow_gt_0 radix2 900).
  split; [eapply Rle_trans; [exact B1|]|eapply Rle_trans; [|exact B2]].
  - apply Rmult_le_compat; lra.
  - apply Rmult_le_compat; lra.
Qed.

Lemma lit90 : f64 (lit 90) 90.
Proof. pose proof (f64_of_Z 90) as H. rewrite rnd_exact in H by lia. apply H. cbn -[bpow]. rewrite Rabs_right by lra. apply Rle_trans with (bpow radix2 7); [cbn; lra|apply bpow_le; lia]. Qed.

Lemma Rabs_near d e : Rabs d <= e -> e <= / 2 -> Rabs (1 + d) = 1 + d /\ / 2 <= 1 + d <= 3 / 2.
Proof. intros H1 H2. apply Rabs_le_inv in H1. split; [apply Rabs_right; lra|lra]. Qed.

Theorem degrees_rounded T x a : libm_accurate T -> f64 x a -> moderate a ->
  exists v, f64 (sf_div (sf_mul x (lit 90)) (l_acos T (S754_zero false))) v /\
    Rabs (v - a * (180 / PI)) <= / 2 ^ 48 * Rabs (a * (180 / PI)).
Proof.
  intros A Hx Ha. destruct (half_pi T A) as (h & e2 & Hh & H2 & Eh).
  pose proof PI2_3_2 as P1. pose proof PI_4 as P2. pose proof PI_RGT_0 as P0.
  destruct (Rabs_near e2 (/ 2 ^ 49) H2) as (N2 & B2); [lra|].
  destruct (in_range a 90 (a * 90) Ha) as (R1 & S1); [lra|rewrite Rabs_mult, (Rabs_right 90); lra|].
  destruct (rnd_relative (a * 90) R1) as (e1 & H1 & E1). destruct (Rabs_near e1 (/ 2 ^ 53) H1) as (N1 & B1); [lra|].
  pose proof (f64_mul _ _ _ _ Hx lit90 S1) as Hu. rewrite E1 in Hu.
  assert (h <> 0) as Hh0 by (rewrite Eh; nra).
  assert (Rabs (a * 90 * (1 + e1) / h) = Rabs a * (90 * (1 + e1) / h)) as Eq.
  { unfold Rdiv. rewrite !Rabs_mult, N1, (Rabs_right 90), Rabs_inv, (Rabs_right h) by (try lra; rewrite Eh; nra). ring. }
  assert (/ 2 <= h <= 4) as Bh by (rewrite Eh; split; nra).
  assert (/ 4 <= / h <= 2) as Bi.
  { split; [apply Rinv_le; lra|]. rewrite <- (Rinv_inv 2). apply Rinv_le; lra. }
  destruct (in_range a (90 * (1 + e1) / h) _ Ha ltac:(unfold Rdiv; split; nra) Eq) as (R3 & S3).
  destruct (rnd_relative _ R3) as (e3 & H3 & E3).
  pose proof (f64_div _ _ _ _ Hu Hh Hh0 S3) as Hv. rewrite E3 in Hv. eexists. split; [exact Hv|].
  replace (a * 90 * (1 + e1) / h * (1 + e3) - a * (180 / PI)) with (((1 + e1) / (1 + e2) * (1 + e3) - 1) * (a * (180 / PI)))
    by (rewrite Eh; field; lra).
  rewrite Rabs_mult. apply Rmult_le_compat_r; [apply Rabs_pos|]. apply quotient_err; auto.
Qed.
Theorem radians_rounded T x a : libm_accurate T -> f64 x a -> moderate a ->
  exists v, f64 (sf_div (sf_mul x (l_acos T (S754_zero false))) (lit 90)) v /\
    Rabs (v - a * (PI / 180)) <= / 2 ^ 48 * Rabs (a * (PI / 180)).
Proof.
  intros A Hx Ha. destruct (half_pi T A) as (h & e2 & Hh & H2 & Eh).
  pose proof PI2_3_2 as P1. pose proof PI_4 as P2. pose proof PI_RGT_0 as P0.
  destruct (Rabs_near e2 (/ 2 ^ 49) H2) as (N2 & B2); [lra|].
  assert (/ 2 <= h <= 4) as Bh by (rewrite Eh; split; nra).
  destruct (in_range a h (a * h) Ha) as (R1 & S1); [lra|rewrite Rabs_mult, (Rabs_right h); lra|].
  destruct (rnd_relative (a * h) R1) as (e1 & H1 & E1). destruct (Rabs_near e1 (/ 2 ^ 53) H1) as (N1 & B1); [lra|].
  pose proof (f64_mul _ _ _ _ Hx Hh S1) as Hu. rewrite E1 in Hu.
  assert (Rabs (a * h * (1 + e1) / 90) = Rabs a * (h * (1 + e1) / 90)) as Eq.
  { unfold Rdiv. rewrite !Rabs_mult, N1, (Rabs_right h), Rabs_inv, (Rabs_right 90) by lra. ring. }
  destruct (in_range a (h * (1 + e1) / 90) _ Ha ltac:(unfold Rdiv; split; nra) Eq) as (R3 & S3).
  destruct (rnd_relative _ R3) as (e3 & H3 & E3).
  pose proof (f64_div _ _ _ _ Hu lit90 ltac:(lra) S3) as Hv. rewrite E3 in Hv. eexists. split; [exact Hv|].
  replace (a * h * (1 + e1) / 90 * (1 + e3) - a * (PI / 180)) with (((1 + e2) * (1 + e1) * (1 + e3) - 1) * (a * (PI / 180)))
    by (rewrite Eh; field; lra).
  rewrite Rabs_mult. apply Rmult_le_compat_r; [apply Rabs_pos|]. apply product_err; auto.
Qed.

Section Methods64.
Context {F : Type} (tof : spec_float -> option F) (T : libm).
Theorem degrees_error (x : AF spec_float) (a : R) (w : world F) r w' : libm_accurate T -> f64 (af_v x) a -> moderate a ->
  m_to_degrees (f64ops T) (from_op (f64ops T) tof) (af_const (f64ops T)) x w = Ok (r, w') ->
  exists v, f64 (af_v r) v /\ Rabs (v - a * (180 / PI)) <= / 2 ^ 48 * Rabs (a * (180 / PI)).
Proof. intros A Hx Ha E. apply degrees_value in E. rewrite E. apply degrees_rounded; auto. Qed.
Theorem radians_error (x : AF spec_float) (a : R) (w : world F) r w' : libm_accurate T -> f64 (af_v x) a -> moderate a ->
  m_to_radians (f64ops T) (from_op (f64ops T) tof) (af_const (f64ops T)) x w = Ok (r, w') ->
  exists v, f64 (af_v r) v /\ Rabs (v - a * (PI / 180)) <= / 2 ^ 48 * Rabs (a * (PI / 180)).
Proof. intros A Hx Ha E. apply radians_value in E. rewrite E. apply radians_rounded; auto. Qed.

(** 2^1018 is 2^1018 * 57.29... degrees, a double; the intermediate product with 90 is none. *)
Definition large : spec_float := S754_finite false 4503599627370496 966.
(** 180 / pi to nearest, the constant of Rust's [f64::to_degrees] *)
Definition rust_degrees : spec_float := S754_finite false 8063664102031864 (-47).
Theorem degrees_overflow (w : world F) : libm_accurate T ->
  (exists v, f64 (sf_mul large rust_degrees) v) /\
  forall r w', m_to_degrees (f64ops T) (from_op (f64ops T) tof) (af_const (f64ops T)) (af_const (f64ops T) large) w = Ok (r, w') ->
    af_v r = S754_infinity false.
Proof.
  intros A. split.
  - assert (sf_mul large rust_degrees = S754_finite false 8063664102031864 971) as -> by (vm_compute; reflexivity).
    assert (SpecFloat.bounded prec64 emax64 8063664102031864 971 = true) as B by reflexivity.
    exists (BinarySingleNaN.B2R (BinarySingleNaN.B754_finite false 8063664102031864 971 B)).
    exists (BinarySingleNaN.B754_finite false 8063664102031864 971 B). repeat split.
  - intros r w' E. apply degrees_value in E. rewrite E. cbn [f64ops f_div f_mul f_of_Z f_acos f_zero af_const af_new af_v].
    assert (sf_mul large (sf_of_Z 90) = S754_infinity false) as -> by (vm_compute; reflexivity).
    destruct (half_pi T A) as (h & d & (b & Eb & Fb & Rb) & Hd & Eh). rewrite <- Eb.
    pose proof PI2_3_2 as P1. destruct (Rabs_near d (/ 2 ^ 49) Hd) as (N2 & B2); [lra|].
    assert (0 < BinarySingleNaN.B2R b) as Hb by (rewrite Rb, Eh; nra).
    destruct b as [| | |[|] m e Bm]; try discriminate Fb; cbn in Hb; [lra| |reflexivity].
    exfalso. pose proof (F2R_lt_0 radix2 (Float radix2 (Zneg m) e) ltac:(reflexivity)). cbn in *. lra.
Qed.
End Methods64.

(** epsilon() is that of single precision: 1 + epsilon / 2 is not 1, and there are smaller steps. *)
Theorem epsilon_single : let half := sf_div (af_v ad_epsilon) (lit 2) in
  sf_add (lit 1) half <> lit 1 /\ f64 (af_v ad_epsilon) (/ 2 ^ 23).
Proof.
  split; [vm_compute; discriminate|].
  assert (SpecFloat.bounded prec64 emax64 4503599627370496 (-75) = true) as B by reflexivity.
  exists (BinarySingleNaN.B754_finite false 4503599627370496 (-75) B).
  split; [reflexivity|]. split; [reflexivity|]. cbn. unfold F2R. cbn. lra.
Qed.
