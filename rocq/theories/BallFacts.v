(** The balls contain the doubles and are about the exact numbers. *)
From Coq Require Import Reals Lra Lia ZArith Bool List SpecFloat Psatz.
From Flocq Require Import Core BinarySingleNaN.
From Verif Require Import Base Float FloatInst Operation Tape RealInst F64Facts F64Ops EstF64 Approx FopsRel BallSpec.
Import ListNotations.
Local Open Scope R_scope.

Lemma rleb_true x y : rleb x y = true -> x <= y.
Proof. unfold rleb. destruct (Rle_dec x y); [auto|discriminate]. Qed.

Lemma huge_small z : Rabs z <= huge -> Rabs z <= bpow radix2 1023.
Proof.
  intros H. apply big_small with 1000%Z; [lia|]. eapply Rle_trans; [exact H|].
  rewrite bpow_powerRZ. right. unfold huge. cbn -[pow]. reflexivity.
Qed.

Lemma in_rounded x z c e : (Rabs z <= bpow radix2 1023 -> f64 x (rnd z)) -> Rabs (z - c) <= e -> inside x (rounded c e).
Proof.
  intros HF HE. unfold rounded. destruct (rleb _ _) eqn:L; [|exact I]. apply rleb_true in L. cbn.
  assert (Rabs z <= Rabs c + e) as HZ.
  { replace z with (c + (z - c)) by ring. eapply Rle_trans; [apply Rabs_triang|]. lra. }
  exists (rnd z). split; [apply HF, huge_small; lra|].
  destruct (Reqb e 0) eqn:E0.
  - apply Reqb_true in E0. subst e. pose proof (Rabs_pos (z - c)).
    assert (z = c) as ->; [|lra]. assert (Rabs (z - c) = 0) as A by lra. 
    destruct (Req_dec (z - c) 0) as [B|B]; [lra|]. apply Rabs_no_R0 in B. contradiction.
  - replace (rnd z - c) with ((z - c) + (rnd z - z)) by ring. eapply Rle_trans; [apply Rabs_triang|].
    pose proof (rnd_err z). assert (0 < ulp1) by (rewrite ulp1_val; lra). nra.
Qed.
Lemma in_lib x z c e : (Rabs z <= huge -> near x z) -> Rabs (z - c) <= e -> inside x (lib c e).
Proof.
  intros HF HE. unfold lib. destruct (rleb _ _) eqn:L; [|exact I]. apply rleb_true in L. cbn.
  assert (Rabs z <= Rabs c + e) as HZ.
  { replace z with (c + (z - c)) by ring. eapply Rle_trans; [apply Rabs_triang|]. lra. }
  destruct HF as (v & Fv & Hv); [lra|]. exists v. split; [exact Fv|].
  replace (v - c) with ((z - c) + (v - z)) by ring. eapply Rle_trans; [apply Rabs_triang|].
  assert (0 < lib_err) by (unfold lib_err; apply Rinv_0_lt_compat, pow_lt; lra). nra.
Qed.

(** ** Propagation *)
Lemma lip (f f' : R -> R) c x e L : Rabs (x - c) <= e ->
  (forall z, Rabs (z - c) <= e -> derivable_pt_lim f z (f' z) /\ Rabs (f' z) <= L) ->
  Rabs (f x - f c) <= L * e.
Proof.
  intros Hx H.
  assert (forall z, Rmin c x <= z <= Rmax c x -> Rabs (z - c) <= e) as HZ.
  { intros z Hz. apply Rabs_le. assert (- e <= x - c <= e) as B.
    { split; [|eapply Rle_trans; [apply RRle_abs|exact Hx]].
      pose proof (Rle_abs (- (x - c))). rewrite Rabs_Ropp in H0. lra. }
    unfold Rmin, Rmax in Hz. destruct (Rle_dec c x); lra. }
  destruct (MVT_abs f f' c x) as (z & E & Hz).
  - intros z Hz. apply H, HZ, Hz.
  - rewrite E. destruct (H z (HZ z Hz)) as [_ B]. pose proof (Rabs_pos (x - c)). pose proof (Rabs_pos (f' z)). nra.
Qed.

Lemma sin_lip x c e : Rabs (x - c) <= e -> Rabs (sin x - sin c) <= e.
Proof.
  intros H. replace e with (1 * e) by ring. apply (lip sin cos); auto. intros z _. split; [apply derivable_pt_lim_sin|].
  apply Rabs_le. apply COS_bound.
Qed.
Lemma cos_lip x c e : Rabs (x - c) <= e -> Rabs (cos x - cos c) <= e.
Proof.
  intros H. replace e with (1 * e) by ring. apply (lip cos (fun z => - sin z)); auto. intros z _. split; [apply derivable_pt_lim_cos|].
  rewrite Rabs_Ropp. apply Rabs_le. apply SIN_bound.
Qed.
Lemma atan_lip x c e : Rabs (x - c) <= e -> Rabs (atan x - atan c) <= e.
Proof.
  intros H. replace e with (1 * e) by ring. apply (lip atan (fun z => / (1 + z ^ 2))); auto. intros z _.
  split; [apply derivable_pt_lim_atan|]. pose proof (pow2_ge_0 z).
  rewrite Rabs_pos_eq by (left; apply Rinv_0_lt_compat; lra).
  rewrite <- Rinv_1. apply Rinv_le_contravar; lra.
Qed.
Lemma rabs_bounds x c e : Rabs (x - c) <= e -> c - e <= x <= c + e.
Proof. intros H. split; [pose proof (Rle_abs (- (x - c))) as A; rewrite Rabs_Ropp in A|pose proof (Rle_abs (x - c)) as A]; lra. Qed.
Lemma ln_lip x c e : Rabs (x - c) <= e -> e < c -> Rabs (ln x - ln c) <= e / (c - e).
Proof.
  intros H HC. replace (e / (c - e)) with (/ (c - e) * e) by (unfold Rdiv; ring).
  apply (lip ln Rinv); auto. intros z Hz. apply rabs_bounds in Hz. split; [apply derivable_pt_lim_ln; lra|].
  rewrite Rabs_pos_eq by (left; apply Rinv_0_lt_compat; lra). apply Rinv_le_contravar; lra.
Qed.
Lemma abs_in x c e : Rabs (x - c) <= e -> Rabs x <= Rabs c + e.
Proof. intros H. replace x with (c + (x - c)) by ring. eapply Rle_trans; [apply Rabs_triang|]. lra. Qed.
Lemma abs_out x c e : Rabs (x - c) <= e -> Rabs c - e <= Rabs x.
Proof. intros H. pose proof (abs_in c x e). rewrite Rabs_minus_sym in H0. specialize (H0 H). lra. Qed.
Lemma abs_lt1 z : Rabs z < 1 -> -1 < z < 1.
Proof. intros H. apply Rabs_def2 in H. lra. Qed.
Lemma asin_slope z m : Rabs z <= m -> m < 1 -> 0 < sqrt (1 - Rsqr m) /\ 1 / sqrt (1 - Rsqr z) <= / sqrt (1 - Rsqr m).
Proof.
  intros H Hm. pose proof (Rabs_pos z).
  assert (Rsqr z <= Rsqr m) by (rewrite (Rsqr_abs z); apply Rsqr_incr_1; lra).
  assert (Rsqr m < 1) by (unfold Rsqr; nra).
  assert (0 < sqrt (1 - Rsqr m)) by (apply sqrt_lt_R0; lra). split; [auto|].
  unfold Rdiv. rewrite Rmult_1_l. apply Rinv_le_contravar; [auto|]. apply sqrt_le_1_alt. lra.
Qed.
Lemma asin_lip x c e : Rabs (x - c) <= e -> Rabs c + e < 1 -> Rabs (asin x - asin c) <= e / sqrt (1 - Rsqr (Rabs c + e)).
Proof.
  intros H HC. replace (e / sqrt (1 - Rsqr (Rabs c + e))) with (/ sqrt (1 - Rsqr (Rabs c + e)) * e) by (unfold Rdiv; ring).
  apply (lip asin (fun z => 1 / sqrt (1 - Rsqr z))); auto. intros z Hz.
  pose proof (abs_in _ _ _ Hz) as B. destruct (asin_slope z (Rabs c + e) B HC) as [P S].
  assert (-1 < z < 1) by (apply abs_lt1; lra).
  split; [apply Approx.d_asin; auto|]. rewrite Rabs_pos_eq; [exact S|].
  unfold Rdiv. rewrite Rmult_1_l. left. apply Rinv_0_lt_compat. apply sqrt_lt_R0. unfold Rsqr; nra.
Qed.
Lemma acos_lip x c e : Rabs (x - c) <= e -> Rabs c + e < 1 -> Rabs (acos x - acos c) <= e / sqrt (1 - Rsqr (Rabs c + e)).
Proof.
  intros H HC. replace (e / sqrt (1 - Rsqr (Rabs c + e))) with (/ sqrt (1 - Rsqr (Rabs c + e)) * e) by (unfold Rdiv; ring).
  apply (lip acos (fun z => -1 / sqrt (1 - Rsqr z))); auto. intros z Hz.
  pose proof (abs_in _ _ _ Hz) as B. destruct (asin_slope z (Rabs c + e) B HC) as [P S].
  assert (-1 < z < 1) by (apply abs_lt1; lra).
  split; [apply Approx.d_acos; auto|].
  replace (-1 / sqrt (1 - Rsqr z)) with (- (1 / sqrt (1 - Rsqr z))) by (unfold Rdiv; ring).
  rewrite Rabs_Ropp, Rabs_pos_eq; [exact S|].
  unfold Rdiv. rewrite Rmult_1_l. left. apply Rinv_0_lt_compat. apply sqrt_lt_R0. unfold Rsqr; nra.
Qed.
Lemma exp_lip u w r : Rabs (u - w) <= r -> Rabs (exp u - exp w) <= exp (w + r) - exp w.
Proof.
  intros H. pose proof (rabs_bounds _ _ _ H) as B. pose proof (exp_pos w) as P.
  assert (exp u <= exp (w + r)) by (destruct (Rle_lt_or_eq_dec u (w + r)) as [L| ->]; [lra|left; now apply exp_increasing|right; reflexivity]).
  assert (exp (w - r) <= exp u) by (destruct (Rle_lt_or_eq_dec (w - r) u) as [L| <-]; [lra|left; now apply exp_increasing|right; reflexivity]).
  assert (exp w - exp (w - r) <= exp (w + r) - exp w) as C.
  { unfold Rminus at 2. rewrite !exp_plus. pose proof (exp_pos r) as Pr. rewrite exp_Ropp.
    assert (2 <= exp r + / exp r) as A.
    { apply Rmult_le_reg_r with (exp r); [exact Pr|]. rewrite Rmult_plus_distr_r, Rinv_l by lra.
      pose proof (Rle_0_sqr (exp r - 1)) as Q. unfold Rsqr in Q. nra. }
    nra. }
  apply Rabs_le. lra.
Qed.
Lemma pow_lip x c e n : Rabs (x - c) <= e -> Rabs (x ^ n - c ^ n) <= (Rabs c + e) ^ n - Rabs c ^ n.
Proof.
  intros H. assert (0 <= e) by (pose proof (Rabs_pos (x - c)); lra). pose proof (Rabs_pos c) as Pc.
  induction n as [|n IH]; [cbn; rewrite Rminus_eq_0, Rabs_R0; lra|]. cbn.
  replace (x * x ^ n - c * c ^ n) with (x * (x ^ n - c ^ n) + (x - c) * c ^ n) by ring.
  eapply Rle_trans; [apply Rabs_triang|]. rewrite !Rabs_mult, <- RPow_abs.
  pose proof (abs_in _ _ _ H). pose proof (Rabs_pos x). pose proof (Rabs_pos (x ^ n - c ^ n)).
  pose proof (pow_le _ n Pc). pose proof (Rabs_pos (x - c)). nra.
Qed.
Lemma mul_lip x y c e c' e' : Rabs (x - c) <= e -> Rabs (y - c') <= e' ->
  Rabs (x * y - c * c') <= e * Rabs c' + Rabs c * e' + e * e'.
Proof.
  intros H H'. replace (x * y - c * c') with ((x - c) * c' + c * (y - c') + (x - c) * (y - c')) by ring.
  eapply Rle_trans; [apply Rabs_triang|]. eapply Rle_trans; [apply Rplus_le_compat_r, Rabs_triang|].
  rewrite !Rabs_mult. pose proof (Rabs_pos (x - c)). pose proof (Rabs_pos (y - c')). pose proof (Rabs_pos c). pose proof (Rabs_pos c').
  assert (Rabs (x - c) * Rabs c' <= e * Rabs c') by nra. assert (Rabs c * Rabs (y - c') <= Rabs c * e') by nra.
  assert (Rabs (x - c) * Rabs (y - c') <= e * e') by nra. lra.
Qed.
Lemma abs_nz c : 0 < Rabs c -> c <> 0.
Proof. intros H ->. rewrite Rabs_R0 in H. lra. Qed.
Lemma div_lip x y c e c' e' : Rabs (x - c) <= e -> Rabs (y - c') <= e' -> e' < Rabs c' ->
  y <> 0 /\ Rabs (x / y - c / c') <= (e * Rabs c' + Rabs c * e') / (Rabs c' * (Rabs c' - e')).
Proof.
  intros H H' HC. pose proof (abs_out _ _ _ H') as Hy. pose proof (Rabs_pos (y - c')).
  pose proof (Rabs_pos (x - c)). pose proof (Rabs_pos c). 
  assert (y <> 0) as Ny by (apply abs_nz; lra). assert (c' <> 0) as Nc by (apply abs_nz; lra). split; [exact Ny|].
  replace (x / y - c / c') with (((x - c) * c' - c * (y - c')) / (c' * y)) by (field; auto).
  unfold Rdiv. rewrite Rabs_mult, Rabs_inv, Rabs_mult.
  assert (0 < Rabs c' * (Rabs c' - e')) as P by nra.
  assert (Rabs ((x - c) * c' - c * (y - c')) <= e * Rabs c' + Rabs c * e') as HN.
  { unfold Rminus at 1. eapply Rle_trans; [apply Rabs_triang|]. rewrite Rabs_Ropp, !Rabs_mult.
    assert (Rabs (x - c) * Rabs c' <= e * Rabs c') by nra. assert (Rabs c * Rabs (y - c') <= Rabs c * e') by nra. lra. }
  apply Rmult_le_compat; [apply Rabs_pos| |exact HN|].
  - left. apply Rinv_0_lt_compat. apply Rmult_lt_0_compat; lra.
  - apply Rinv_le_contravar; [exact P|]. apply Rmult_le_compat_l; lra.
Qed.
Lemma sqrt_lip x c e : Rabs (x - c) <= e -> e < c -> 0 < x /\ Rabs (sqrt x - sqrt c) <= e / sqrt c.
Proof.
  intros H HC. pose proof (rabs_bounds _ _ _ H). assert (0 < x) by lra. split; [auto|].
  pose proof (Rabs_pos (x - c)).
  assert (0 < sqrt x) by (apply sqrt_lt_R0; lra). assert (0 < sqrt c) by (apply sqrt_lt_R0; lra).
  assert (sqrt x - sqrt c = (x - c) / (sqrt x + sqrt c)) as ->.
  { assert (sqrt x * sqrt x = x) by (apply sqrt_sqrt; lra). assert (sqrt c * sqrt c = c) by (apply sqrt_sqrt; lra).
    apply Rmult_eq_reg_r with (sqrt x + sqrt c); [|lra]. unfold Rdiv. rewrite Rmult_assoc, Rinv_l by lra. nra. }
  unfold Rdiv. rewrite Rabs_mult, Rabs_inv, (Rabs_pos_eq (sqrt x + sqrt c)) by lra.
  apply Rmult_le_compat; [apply Rabs_pos| |lra|].
  - left. apply Rinv_0_lt_compat. lra.
  - apply Rinv_le_contravar; lra.
Qed.
Lemma tan_lip x c e : Rabs (x - c) <= e -> e < Rabs (cos c) ->
  cos x <> 0 /\ Rabs (tan x - tan c) <= e / ((Rabs (cos c) - e) * Rabs (cos c)).
Proof.
  intros H HC. pose proof (abs_out _ _ _ (cos_lip _ _ _ H)) as HX. pose proof (Rabs_pos (x - c)).
  assert (cos x <> 0) as Nx by (apply abs_nz; lra). assert (cos c <> 0) as Nc by (apply abs_nz; lra).
  split; [exact Nx|].
  assert (tan x - tan c = sin (x - c) / (cos x * cos c)) as ->.
  { unfold tan. rewrite sin_minus. field. auto. }
  unfold Rdiv. rewrite Rabs_mult, Rabs_inv, Rabs_mult.
  assert (Rabs (sin (x - c)) <= e) as HS.
  { replace (sin (x - c)) with (sin (x - c) - sin 0) by (rewrite sin_0; ring). apply sin_lip. now rewrite Rminus_0_r. }
  apply Rmult_le_compat; [apply Rabs_pos| |exact HS|].
  - left. apply Rinv_0_lt_compat. apply Rmult_lt_0_compat; lra.
  - apply Rinv_le_contravar; [apply Rmult_lt_0_compat; lra|]. apply Rmult_le_compat_r; lra.
Qed.

(** ** The doubles stay inside *)
Section Inside.
Context (T : libm) (HT : libm_accurate T).

Ltac open1 a Ha := destruct a as [[c e]|]; [|exact I]; destruct Ha as (u & Fu & Hu); cbn.
Ltac open2 a b Ha Hb :=
  destruct a as [[c e]|]; [|exact I]; destruct b as [[c' e']|]; [|exact I];
  destruct Ha as (u & Fu & Hu), Hb as (v & Fv & Hv); cbn.

Lemma in_add x y a b : inside x a -> inside y b -> inside (sf_add x y) (b_add a b).
Proof.
  intros Ha Hb. open2 a b Ha Hb. eapply in_rounded; [intros S; eapply f64_add; eauto|].
  replace (u + v - (c + c')) with ((u - c) + (v - c')) by ring. eapply Rle_trans; [apply Rabs_triang|]. lra.
Qed.
Lemma in_sub x y a b : inside x a -> inside y b -> inside (sf_sub x y) (b_sub a b).
Proof.
  intros Ha Hb. open2 a b Ha Hb. eapply in_rounded; [intros S; eapply f64_sub; eauto|].
  replace (u - v - (c - c')) with ((u - c) + - (v - c')) by ring. eapply Rle_trans; [apply Rabs_triang|].
  rewrite Rabs_Ropp. lra.
Qed.
Lemma in_mul x y a b : inside x a -> inside y b -> inside (sf_mul x y) (b_mul a b).
Proof. intros Ha Hb. open2 a b Ha Hb. eapply in_rounded; [intros S; eapply f64_mul; eauto|]. apply mul_lip; auto. Qed.
Lemma in_div x y a b : inside x a -> inside y b -> inside (sf_div x y) (b_div a b).
Proof.
  intros Ha Hb. open2 a b Ha Hb. destruct (Rltb _ _) eqn:L; [|exact I]. apply Rltb_true in L.
  destruct (div_lip u v c e c' e') as [N D]; auto. eapply in_rounded; [intros S; eapply f64_div; eauto|]. exact D.
Qed.
Lemma in_neg x a : inside x a -> inside (SFopp x) (b_neg a).
Proof.
  intros Ha. open1 a Ha. exists (- u). split; [now apply f64_opp|]. replace (- u - - c) with (- (u - c)) by ring. now rewrite Rabs_Ropp.
Qed.
Lemma in_abs x a : inside x a -> inside (SFabs x) (b_abs a).
Proof.
  intros Ha. open1 a Ha. exists (Rabs u). split; [now apply f64_abs|]. eapply Rle_trans; [apply Rabs_triang_inv2|]. auto.
Qed.
Lemma in_sqrt x a : inside x a -> inside (sf_sqrt x) (b_sqrt a).
Proof.
  intros Ha. open1 a Ha. destruct (Rltb _ _) eqn:L; [|exact I]. apply Rltb_true in L.
  destruct (sqrt_lip u c e) as [P D]; auto. eapply in_rounded; [intros S; eapply f64_sqrt; eauto|]. exact D.
Qed.
Lemma in_sin x a : inside x a -> inside (l_sin T x) (b_sin a).
Proof. intros Ha. open1 a Ha. eapply in_lib; [intros S; eapply (la_sin _ HT); eauto|]. now apply sin_lip. Qed.
Lemma in_cos x a : inside x a -> inside (l_cos T x) (b_cos a).
Proof. intros Ha. open1 a Ha. eapply in_lib; [intros S; eapply (la_cos _ HT); eauto|]. now apply cos_lip. Qed.
Lemma in_atan x a : inside x a -> inside (l_atan T x) (b_atan a).
Proof. intros Ha. open1 a Ha. eapply in_lib; [intros S; eapply (la_atan _ HT); eauto|]. now apply atan_lip. Qed.
Lemma in_tan x a : inside x a -> inside (l_tan T x) (b_tan a).
Proof.
  intros Ha. open1 a Ha. destruct (Rltb _ _) eqn:L; [|exact I]. apply Rltb_true in L. destruct (tan_lip u c e) as [P D]; auto.
  eapply in_lib; [intros S; eapply (la_tan _ HT); eauto|]. exact D.
Qed.
Lemma in_exp x a : inside x a -> inside (l_exp T x) (b_exp a).
Proof. intros Ha. open1 a Ha. eapply in_lib; [intros S; eapply (la_exp _ HT); eauto|]. now apply exp_lip. Qed.
Lemma in_ln x a : inside x a -> inside (l_ln T x) (b_ln a).
Proof.
  intros Ha. open1 a Ha. destruct (Rltb _ _) eqn:L; [|exact I]. apply Rltb_true in L. pose proof (rabs_bounds _ _ _ Hu).
  eapply in_lib; [intros S; eapply (la_ln _ HT); eauto; lra|]. now apply ln_lip.
Qed.
Lemma in_asin x a : inside x a -> inside (l_asin T x) (b_asin a).
Proof.
  intros Ha. open1 a Ha. destruct (Rltb _ _) eqn:L; [|exact I]. apply Rltb_true in L. pose proof (abs_in _ _ _ Hu).
  eapply in_lib; [intros S; eapply (la_asin _ HT); eauto; apply abs_lt1; lra|]. now apply asin_lip.
Qed.
Lemma in_acos x a : inside x a -> inside (l_acos T x) (b_acos a).
Proof.
  intros Ha. open1 a Ha. destruct (Rltb _ _) eqn:L; [|exact I]. apply Rltb_true in L. pose proof (abs_in _ _ _ Hu).
  eapply in_lib; [intros S; eapply (la_acos _ HT); eauto; apply abs_lt1; lra|]. now apply acos_lip.
Qed.

Lemma natural_spec y n : natural y = Some n -> y = INR n.
Proof.
  unfold natural. destruct (Reqb _ _ && _) eqn:E; [|discriminate]. apply andb_prop in E. destruct E as [A B].
  apply Reqb_true in A. apply Z.leb_le in B. intros [= <-]. rewrite INR_IZR_INZ, Z2Nat.id by auto. auto.
Qed.
Lemma Rpowf_nat a n : Rpowf a (INR n) = a ^ n.
Proof. rewrite INR_IZR_INZ, Rpowf_int. now rewrite <- pow_powerRZ. Qed.

Lemma in_pow_pos x y u v c e c' e' : f64 x u -> f64 y v -> Rabs (u - c) <= e -> Rabs (v - c') <= e' ->
  inside (l_powf T x y) (pow_pos_base c e c' e').
Proof.
  intros Fx Fy Hu Hv. unfold pow_pos_base. destruct (Rltb 0 c && Rltb e c) eqn:L; [|exact I]. apply andb_prop in L. destruct L as [_ L]. apply Rltb_true in L.
  pose proof (rabs_bounds _ _ _ Hu). assert (0 < u) by lra.
  eapply (in_lib _ (Rpowf u v)).
  - intros S. apply (la_powf _ HT); auto.
  - rewrite Rpowf_pos by auto. unfold Rpower. apply exp_lip.
    pose proof (ln_lip _ _ _ Hu L) as HL. rewrite (Rmult_comm (Rabs c')).
    eapply Rle_trans; [apply mul_lip; eassumption|]. lra.
Qed.
Lemma in_powf x y a b : inside x a -> inside y b -> inside (l_powf T x y) (b_powf a b).
Proof.
  intros Ha Hb. open2 a b Ha Hb. destruct (natural c') as [n|] eqn:EN; [|eapply in_pow_pos; eauto].
  destruct (Reqb e' 0) eqn:E0; [|eapply in_pow_pos; eauto]. apply Reqb_true in E0. subst e'.
  apply natural_spec in EN.
  assert (v = INR n) as ->.
  { pose proof (Rabs_pos (v - c')). destruct (Req_dec (v - c') 0) as [B|B]; [lra|]. apply Rabs_no_R0 in B. lra. }
  unfold pow_nat. eapply (in_lib _ (Rpowf u (INR n))).
  - intros S. apply (la_powf _ HT); eauto.
  - rewrite Rpowf_nat. apply pow_lip; auto.
Qed.

Lemma in_zero : inside (S754_zero false) (Some (0, 0)).
Proof. exists 0. split; [apply zero_f64|]. rewrite Rminus_eq_0, Rabs_R0. lra. Qed.
Lemma in_one : inside (sf_of_Z 1) b_one.
Proof. exists 1. split; [apply one_f64|]. rewrite Rminus_eq_0, Rabs_R0. lra. Qed.

(** The comparison with zero in the derivative of pow only skips products with zero. *)
Lemma in_skip p q d e : inside p q -> inside d e ->
  inside (if negb (SFeqb d (S754_zero false)) then sf_mul p d else S754_zero false) (b_mul q e).
Proof.
  intros Hp Hd. pose proof (in_mul _ _ _ _ Hp Hd) as HM.
  destruct (SFeqb d (S754_zero false)) eqn:E; cbn [negb]; [|exact HM].
  destruct q as [[c r]|]; [|exact I]. destruct e as [[c' r']|]; [|exact I].
  cbn in Hp, Hd. destruct Hp as (u & Fu & _), Hd as (v & Fv & _).
  assert (v = 0) as ->.
  { destruct d as [s|s| |s m ee]; cbn in E; try (destruct s; discriminate E); try discriminate E.
    pose proof (f64_val _ _ Fv) as V. cbn in V. now symmetry. }
  assert (f64 (sf_mul p d) 0) as F0.
  { rewrite <- rnd_0. replace 0 with (u * 0) by ring. apply f64_mul; auto. rewrite Rmult_0_r, Rabs_R0. apply bpow_ge_0. }
  unfold inside in *. destruct (b_mul _ _) as [[c'' r'']|]; [|exact I]. destruct HM as (w & Fw & Hw).
  exists 0. split; [apply zero_f64|]. rewrite <- (f64_val _ _ F0), (f64_val _ _ Fw). exact Hw.
Qed.

Lemma inside_related : ops_related (f64ops T) Bops inside.
Proof.
  constructor; cbn [f64ops Bops f_zero f_one f_add f_sub f_mul f_div f_neg f_abs f_sqrt f_sin f_cos f_tan f_exp f_ln f_asin f_acos f_atan f_powf f_powi f_eqb].
  - apply in_zero.
  - apply in_one.
  - intros; now apply in_add.
  - intros; now apply in_sub.
  - intros; now apply in_mul.
  - intros; now apply in_div.
  - intros; now apply in_neg.
  - intros; now apply in_abs.
  - intros; now apply in_sqrt.
  - intros; now apply in_sin.
  - intros; now apply in_cos.
  - intros; now apply in_tan.
  - intros; now apply in_exp.
  - intros; now apply in_ln.
  - intros; now apply in_asin.
  - intros; now apply in_acos.
  - intros; now apply in_atan.
  - intros; now apply in_powf.
  - intros. apply in_skip; auto. apply in_mul; auto. apply in_powf; auto. apply in_sub; auto. apply in_one.
  - intros. apply in_skip; auto. apply in_mul; auto. now apply in_ln. now apply in_powf.
  - intros. change (sf_powi a 2) with (sf_mul (sf_of_Z 1) (sf_mul a a)). apply in_mul; [apply in_one|]. now apply in_mul.
Qed.
End Inside.

(** ** The balls are about the exact numbers *)
Lemma about_rounded c e z : c = z -> about (rounded c e) z.
Proof. unfold rounded. destruct (rleb _ _); cbn; auto. Qed.
Lemma about_lib c e z : c = z -> about (lib c e) z.
Proof. unfold lib. destruct (rleb _ _); cbn; auto. Qed.

Ltac ball := repeat match goal with
  | H : about ?b _ |- _ => destruct b as [[? ?]|]; cbn in H; [subst|]
  end; cbn; auto;
  repeat match goal with |- context [Rltb ?a ?b] => destruct (Rltb a b) end; cbn; auto;
  try (apply about_rounded); try (apply about_lib); auto.

Lemma about_mul a b x y : about a x -> about b y -> about (b_mul a b) (x * y).
Proof. intros. ball. Qed.
Lemma about_powf a b x y : about a x -> about b y -> about (b_powf a b) (Rpowf x y).
Proof.
  intros Ha Hb. destruct a as [[c e]|]; [|exact I]. destruct b as [[c' e']|]; [|exact I]. cbn in *. subst.
  assert (about (pow_pos_base x e y e') (Rpowf x y)) as P.
  { unfold pow_pos_base. destruct (Rltb 0 x && Rltb e x) eqn:L; [|exact I]. apply andb_prop in L. destruct L as [L _].
    apply Rltb_true in L. apply about_lib. now rewrite Rpowf_pos. }
  destruct (natural y) as [n|] eqn:EN; [|exact P]. destruct (Reqb e' 0); [|exact P].
  apply natural_spec in EN. subst y. rewrite Rpowf_nat. now apply about_lib.
Qed.
Lemma about_skip p q d e : about p q -> about d e -> about (b_mul p d) (if negb (Reqb e 0) then q * e else 0).
Proof.
  intros Hp Hd. pose proof (about_mul _ _ _ _ Hp Hd) as HM. destruct (Reqb e 0) eqn:E; cbn [negb]; [|exact HM].
  apply Reqb_true in E. subst e. now rewrite Rmult_0_r in HM.
Qed.

Lemma about_related : ops_related Bops Rops about.
Proof.
  constructor; cbn -[b_mul b_add b_sub b_powf b_ln powerRZ].
  - reflexivity.
  - reflexivity.
  - intros; unfold b_add; ball.
  - intros; unfold b_sub; ball.
  - intros; now apply about_mul.
  - intros; unfold b_div; ball.
  - intros; unfold b_neg; ball.
  - intros; unfold b_abs; ball.
  - intros; unfold b_sqrt; ball.
  - intros; unfold b_sin; ball.
  - intros; unfold b_cos; ball.
  - intros; unfold b_tan; ball.
  - intros; unfold b_exp; ball.
  - intros; unfold b_ln; ball.
  - intros; unfold b_asin; ball.
  - intros; unfold b_acos; ball.
  - intros; unfold b_atan; ball.
  - intros; now apply about_powf.
  - intros. apply about_skip; auto. apply about_mul; auto. apply about_powf; auto. unfold b_sub; ball.
  - intros. apply about_skip; auto. apply about_mul; auto; [|now apply about_powf]. unfold b_ln; ball.
  - intros. change (powerRZ a' 2) with (a' * (a' * 1)). replace (a' * (a' * 1)) with (1 * (a' * a')) by ring. apply about_mul; [reflexivity|now apply about_mul].
Qed.

(** ** Sweeps *)
Lemma in_point x : inside x (point x).
Proof.
  unfold point. destruct (valid_binary _ _ _ && _) eqn:E; [|exact I]. apply andb_prop in E. destruct E as [V F].
  exists (real_of x). split; [|rewrite Rminus_eq_0, Rabs_R0; lra].
  exists (SF2B x V). split; [apply B2SF_SF2B|]. split; [rewrite is_finite_SF2B; exact F|apply B2R_SF2B].
Qed.
Lemma about_point x : about (point x) (real_of x).
Proof. unfold point. destruct (_ && _); cbn; auto. Qed.

Lemma F2_map {A B C} (P : B -> C -> Prop) (f : A -> B) (g : A -> C) l : (forall a, P (f a) (g a)) -> Forall2 P (map f l) (map g l).
Proof. intros H. induction l; cbn; constructor; auto. Qed.

(** Doubles, balls and exact numbers, entry by entry. *)
Definition bounded (xs : list spec_float) (bs : list ball) (zs : list R) : Prop :=
  length xs = length bs /\ length zs = length bs /\
  forall k c r, nth_error bs k = Some (Some (c, r)) ->
    nth_error zs k = Some c /\ exists x v, nth_error xs k = Some x /\ f64 x v /\ Rabs (v - c) <= r.

Lemma F2_nth {A B} (P : A -> B -> Prop) l l' : Forall2 P l l' ->
  forall k b, nth_error l' k = Some b -> exists a, nth_error l k = Some a /\ P a b.
Proof.
  induction 1 as [|a b l l' Hab HL IH]; intros [|k] b'; cbn; try discriminate.
  - intros [= <-]. eauto.
  - apply IH.
Qed.
Lemma F2_nth' {A B} (P : A -> B -> Prop) l l' : Forall2 P l l' ->
  forall k a, nth_error l k = Some a -> exists b, nth_error l' k = Some b /\ P a b.
Proof.
  induction 1 as [|a b l l' Hab HL IH]; intros [|k] a'; cbn; try discriminate.
  - intros [= <-]. eauto.
  - apply IH.
Qed.
Lemma bounded_of xs bs zs : Forall2 inside xs bs -> Forall2 about bs zs -> bounded xs bs zs.
Proof.
  intros H1 H2. split; [now apply F2_len in H1|]. split; [now apply F2_len in H2|].
  intros k c r Hk. destruct (F2_nth' _ _ _ H2 _ _ Hk) as (z & Hz & A). cbn in A. subst z. split; [exact Hz|].
  destruct (F2_nth _ _ _ H1 _ _ Hk) as (x & Hx & I). destruct I as (v & Fv & Hv). eauto 6.
Qed.

(** What the three sweeps of a tape compute in binary64, in balls and exactly. *)
Section Sweeps.
Context (T : libm) (HT : libm_accurate T).
Let D := f64ops T.

Lemma rrel_ok {A B} (P : A -> B -> Prop) m b : rrel P m (Ok b) -> exists a, m = Ok a /\ P a b.
Proof. destruct m; cbn; [eauto|contradiction]. Qed.
Lemma rrel_ok' {A B} (P : A -> B -> Prop) m a : rrel P (Ok a) m -> exists b, m = Ok b /\ P a b.
Proof. destruct m; cbn; [eauto|contradiction]. Qed.

Definition close (t64 : tape spec_float) (tb : tape ball) (tr : tape R) : Prop :=
  tapes_related inside t64 tb /\ tapes_related about tb tr.

Lemma close_points t : close t (map_tape point t) (map_tape real_of t).
Proof.
  split; constructor; cbn; auto; [|apply F2_map; apply about_point].
  rewrite <- (map_id (t_vals t)) at 1. apply F2_map. apply in_point.
Qed.

Lemma close_zero t64 tb tr x tb' : close t64 tb tr -> tape_zero_order Bops tb (map point x) = Ok tb' ->
  exists t64' tr', tape_zero_order D t64 x = Ok t64' /\ tape_zero_order Rops tr (map real_of x) = Ok tr' /\ close t64' tb' tr'.
Proof.
  intros [C1 C2] E.
  pose proof (rel_tape_zero _ _ _ (inside_related T HT) _ _ x (map point x) C1) as H1.
  pose proof (rel_tape_zero _ _ _ about_related _ _ (map point x) (map real_of x) C2) as H2.
  rewrite E in *.
  destruct (rrel_ok _ _ _ (H1 ltac:(rewrite <- (map_id x) at 1; apply F2_map, in_point))) as (a & Ea & Ra).
  destruct (rrel_ok' _ _ _ (H2 ltac:(apply F2_map, about_point))) as (b & Eb & Rb).
  exists a, b. repeat split; auto; apply Ra || apply Rb.
Qed.
Lemma close_y t64 tb tr yb : close t64 tb tr -> tape_y tb = Ok yb ->
  exists y z, tape_y t64 = Ok y /\ tape_y tr = Ok z /\ bounded y yb z.
Proof.
  intros [C1 C2] E. pose proof (rel_tape_y _ _ _ C1) as H1. pose proof (rel_tape_y _ _ _ C2) as H2. rewrite E in *.
  destruct (rrel_ok _ _ _ H1) as (a & Ea & Ra). destruct (rrel_ok' _ _ _ H2) as (b & Eb & Rb).
  exists a, b. split; [auto|]. split; [auto|]. now apply bounded_of.
Qed.
Lemma close_forward t64 tb tr dx yb : close t64 tb tr -> tape_forward Bops tb (map point dx) = Ok yb ->
  exists y z, tape_forward D t64 dx = Ok y /\ tape_forward Rops tr (map real_of dx) = Ok z /\ bounded y yb z.
Proof.
  intros [C1 C2] E.
  pose proof (rel_tape_forward _ _ _ (inside_related T HT) _ _ dx (map point dx) C1) as H1.
  pose proof (rel_tape_forward _ _ _ about_related _ _ (map point dx) (map real_of dx) C2) as H2.
  rewrite E in *.
  destruct (rrel_ok _ _ _ (H1 ltac:(rewrite <- (map_id dx) at 1; apply F2_map, in_point))) as (a & Ea & Ra).
  destruct (rrel_ok' _ _ _ (H2 ltac:(apply F2_map, about_point))) as (b & Eb & Rb).
  exists a, b. split; [auto|]. split; [auto|]. now apply bounded_of.
Qed.
Lemma close_reverse t64 tb tr dx yb : close t64 tb tr -> tape_reverse Bops tb (map point dx) = Ok yb ->
  exists y z, tape_reverse D t64 dx = Ok y /\ tape_reverse Rops tr (map real_of dx) = Ok z /\ bounded y yb z.
Proof.
  intros [C1 C2] E.
  pose proof (rel_tape_reverse _ _ _ (inside_related T HT) _ _ dx (map point dx) C1) as H1.
  pose proof (rel_tape_reverse _ _ _ about_related _ _ (map point dx) (map real_of dx) C2) as H2.
  rewrite E in *.
  destruct (rrel_ok _ _ _ (H1 ltac:(rewrite <- (map_id dx) at 1; apply F2_map, in_point))) as (a & Ea & Ra).
  destruct (rrel_ok' _ _ _ (H2 ltac:(apply F2_map, about_point))) as (b & Eb & Rb).
  exists a, b. split; [auto|]. split; [auto|]. now apply bounded_of.
Qed.
End Sweeps.

(** A libm that is accurate. *)
Definition libm_real : libm :=
  mkLibm (real1 sin) (real1 cos) (real1 tan) (real1 exp) (real1 ln) (real1 asin) (real1 acos) (real1 atan)
    (fun x y => sf_of_R (Rpowf (SF2R radix2 x) (SF2R radix2 y))).
Lemma near_of_R z : Rabs z <= huge -> near (sf_of_R z) z.
Proof.
  intros H. exists (rnd z). split; [apply f64_of_R, huge_small, H|]. eapply Rle_trans; [apply rnd_err|].
  apply Rplus_le_compat_r, Rmult_le_compat_r; [apply Rabs_pos|]. unfold ulp1, lib_err. apply Rinv_le_contravar; [apply pow_lt; lra|].
  apply Rle_pow; [lra|lia].
Qed.
Lemma libm_real_accurate : libm_accurate libm_real.
Proof.
  constructor; cbn; try (intros x a Fx _ HB; unfold real1; rewrite (f64_val _ _ Fx); now apply near_of_R).
  intros x y a b Fx Fy _ HB. rewrite (f64_val _ _ Fx), (f64_val _ _ Fy). now apply near_of_R.
Qed.
