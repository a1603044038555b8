(** The estimate of checkpointing.rs:31-35 in binary64, and its accuracy. *)
From Coq Require Import Reals Lra Lia ZArith QArith Qreals Machin Ratan Bool SpecFloat Psatz.
From Flocq Require Import Core Relative Plus_error BinarySingleNaN.
From Verif Require Import Base Float FloatInst AContext Checkpoint CheckSpec F64Facts EstReal.
Local Open Scope R_scope.

(** std::f64::consts::PI, 0x400921FB54442D18 *)
Definition pi64 : spec_float := S754_finite false 7074237752028440 (-51).

(** [f64::ceil] followed by [as isize] (which saturates, NaN gives 0) *)
Definition ceil_as_isize (x : spec_float) : Z :=
  match x with
  | S754_nan | S754_zero _ => 0
  | S754_infinity s => if s then - 2 ^ 63 else 2 ^ 63 - 1
  | S754_finite s m e =>
      let n := if s then Zneg m else Zpos m in
      Z.max (- 2 ^ 63) (Z.min (2 ^ 63 - 1)
        (if (0 <=? e)%Z then n * 2 ^ e else - ((- n) / 2 ^ (- e))))
  end%Z.

(** checkpointing.rs:31-35 *)
Definition est64 (T : libm) (c r : Z) : Z :=
  let c := sf_of_Z c in
  let r := sf_of_Z r in
  ceil_as_isize (sf_sub
    (sf_mul (sf_mul (l_exp T (SFopp (sf_of_Z 1))) c)
       (l_powf T (sf_mul (sf_sqrt (sf_mul (sf_mul (sf_of_Z 2) pi64) c)) r) (sf_div (sf_of_Z 1) c)))
    c).

(** What is asked of the platform's [exp] and [pow]: results within 2^-42 of the true value,
    relatively (glibc's are within 2^-52). *)
Definition libm_ok (T : libm) : Prop :=
  (exists e, f64 (l_exp T (SFopp (sf_of_Z 1))) e /\ Rabs (e - exp (-1)) <= / 2 ^ 42 * exp (-1)) /\
  (forall x y a b, f64 x a -> f64 y b -> 1 <= a <= 2 ^ 60 -> 0 < b <= 1 ->
     exists p, f64 (l_powf T x y) p /\ Rabs (p - Rpower a b) <= / 2 ^ 42 * Rpower a b).

(** ** pi *)
Fixpoint qpow (q : Q) (n : nat) : Q := match n with O => 1%Q | S n' => (q * qpow q n')%Q end.
Definition qterm (n : nat) : Q :=
  (qpow (-1) n * ((2 * qpow (1 # 3) (2 * n + 1) + qpow (1 # 7) (2 * n + 1))
    * / inject_Z (Z.of_nat (2 * n + 1))))%Q.
Fixpoint qsum (n : nat) : Q :=
  match n with O => Qred (qterm 0) | S n' => Qred (qsum n' + qterm n)%Q end.

Lemma Q2R_pow q n : Q2R (qpow q n) = Q2R q ^ n.
Proof.
  induction n as [|n IH]; cbn [qpow pow].
  - unfold Q2R. cbn. lra.
  - rewrite Q2R_mult, IH. reflexivity.
Qed.

Lemma Q2R_term n : Q2R (qterm n) = tg_alt PI_2_3_7_tg n.
Proof.
  unfold qterm, tg_alt, PI_2_3_7_tg, Ratan_seq. rewrite !Q2R_mult, Q2R_plus, Q2R_mult, !Q2R_pow.
  rewrite Q2R_inv by (unfold Qeq; cbn; lia).
  replace (Q2R (inject_Z (Z.of_nat (2 * n + 1)))) with (INR (2 * n + 1))
    by (rewrite INR_IZR_INZ; unfold Q2R, inject_Z; cbn [Qnum Qden]; lra).
  replace (Q2R (-1)) with (-1) by (unfold Q2R; cbn; lra).
  replace (Q2R 2) with 2 by (unfold Q2R; cbn; lra).
  replace (Q2R (1 # 3)) with (/ 3) by (unfold Q2R; cbn; lra).
  replace (Q2R (1 # 7)) with (/ 7) by (unfold Q2R; cbn; lra).
  unfold Rdiv. ring.
Qed.
Lemma Q2R_sum n : Q2R (qsum n) = sum_f_R0 (tg_alt PI_2_3_7_tg) n.
Proof.
  induction n as [|n IH].
  - cbn [qsum sum_f_R0]. rewrite <- Q2R_term. apply Qeq_eqR, Qred_correct.
  - cbn [qsum sum_f_R0]. rewrite <- Q2R_term, <- IH, <- Q2R_plus. apply Qeq_eqR, Qred_correct.
Qed.

Lemma pi_close : Rabs (IZR 7074237752028440 * / 2 ^ 51 - PI) <= / 2 ^ 44 * PI.
Proof.
  destruct (PI_2_3_7_ineq 10) as [L U].
  rewrite <- Q2R_sum in L, U.
  assert (Q2R (785398163397447 # 1000000000000000) <= Q2R (qsum (S (2 * 10)))) as L'
    by (apply Qle_Rle; vm_compute; discriminate).
  assert (Q2R (qsum (2 * 10)) <= Q2R (785398163397449 # 1000000000000000)) as U'
    by (apply Qle_Rle; vm_compute; discriminate).
  apply (Rle_trans _ _ _ L') in L. apply (fun H => Rle_trans _ _ _ H U') in U. clear L' U'.
  unfold Q2R in L, U; cbn [Qnum Qden] in L, U.
  replace (/ 2 ^ 44) with (/ 17592186044416) by (f_equal; lra).
  replace (2 ^ 51) with 2251799813685248 by lra.
  apply Rabs_le. split; lra.
Qed.

Lemma f64_pi : f64 pi64 (IZR 7074237752028440 * / 2 ^ 51).
Proof.
  exists (B754_finite (prec := prec64) (emax := emax64) false 7074237752028440 (-51) eq_refl). split; [reflexivity|]. split; [reflexivity|].
  cbn [B2R]. unfold F2R. cbn [Fnum Fexp cond_Zopp]. f_equal. cbn. lra.
Qed.

(** ** Rounding of numbers of moderate size *)
Definition mid (z : R) : Prop := / 2 ^ 200 <= z <= 2 ^ 200.
Definition near (w z : R) : Prop := Rabs (w - z) <= / 2 ^ 53 * z.

Lemma mid_small z : mid z -> Rabs z <= bpow radix2 1023.
Proof.
  intros [H1 H2]. assert (0 < / 2 ^ 200) by (apply Rinv_0_lt_compat, pow_lt; lra).
  rewrite Rabs_pos_eq by lra. apply Rle_trans with (1 := H2).
  replace (2 ^ 200) with (bpow radix2 200) by (rewrite bpow_powerRZ; reflexivity).
  apply bpow_le. lia.
Qed.
Lemma mid_near z : mid z -> near (rnd z) z.
Proof.
  intros [H1 H2]. assert (0 < / 2 ^ 200) by (apply Rinv_0_lt_compat, pow_lt; lra).
  unfold near. rewrite <- (Rabs_pos_eq z) at 3 by lra. apply rnd_rel. rewrite Rabs_pos_eq by lra.
  apply Rle_trans with (2 := H1). replace (/ 2 ^ 200) with (bpow radix2 (-200)).
  2:{ rewrite bpow_powerRZ. reflexivity. }
  apply bpow_le. lia.
Qed.
Lemma near_rel w z : 0 <= z -> near w z -> rel w z.
Proof.
  intros Hz H. unfold rel, near, eps in *. rewrite (Rabs_pos_eq z) by auto. apply Rle_trans with (1 := H).
  apply Rmult_le_compat_r; [auto|]. apply Rinv_le_contravar; [apply pow_lt; lra|]. apply Rle_pow; [lra|lia].
Qed.
Lemma rel_bounds w z lo hi : rel w z -> 0 < lo -> lo <= z <= hi -> lo / 2 <= w <= 2 * hi.
Proof.
  intros H H0 [H1 H2]. unfold rel in H. pose proof eps_pos as E. rewrite (Rabs_pos_eq z) in H by lra.
  assert (eps * z <= z / 2) by nra.
  pose proof (Rle_abs (w - z)). pose proof (Rle_abs (- (w - z))). rewrite Rabs_Ropp in *. lra.
Qed.

Lemma f64_format x a : f64 x a -> generic_format radix2 (FLT_exp (3 - emax64 - prec64) prec64) a.
Proof. intros (b & _ & _ & <-). apply generic_format_B2R. Qed.

Lemma sub_rel x y a b : f64 x a -> f64 y b -> rel (rnd (a - b)) (a - b).
Proof.
  intros Hx Hy.
  destruct (FLT_plus_error_N_ex radix2 (3 - emax64 - prec64) prec64 (fun n => negb (Z.even n)) a (- b))
    as (d & Hd & E).
  - apply (f64_format x); auto.
  - apply generic_format_opp. apply (f64_format y); auto.
  - change (a - b) with (a + - b). unfold rel, rnd. rewrite E.
    replace ((a + - b) * (1 + d) - (a + - b)) with (d * (a + - b)) by ring. rewrite Rabs_mult.
    apply Rmult_le_compat_r; [apply Rabs_pos|]. apply Rle_trans with (1 := Hd).
    unfold u_ro, eps, prec64. cbn. lra.
Qed.

Lemma ceil_value x v : f64 x v -> Rabs v <= 2 ^ 60 ->
  IZR (ceil_as_isize x) - 1 < v <= IZR (ceil_as_isize x).
Proof.
  intros (b & <- & Fb & <-) HV. destruct b as [s|s| |s m e Be]; try discriminate; [cbn; lra|].
  cbn [B2SF ceil_as_isize]. set (n := if s then Zneg m else Zpos m).
  assert (B2R (B754_finite s m e Be) = IZR n * bpow radix2 e) as EV.
  { cbn [B2R]. unfold F2R. cbn [Fnum Fexp]. destruct s; reflexivity. }
  rewrite EV in *. clear EV Be Fb.
  set (k := if (0 <=? e)%Z then (n * 2 ^ e)%Z else (- (- n / 2 ^ (- e)))%Z).
  assert (IZR k - 1 < IZR n * bpow radix2 e <= IZR k) as HK.
  { unfold k. destruct (Z.leb_spec 0 e) as [H|H].
    - assert (IZR (2 ^ e) = bpow radix2 e) as EB by (apply (IZR_Zpower radix2); auto).
      rewrite mult_IZR, EB. lra.
    - pose proof (Z.pow_pos_nonneg 2 (- e) ltac:(lia) ltac:(lia)) as HP.
      assert (bpow radix2 e = / IZR (2 ^ (- e))) as EB.
      { replace (IZR (2 ^ (- e))) with (bpow radix2 (- e)) by (symmetry; apply (IZR_Zpower radix2); lia).
        rewrite bpow_opp, Rinv_inv. reflexivity. }
      rewrite EB. clear EB. set (q := (2 ^ (- e))%Z) in *.
      pose proof (Z.div_mod (- n) q ltac:(lia)) as E. pose proof (Z.mod_pos_bound (- n) q ltac:(lia)) as HM.
      set (f := (- n / q)%Z) in *. set (g := (- n mod q)%Z) in *.
      assert (0 < IZR q) as Hq by (apply (IZR_lt 0); lia).
      replace (IZR n) with (- (IZR q * IZR f + IZR g)).
      2:{ rewrite <- mult_IZR, <- plus_IZR, <- opp_IZR. f_equal. lia. }
      replace (- (IZR q * IZR f + IZR g) * / IZR q) with (- IZR f - IZR g * / IZR q) by (field; lra).
      rewrite opp_IZR. destruct HM as [G1 G2]. apply IZR_le in G1. apply IZR_lt in G2.
      assert (0 <= IZR g * / IZR q).
      { apply Rmult_le_pos; auto. left. apply Rinv_0_lt_compat; auto. }
      assert (IZR g * / IZR q < 1).
      { apply (Rmult_lt_reg_r (IZR q)); auto. rewrite Rmult_assoc, Rinv_l by lra. lra. }
      lra. }
  assert (- 2 ^ 61 <= k <= 2 ^ 61)%Z as HB.
  { assert (- 2 ^ 60 <= IZR n * bpow radix2 e <= 2 ^ 60) as [V1 V2].
    { pose proof (Rle_abs (IZR n * bpow radix2 e)). pose proof (Rle_abs (- (IZR n * bpow radix2 e))).
      rewrite Rabs_Ropp in *. lra. }
    split; apply le_IZR.
    - rewrite opp_IZR. replace (IZR (2 ^ 61)) with (2 ^ 61) by (rewrite pow_IZR; reflexivity). lra.
    - replace (IZR (2 ^ 61)) with (2 ^ 61) by (rewrite pow_IZR; reflexivity). lra. }
  rewrite Z.max_r, Z.min_r; [exact HK|lia|lia].
Qed.

Lemma f64_Z n : (0 <= n <= 2 ^ 32)%Z -> f64 (sf_of_Z n) (IZR n).
Proof.
  intros H. rewrite <- (rnd_exact n) by lia. apply f64_of_Z.
  rewrite <- abs_IZR, Z.abs_eq by lia. apply Rle_trans with (IZR (2 ^ 32)); [apply IZR_le; lia|].
  replace (IZR (2 ^ 32)) with (bpow radix2 32) by reflexivity. apply bpow_le. lia.
Qed.
Lemma mid_range z lo hi : / 2 ^ 200 <= lo -> hi <= 2 ^ 200 -> lo <= z <= hi -> mid z.
Proof. unfold mid. lra. Qed.

Lemma step_mul x y a b lo hi : f64 x a -> f64 y b -> / 2 ^ 200 <= lo -> hi <= 2 ^ 200 -> lo <= a * b <= hi ->
  exists w, f64 (sf_mul x y) w /\ near w (a * b) /\ rel w (a * b) /\ lo / 2 <= w <= 2 * hi.
Proof.
  intros Hx Hy H1 H2 H. assert (0 < / 2 ^ 200) by (apply Rinv_0_lt_compat, pow_lt; lra).
  assert (mid (a * b)) as HM by (eapply mid_range; eauto).
  assert (near (rnd (a * b)) (a * b)) as HN by (apply mid_near; auto).
  assert (rel (rnd (a * b)) (a * b)) as HR by (apply near_rel; auto; lra).
  exists (rnd (a * b)). split; [apply f64_mul; auto; apply mid_small; auto|]. split; [auto|]. split; [auto|].
  eapply rel_bounds; eauto; lra.
Qed.

Theorem est64_accurate T : libm_ok T -> accurate (est64 T) (2 ^ 32).
Proof.
  intros [(e & Fe & He) HP] c r Hc Hr HB.
  set (C := IZR c). set (RR := IZR r).
  assert (2 <= C <= 2 ^ 32) as HC.
  { split; [apply (IZR_le 2); auto|]. change (2 ^ 32) with (IZR 2 ^ 32). rewrite pow_IZR. apply IZR_le. cbn in *. lia. }
  assert (4 <= RR <= 2 ^ 32) as HRR.
  { split; [apply (IZR_le 4); lia|]. change (2 ^ 32) with (IZR 2 ^ 32). rewrite pow_IZR. apply IZR_le. cbn in *. lia. }
  assert (f64 (sf_of_Z c) C) as Fc by (apply f64_Z; lia).
  assert (f64 (sf_of_Z r) RR) as Fr by (apply f64_Z; lia).
  assert (f64 (sf_of_Z 1) 1) as F1 by (apply (f64_Z 1); lia).
  assert (f64 (sf_of_Z 2) 2) as F2 by (apply (f64_Z 2); lia).
  assert (/ 2 ^ 200 <= / 2 ^ 40) as L40 by (apply Rinv_le_contravar; [apply pow_lt; lra|apply Rle_pow; [lra|lia]]).
  assert (2 ^ 90 <= 2 ^ 200) as U90 by (apply Rle_pow; [lra|lia]).
  assert (0 < / 2 ^ 200) as P200 by (apply Rinv_0_lt_compat, pow_lt; lra).
  (* exp *)
  assert (rel e (exp (-1))) as Re.
  { unfold rel, eps. rewrite (Rabs_pos_eq (exp (-1))) by (left; apply exp_pos). exact He. }
  assert (/ 3 <= exp (-1) <= 1) as E1.
  { replace (-1) with (- (1)) by lra. rewrite exp_Ropp. pose proof exp_le_3. pose proof (exp_ineq1_le 1).
    split; [apply Rinv_le_contravar; lra|]. apply Rle_trans with (/ 1); [apply Rinv_le_contravar; lra|lra]. }
  pose proof (rel_bounds _ _ (/ 3) 1 Re ltac:(lra) E1) as Be.
  (* a *)
  destruct (step_mul _ _ _ _ (/ 3) (2 ^ 33) Fe Fc) as (a & Fa & _ & Ra & Ba); [lra|lra|nra|].
  (* pi *)
  set (pi := IZR 7074237752028440 * / 2 ^ 51) in *.
  assert (2 <= pi <= 4) as Bpi by (unfold pi; lra).
  destruct (step_mul _ _ _ _ 4 8 F2 f64_pi) as (b1 & Fb1 & Nb1 & _ & Bb1); fold pi; [lra|lra|lra|].
  fold pi in Nb1.
  destruct (step_mul _ _ _ _ 4 (2 ^ 36) Fb1 Fc) as (b2 & Fb2 & Nb2 & _ & Bb2); [lra|lra|nra|].
  assert (rel b2 (2 * pi * C)) as Rb2.
  { unfold near in *. unfold rel, eps. rewrite (Rabs_pos_eq (2 * pi * C)) by nra.
    replace (b2 - 2 * pi * C) with ((b2 - b1 * C) + (b1 - 2 * pi) * C) by ring.
    eapply Rle_trans; [apply Rabs_triang|]. rewrite Rabs_mult, (Rabs_pos_eq C) by lra.
    assert (Rabs (b1 - 2 * pi) * C <= / 2 ^ 53 * (2 * pi * C)).
    { replace (/ 2 ^ 53 * (2 * pi * C)) with (/ 2 ^ 53 * (2 * pi) * C) by ring.
      apply Rmult_le_compat_r; lra. }
    assert (b1 <= 2 * (2 * pi)) as B1'.
    { pose proof (Rle_abs (b1 - 2 * pi)). lra. }
    assert (b1 * C <= 2 * (2 * pi * C)) by nra. assert (0 <= 2 * pi * C) by nra.
    lra. }
  (* sqrt *)
  assert (1 <= sqrt b2 <= 2 ^ 19) as S1.
  { split; [rewrite <- sqrt_1; apply sqrt_le_1_alt; lra|].
    replace (2 ^ 19) with (sqrt (2 ^ 38)); [apply sqrt_le_1_alt; lra|].
    replace (2 ^ 38) with (2 ^ 19 * 2 ^ 19) by lra. apply sqrt_square. lra. }
  pose proof (f64_sqrt _ _ Fb2 ltac:(lra)) as Fb3. set (b3 := rnd (sqrt b2)) in *.
  assert (rel b3 (sqrt b2)) as Rb3.
  { apply near_rel; [lra|]. apply mid_near. apply (mid_range _ 1 (2 ^ 19)); auto; lra. }
  pose proof (rel_bounds _ _ 1 (2 ^ 19) Rb3 ltac:(lra) S1) as Bb3.
  destruct (step_mul _ _ _ _ 2 (2 ^ 52) Fb3 Fr) as (b4 & Fb4 & _ & Rb4 & Bb4); [lra|lra|nra|].
  (* 1 / c *)
  assert (/ 2 ^ 32 <= 1 / C <= / 2) as D1.
  { unfold Rdiv. rewrite Rmult_1_l. split; apply Rinv_le_contravar; lra. }
  assert (mid (1 / C)) as MD by (apply (mid_range _ (/ 2 ^ 32) (/ 2)); auto; lra).
  pose proof (f64_div _ _ _ _ F1 Fc ltac:(lra) (mid_small _ MD)) as Fd. set (d := rnd (1 / C)) in *.
  assert (rel d (1 / C)) as Rd by (apply near_rel; [lra|apply mid_near; auto]).
  pose proof (rel_bounds _ _ (/ 2 ^ 32) (/ 2) Rd ltac:(lra) D1) as Bd.
  (* powf *)
  destruct (HP _ _ _ _ Fb4 Fd ltac:(lra) ltac:(lra)) as (p & Fp & Hp).
  assert (rel p (Rpower b4 d)) as Rp.
  { unfold rel, eps. rewrite (Rabs_pos_eq (Rpower b4 d)) by (left; apply exp_pos). exact Hp. }
  assert (1 <= Rpower b4 d <= 2 ^ 53) as P1.
  { split.
    - rewrite <- (Rpower_O b4) by lra. apply Rle_Rpower; lra.
    - apply Rle_trans with (Rpower b4 1); [apply Rle_Rpower; lra|]. rewrite Rpower_1 by lra. lra. }
  pose proof (rel_bounds _ _ 1 (2 ^ 53) Rp ltac:(lra) P1) as Bp.
  (* the product *)
  destruct (step_mul _ _ _ _ (/ 12) (2 ^ 88) Fa Fp) as (m & Fm & _ & Rm & Bm); [lra|lra|nra|].
  (* the difference *)
  assert (Rabs (m - C) <= bpow radix2 1023) as HS.
  { apply Rle_trans with (2 ^ 90).
    - apply Rabs_le. lra.
    - replace (2 ^ 90) with (bpow radix2 90) by (rewrite bpow_powerRZ; reflexivity). apply bpow_le. lia. }
  pose proof (f64_sub _ _ _ _ Fm Fc HS) as Fv.
  pose proof (sub_rel _ _ _ _ Fm Fc) as Rv. set (v := rnd (m - C)) in *.
  assert (rel pi PI) as Rpi.
  { unfold rel, eps. rewrite (Rabs_pos_eq PI) by (pose proof PI_RGT_0; lra).
    eapply Rle_trans; [apply pi_close|]. apply Rmult_le_compat_r; [pose proof PI_RGT_0; lra|lra]. }
  pose proof (estimate_close c r Hc Hr HB e a pi b2 b3 b4 d p m v Re Ra Rpi Rb2 Rb3 Rb4 Rd Rp Rm Rv) as EC.
  exists v. split; [exact EC|]. apply ceil_value; [exact Fv|].
  pose proof (big_bound c r Hc Hr HB) as [BB1 BB2]. unfold estimate in EC. fold (big c r) in EC. fold C in EC.
  pose proof (Rle_abs (v - (big c r - C))). pose proof (Rle_abs (- (v - (big c r - C)))). rewrite Rabs_Ropp in *.
  apply Rabs_le. lra.
Qed.

(** ** A correctly rounded libm *)
Definition sf_of_R (z : R) : spec_float :=
  B2SF (BinarySingleNaN.binary_normalize prec64 emax64 Hprec64 Hmax64 mode_NE
    (ZnearestE (scaled_mantissa radix2 (FLT_exp (3 - emax64 - prec64) prec64) z))
    (cexp radix2 (FLT_exp (3 - emax64 - prec64) prec64) z) false).

Lemma f64_of_R z : Rabs z <= bpow radix2 1023 -> f64 (sf_of_R z) (rnd z).
Proof.
  intros H. unfold sf_of_R. set (m := ZnearestE _). set (e := cexp _ _ _).
  exists (BinarySingleNaN.binary_normalize prec64 emax64 Hprec64 Hmax64 mode_NE m e false).
  pose proof (binary_normalize_correct _ _ Hprec64 Hmax64 mode_NE m e false) as C. cbv zeta in C.
  change (F2R (Float radix2 m e)) with (rnd z) in C. change (round radix2 _ _ ?y) with (rnd y) in C.
  assert (rnd (rnd z) = rnd z) as E.
  { apply round_generic; [apply valid_rnd_N|]. apply generic_format_round; [apply FLT_exp_valid, Hprec64|apply valid_rnd_N]. }
  rewrite E, rnd_fits in C by exact H. destruct C as (C1 & C2 & _). auto.
Qed.

(** Every function correctly rounded (domain errors and overflow are not represented). *)
Definition real1 (f : R -> R) (x : spec_float) : spec_float := sf_of_R (f (SF2R radix2 x)).
Definition libm_cr : libm :=
  mkLibm (real1 sin) (real1 cos) (real1 tan) (real1 exp) (real1 ln) (real1 asin) (real1 acos) (real1 atan)
    (fun x y => sf_of_R (Rpower (SF2R radix2 x) (SF2R radix2 y))).

Lemma f64_val x v : f64 x v -> SF2R radix2 x = v.
Proof. intros (b & <- & _ & <-). symmetry. destruct b; reflexivity. Qed.

Lemma libm_cr_ok : libm_ok libm_cr.
Proof.
  assert (/ 2 ^ 53 <= / 2 ^ 42) as HE by lra.
  assert (/ 2 ^ 200 <= / 3) as HL by lra.
  assert (2 ^ 60 <= 2 ^ 200) as HU by lra.
  split.
  - exists (rnd (exp (-1))).
    assert (mid (exp (-1))) as HM.
    { apply (mid_range _ (/ 3) 1); [lra|lra|]. replace (-1) with (- (1)) by lra. rewrite exp_Ropp.
      pose proof exp_le_3. pose proof (exp_ineq1_le 1).
      split; [apply Rinv_le_contravar; lra|]. apply Rle_trans with (/ 1); [apply Rinv_le_contravar; lra|lra]. }
    split.
    + cbn [l_exp libm_cr]. unfold real1. rewrite (f64_val _ (-1)).
      * apply f64_of_R, mid_small, HM.
      * change (f64 (SFopp (sf_of_Z 1)) (- (1))). apply f64_opp, (f64_Z 1). lia.
    + apply mid_near in HM. unfold near in HM. pose proof (exp_pos (-1)). nra.
  - intros x y a b Hx Hy Ha Hb. exists (rnd (Rpower a b)).
    assert (1 <= Rpower a b <= 2 ^ 60) as HP.
    { split.
      - rewrite <- (Rpower_O a) by lra. apply Rle_Rpower; lra.
      - apply Rle_trans with (Rpower a 1); [apply Rle_Rpower; lra|]. rewrite Rpower_1 by lra. lra. }
    assert (mid (Rpower a b)) as HM by (apply (mid_range _ 1 (2 ^ 60)); lra).
    split.
    + cbn [l_powf libm_cr]. rewrite (f64_val _ _ Hx), (f64_val _ _ Hy). apply f64_of_R, mid_small, HM.
    + apply mid_near in HM. unfold near in HM. nra.
Qed.
