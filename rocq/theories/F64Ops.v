(** Rounding errors of the methods of variables in binary64. *)
From Coq Require Import Reals Lra Lia ZArith Bool List SpecFloat Psatz.
From Flocq Require Import Core Relative Plus_error BinarySingleNaN.
From Verif Require Import Base Float FloatInst Operation Tape AContext Methods MethodFacts Instances LinearFacts F64Facts.
Import ListNotations.
Local Open Scope R_scope.

(** [v] is a finite double, and none is closer to [z]. *)
Definition nearest (x : spec_float) (z : R) : Prop :=
  exists v, f64 x v /\ forall y u, f64 y u -> Rabs (v - z) <= Rabs (u - z).

Lemma f64_fmt x a : f64 x a -> generic_format radix2 (FLT_exp (3 - emax64 - prec64) prec64) a.
Proof. intros (b & _ & _ & <-). apply generic_format_B2R. Qed.

Lemma rnd_nearest x z : f64 x (rnd z) -> nearest x z.
Proof.
  intros H. exists (rnd z). split; [exact H|]. intros y u Hu.
  assert (Rnd_N_pt (generic_format radix2 (FLT_exp (3 - emax64 - prec64) prec64)) z (rnd z)) as [_ HN].
  { apply round_N_pt. apply FLT_exp_valid, Hprec64. }
  rewrite !(Rabs_minus_sym _ z). rewrite (Rabs_minus_sym z (rnd z)), (Rabs_minus_sym z u).
  apply HN. apply f64_fmt with y. exact Hu.
Qed.

Lemma rnd_id x a : f64 x a -> rnd a = a.
Proof. intros H. apply round_generic; [apply valid_rnd_N|]. eapply f64_fmt; eauto. Qed.

(** ** What the methods compute, in any arithmetic *)
Section Generic.
Context {Sc F : Type} (So : Fops Sc) (tof : Sc -> option F).
Context (x y r : AF Sc) (w w' : world F).
Local Notation "a + b" := (f_add So a b). Local Notation "a - b" := (f_sub So a b).
Local Notation "a * b" := (f_mul So a b). Local Notation "a / b" := (f_div So a b).
Let a := af_v x. Let b := af_v y. Let da := af_dv x. Let db := af_dv y.

Lemma gen2 o : meth2 So (from_op So tof) (af_const So) o x y w = Ok (r, w') ->
  match o with
  | BAdd => af_v r = a + b /\ af_dv r = da + db
  | BSub => af_v r = a - b /\ af_dv r = da - db
  | BMul => af_v r = a * b /\ af_dv r = da * b + a * db
  | BDiv => af_v r = a / b /\ af_dv r = (da * b - a * db) / f_powi So b 2
  | BMax => af_v r = f_half So * ((a + b) + f_abs So (a - b))
  | BMin => af_v r = f_half So * ((a + b) - f_abs So (a - b))
  | BHypot => af_v r = f_powf So (f_powf So a (f_of_Z So 2) + f_powf So b (f_of_Z So 2)) (f_half So)
  | _ => True
  end.
Proof.
  intros E. apply meth2_vd in E. unfold vd2 in E.
  destruct o; cbn in E; try exact I; apply Ok_inj in E; unfold a, b, da, db; inversion E; auto.
Qed.
Lemma gen1 o : meth1 So (from_op So tof) (af_const So) o x w = Ok (r, w') ->
  match o with
  | UNeg => af_v r = (f_zero So - f_one So) * a /\
            af_dv r = (f_zero So - f_zero So) * a + (f_zero So - f_one So) * da
  | UAbs => af_v r = f_abs So a
  | UCbrt => af_v r = f_powf So a (f_one So / f_of_Z So 3)
  | _ => True
  end.
Proof.
  intros E. apply meth1_vd in E. unfold vd2 in E.
  destruct o; cbn in E; try exact I; apply Ok_inj in E; unfold a, da; inversion E; auto.
Qed.
End Generic.

(** ** Errors *)
(** The smallest positive double. *)
Definition tiny : R := / 2 ^ 1074.
Definition ulp1 : R := / 2 ^ 53.
Lemma ulp1_val : ulp1 = / 9007199254740992. Proof. unfold ulp1. f_equal. lra. Qed.
Lemma tiny_pow : tiny = bpow radix2 (-1074).
Proof. rewrite bpow_powerRZ. reflexivity. Qed.
Lemma tiny_pos : 0 < tiny <= 1.
Proof.
  rewrite tiny_pow. split; [apply bpow_gt_0|]. change 1 with (bpow radix2 0). apply bpow_le. lia.
Qed.

Lemma rnd_err z : Rabs (rnd z - z) <= ulp1 * Rabs z + tiny.
Proof.
  destruct (error_N_FLT radix2 (3 - emax64 - prec64) prec64 eq_refl (fun n => negb (Z.even n)) z)
    as (e & t & He & Ht & _ & E).
  unfold rnd. rewrite E. replace (z * (1 + e) + t - z) with (e * z + t) by ring.
  eapply Rle_trans; [apply Rabs_triang|]. rewrite Rabs_mult.
  assert (Rabs e <= ulp1) as He'.
  { eapply Rle_trans; [exact He|]. unfold ulp1, prec64. cbn. lra. }
  assert (Rabs t <= tiny) as Ht'.
  { eapply Rle_trans; [exact Ht|]. rewrite tiny_pow. change (3 - emax64 - prec64)%Z with (-1074)%Z.
    pose proof (bpow_gt_0 radix2 (-1074)). lra. }
  pose proof (Rabs_pos z). nra.
Qed.

Lemma add_err x y a b : f64 x a -> f64 y b -> Rabs (rnd (a + b) - (a + b)) <= ulp1 * Rabs (a + b).
Proof.
  intros Hx Hy.
  destruct (FLT_plus_error_N_ex radix2 (3 - emax64 - prec64) prec64 (fun n => negb (Z.even n)) a b)
    as (d & Hd & E).
  - apply (f64_fmt x); auto.
  - apply (f64_fmt y); auto.
  - unfold rnd. rewrite E.
    replace ((a + b) * (1 + d) - (a + b)) with (d * (a + b)) by ring. rewrite Rabs_mult.
    apply Rmult_le_compat_r; [apply Rabs_pos|]. apply Rle_trans with (1 := Hd).
    unfold u_ro, ulp1, prec64. cbn. lra.
Qed.
Lemma sub_err x y a b : f64 x a -> f64 y b -> Rabs (rnd (a - b) - (a - b)) <= ulp1 * Rabs (a - b).
Proof.
  intros Hx Hy. apply (add_err x (SFopp y)); auto. apply f64_opp; auto.
Qed.

(** Bounded numbers do not overflow. *)
Lemma big_small z n : (0 <= n <= 1023)%Z -> Rabs z <= bpow radix2 n -> Rabs z <= bpow radix2 1023.
Proof. intros H1 H2. eapply Rle_trans; [exact H2|]. apply bpow_le. lia. Qed.

Lemma half_f64 : f64 (sf_div (sf_of_Z 1) (sf_of_Z 2)) (/ 2).
Proof.
  exists (B754_finite (prec := prec64) (emax := emax64) false 4503599627370496 (-53) eq_refl).
  split; [vm_compute; reflexivity|]. split; [reflexivity|].
  cbn [B2R]. unfold F2R. cbn [Fnum Fexp cond_Zopp]. cbn. lra.
Qed.
Lemma one_f64 : f64 (sf_of_Z 1) 1.
Proof.
  exists (B754_finite (prec := prec64) (emax := emax64) false 4503599627370496 (-52) eq_refl).
  split; [vm_compute; reflexivity|]. split; [reflexivity|].
  cbn [B2R]. unfold F2R. cbn [Fnum Fexp cond_Zopp]. cbn. lra.
Qed.
Lemma zero_f64 : f64 (S754_zero false) 0.
Proof. exists (B754_zero (prec := prec64) (emax := emax64) false). split; [reflexivity|]. split; reflexivity. Qed.

Lemma abs_le a m : Rabs a <= m -> - m <= a <= m.
Proof. intros H. pose proof (Rle_abs a). pose proof (Rle_abs (- a)). rewrite Rabs_Ropp in *. lra. Qed.

Section MaxMin.
Context (x y : spec_float) (a b : R) (Fx : f64 x a) (Fy : f64 y b).
Context (Ha : Rabs a <= bpow radix2 1020) (Hb : Rabs b <= bpow radix2 1020).
Let K := bpow radix2 1020.

Lemma K_pos : 1 <= K. Proof. change 1 with (bpow radix2 0). apply bpow_le. lia. Qed.
Lemma K_8 : bpow radix2 1023 = 8 * K.
Proof. unfold K. change 1023%Z with (3 + 1020)%Z. rewrite bpow_plus. reflexivity. Qed.

Lemma max_err sg : sg = 1 \/ sg = -1 ->
  exists v, f64 (sf_mul (sf_div (sf_of_Z 1) (sf_of_Z 2))
      ((if Rlt_dec 0 sg then sf_add else sf_sub) (sf_add x y) (SFabs (sf_sub x y)))) v /\
    Rabs (v - (a + b + sg * Rabs (a - b)) / 2) <= / 2 ^ 51 * (Rabs a + Rabs b) + tiny.
Proof.
  intros Hsg. pose proof K_pos as HK. pose proof tiny_pos as HT. pose proof ulp1_val as HU.
  fold K in Ha, Hb. set (M := Rabs a + Rabs b).
  assert (Rabs (a + b) <= M) as HS by apply Rabs_triang.
  assert (Rabs (a - b) <= M) as HD.
  { unfold Rminus. eapply Rle_trans; [apply Rabs_triang|]. rewrite Rabs_Ropp. unfold M; lra. }
  assert (0 <= M <= 2 * K) as HM by (unfold M; pose proof (Rabs_pos a); pose proof (Rabs_pos b); lra).
  assert (f64 (sf_add x y) (rnd (a + b))) as F1 by (apply f64_add; auto; rewrite K_8; lra).
  assert (f64 (sf_sub x y) (rnd (a - b))) as F2 by (apply f64_sub; auto; rewrite K_8; lra).
  apply f64_abs in F2.
  pose proof (add_err _ _ _ _ Fx Fy) as E1. pose proof (sub_err _ _ _ _ Fx Fy) as E2.
  set (s := rnd (a + b)) in *. set (d := rnd (a - b)) in *.
  assert (Rabs (Rabs d - Rabs (a - b)) <= ulp1 * M) as E3.
  { eapply Rle_trans; [apply Rabs_triang_inv2|]. nra. }
  assert (Rabs (s - (a + b)) <= ulp1 * M) as E4 by nra.
  set (t := s + sg * Rabs d). set (t0 := a + b + sg * Rabs (a - b)).
  assert (Rabs (t - t0) <= 2 * ulp1 * M) as E5.
  { unfold t, t0. apply abs_le in E3. apply abs_le in E4. apply Rabs_le. destruct Hsg as [-> | ->]; lra. }
  assert (Rabs t0 <= 2 * M) as B0.
  { unfold t0. apply abs_le in HS. apply abs_le in HD. pose proof (Rabs_pos (a - b)).
    assert (Rabs (a - b) <= M) by (apply Rabs_le; lra).
    apply Rabs_le. destruct Hsg as [-> | ->]; lra. }
  assert (Rabs t <= 201 / 100 * M) as B1.
  { apply abs_le in E5. apply abs_le in B0. apply Rabs_le. rewrite HU in E5. lra. }
  assert (f64 ((if Rlt_dec 0 sg then sf_add else sf_sub) (sf_add x y) (SFabs (sf_sub x y))) (rnd t) /\
    Rabs (rnd t - t) <= ulp1 * Rabs t) as [F3 E6].
  { destruct (Rlt_dec 0 sg) as [L|L].
    - assert (t = s + Rabs d) as Et by (unfold t; destruct Hsg; [subst; ring|lra]). split.
      + rewrite Et. apply f64_add; auto. rewrite <- Et, K_8. lra.
      + rewrite Et. eapply add_err; eauto.
    - assert (t = s - Rabs d) as Et by (unfold t; destruct Hsg; [lra|subst; ring]). split.
      + rewrite Et. apply f64_sub; auto. rewrite <- Et, K_8. lra.
      + rewrite Et. eapply sub_err; eauto. }
  set (t' := rnd t) in *.
  assert (Rabs (t' - t0) <= 401 / 100 * ulp1 * M) as E7.
  { apply abs_le in E6. apply abs_le in E5. apply Rabs_le.
    assert (ulp1 * Rabs t <= 201 / 100 * ulp1 * M) by nra. nra. }
  exists (rnd (/ 2 * t')). 
  assert (Rabs t' <= 201 / 100 * M) as B2.
  { apply abs_le in E7. apply abs_le in B0. apply Rabs_le. rewrite HU in E7. lra. }
  split.
  - apply f64_mul; [apply half_f64|exact F3|]. rewrite K_8.
    apply abs_le in B2. apply Rabs_le. lra.
  - pose proof (rnd_err (/ 2 * t')) as E8.
    rewrite Rabs_mult, (Rabs_pos_eq (/ 2)) in E8 by lra.
    fold t0.
    replace (/ 2 ^ 51) with (4 * ulp1) by (unfold ulp1; lra).
    apply Rle_trans with (Rabs (rnd (/ 2 * t') - / 2 * t') + Rabs (/ 2 * t' - t0 / 2)).
    + eapply Rle_trans; [|apply Rabs_triang]. right. f_equal. ring.
    + assert (Rabs (/ 2 * t' - t0 / 2) <= 401 / 200 * ulp1 * M).
      { replace (/ 2 * t' - t0 / 2) with (/ 2 * (t' - t0)) by field.
        rewrite Rabs_mult, (Rabs_pos_eq (/ 2)) by lra. lra. }
      assert (ulp1 * (/ 2 * Rabs t') <= 201 / 200 * ulp1 * M) by (rewrite HU; lra).
      fold M. rewrite HU in *. lra.
Qed.
End MaxMin.

(** ** The methods *)
Definition K : R := 2 ^ 200.
Section Methods64.
Context (T : libm) {F : Type} (tof : spec_float -> option F).
Context (x y r : AF spec_float) (w w' : world F) (a b da db : R).
Local Notation op2 o := (meth2 (f64ops T) (from_op (f64ops T) tof) (af_const (f64ops T)) o x y w).
Local Notation op1 o := (meth1 (f64ops T) (from_op (f64ops T) tof) (af_const (f64ops T)) o x w).

Lemma max_binary64 : op2 BMax = Ok (r, w') -> f64 (af_v x) a -> f64 (af_v y) b ->
  Rabs a <= 2 ^ 1020 -> Rabs b <= 2 ^ 1020 ->
  exists v, f64 (af_v r) v /\ Rabs (v - Rmax a b) <= / 2 ^ 51 * (Rabs a + Rabs b) + / 2 ^ 1074.
Proof.
  intros E Fx Fy Ha Hb. apply gen2 in E. 
  replace (2 ^ 1020) with (bpow radix2 1020) in * by (rewrite bpow_powerRZ; reflexivity).
  destruct (max_err _ _ _ _ Fx Fy Ha Hb 1 (or_introl eq_refl)) as (v & Fv & Hv).
  destruct (Rlt_dec 0 1); [|lra]. exists v. split; [rewrite E; exact Fv|].
  rewrite <- max_abs. fold tiny.
  replace (/ 2 * (a + b + Rabs (a - b))) with ((a + b + 1 * Rabs (a - b)) / 2) by field. exact Hv.
Qed.
Lemma min_binary64 : op2 BMin = Ok (r, w') -> f64 (af_v x) a -> f64 (af_v y) b ->
  Rabs a <= 2 ^ 1020 -> Rabs b <= 2 ^ 1020 ->
  exists v, f64 (af_v r) v /\ Rabs (v - Rmin a b) <= / 2 ^ 51 * (Rabs a + Rabs b) + / 2 ^ 1074.
Proof.
  intros E Fx Fy Ha Hb. apply gen2 in E. 
  replace (2 ^ 1020) with (bpow radix2 1020) in * by (rewrite bpow_powerRZ; reflexivity).
  destruct (max_err _ _ _ _ Fx Fy Ha Hb (-1) (or_intror eq_refl)) as (v & Fv & Hv).
  destruct (Rlt_dec 0 (-1)); [lra|]. exists v. split; [rewrite E; exact Fv|].
  rewrite <- min_abs. fold tiny.
  replace (/ 2 * (a + b - Rabs (a - b))) with ((a + b + -1 * Rabs (a - b)) / 2) by field. exact Hv.
Qed.

Lemma basic_binary64 o f : op2 o = Ok (r, w') -> 
  In (o, f) [(BAdd, Rplus); (BSub, Rminus); (BMul, Rmult); (BDiv, Rdiv)] ->
  f64 (af_v x) a -> f64 (af_v y) b -> (o = BDiv -> b <> 0) -> Rabs (f a b) <= 2 ^ 1023 ->
  nearest (af_v r) (f a b).
Proof.
  intros E HI Fx Fy Hz HB. apply gen2 in E. 
  replace (2 ^ 1023) with (bpow radix2 1023) in * by (rewrite bpow_powerRZ; reflexivity).
  apply rnd_nearest.
  destruct HI as [H|[H|[H|[H|[]]]]]; injection H as <- <-; destruct E as [-> _]; cbn [f64ops f_add f_sub f_mul f_div].
  - apply f64_add; auto.
  - apply f64_sub; auto.
  - apply f64_mul; auto.
  - apply f64_div; auto.
Qed.
Lemma basic_dv_binary64 o f : op2 o = Ok (r, w') -> 
  In (o, f) [(BAdd, Rplus); (BSub, Rminus)] ->
  f64 (af_dv x) da -> f64 (af_dv y) db -> Rabs (f da db) <= 2 ^ 1023 ->
  nearest (af_dv r) (f da db).
Proof.
  intros E HI Fx Fy HB. apply gen2 in E. 
  replace (2 ^ 1023) with (bpow radix2 1023) in * by (rewrite bpow_powerRZ; reflexivity).
  apply rnd_nearest.
  destruct HI as [H|[H|[]]]; injection H as <- <-; destruct E as [_ ->]; cbn [f64ops f_add f_sub f_mul f_div].
  - apply f64_add; auto.
  - apply f64_sub; auto.
Qed.

Lemma neg_binary64 : op1 UNeg = Ok (r, w') -> f64 (af_v x) a -> f64 (af_v r) (- a).
Proof.
  intros E Fx. apply gen1 in E as [-> _]. cbn [f64ops f_add f_sub f_mul f_div f_zero f_one].
  assert (f64 (sf_sub (S754_zero false) (sf_of_Z 1)) (-1)) as F1.
  { replace (-1) with (- (1)) by lra.
    replace (sf_sub (S754_zero false) (sf_of_Z 1)) with (SFopp (sf_of_Z 1)) by (vm_compute; reflexivity).
    apply f64_opp, one_f64. }
  pose proof (f64_opp _ _ Fx) as FO. replace (- a) with (-1 * a) by ring.
  assert (rnd (-1 * a) = -1 * a) as <-.
  { replace (-1 * a) with (- a) by ring. apply rnd_id with (SFopp (af_v x)). auto. }
  apply f64_mul_fits; auto. replace (-1 * a) with (- a) by ring. rewrite (rnd_id _ _ FO), Rabs_Ropp.
  destruct Fx as (b0 & _ & _ & <-). apply abs_B2R_lt_emax.
Qed.
Lemma abs_binary64 : op1 UAbs = Ok (r, w') -> f64 (af_v x) a -> f64 (af_v r) (Rabs a).
Proof. intros E Fx. apply gen1 in E as ->. apply f64_abs, Fx. Qed.

(** Numbers of absolute value at most 2^200: products of four do not overflow. *)
Lemma K_ge : 1 <= K. Proof. unfold K. apply pow_R1_Rle. lra. Qed.
Lemma K_small : 64 * (K * K * (K * K)) <= bpow radix2 1023.
Proof.
  replace K with (bpow radix2 200) by (rewrite bpow_powerRZ; reflexivity).
  rewrite <- !bpow_plus. replace 64 with (bpow radix2 6) by (cbn; lra). rewrite <- bpow_plus.
  apply bpow_le. lia.
Qed.

(** z1 z2 + z3 z4 (or minus), every operation rounded *)
Lemma dot_err sg a1 a2 a3 a4 x1 x2 x3 x4 : f64 x1 a1 -> f64 x2 a2 -> f64 x3 a3 -> f64 x4 a4 ->
  Rabs a1 <= K -> Rabs a2 <= K -> Rabs a3 <= K -> Rabs a4 <= K -> sg = 1 \/ sg = -1 ->
  exists v, f64 ((if Rlt_dec 0 sg then sf_add else sf_sub) (sf_mul x1 x2) (sf_mul x3 x4)) v /\
    Rabs (v - (a1 * a2 + sg * (a3 * a4))) <=
      201 / 100 * ulp1 * (Rabs (a1 * a2) + Rabs (a3 * a4)) + 201 / 100 * tiny.
Proof.
  intros F1 F2 F3 F4 H1 H2 H3 H4 Hsg.
  pose proof K_ge as HK. pose proof K_small as HS. pose proof tiny_pos as HT. pose proof ulp1_val as HU.
  assert (Rabs (a1 * a2) <= K * K) as B1 by (rewrite Rabs_mult; apply Rmult_le_compat; auto using Rabs_pos).
  assert (Rabs (a3 * a4) <= K * K) as B2 by (rewrite Rabs_mult; apply Rmult_le_compat; auto using Rabs_pos).
  assert (1 <= K * K) as HKK by nra.
  assert (64 * (K * K) <= bpow radix2 1023) as HS2 by nra.
  assert (f64 (sf_mul x1 x2) (rnd (a1 * a2))) as G1 by (apply f64_mul; auto; lra).
  assert (f64 (sf_mul x3 x4) (rnd (a3 * a4))) as G2 by (apply f64_mul; auto; lra).
  pose proof (rnd_err (a1 * a2)) as E1. pose proof (rnd_err (a3 * a4)) as E2.
  set (p := a1 * a2) in *. set (q := a3 * a4) in *. set (p' := rnd p) in *. set (q' := rnd q) in *.
  set (M := Rabs p + Rabs q). pose proof (Rabs_pos p) as P0. pose proof (Rabs_pos q) as Q0.
  assert (Rabs (p' + sg * q' - (p + sg * q)) <= ulp1 * M + 2 * tiny) as E3.
  { apply abs_le in E1. apply abs_le in E2. apply Rabs_le. unfold M. destruct Hsg as [-> | ->]; lra. }
  assert (Rabs (p + sg * q) <= M) as B3.
  { unfold M. pose proof (Rle_refl (Rabs p)) as X1. pose proof (Rle_refl (Rabs q)) as X2.
    apply abs_le in X1. apply abs_le in X2. apply Rabs_le. destruct Hsg as [-> | ->]; lra. }
  assert (Rabs (p' + sg * q') <= 1001 / 1000 * M + 2 * tiny) as B4.
  { apply abs_le in E3. apply abs_le in B3. apply Rabs_le. rewrite HU in E3. unfold M in *. lra. }
  assert (Rabs (p' + sg * q') <= bpow radix2 1023) as B5 by (unfold M in *; lra).
  exists (rnd (p' + sg * q')).
  assert (f64 ((if Rlt_dec 0 sg then sf_add else sf_sub) (sf_mul x1 x2) (sf_mul x3 x4)) (rnd (p' + sg * q'))
    /\ Rabs (rnd (p' + sg * q') - (p' + sg * q')) <= ulp1 * Rabs (p' + sg * q')) as [G3 E4].
  { destruct (Rlt_dec 0 sg) as [L|L].
    - assert (p' + sg * q' = p' + q') as Et by (destruct Hsg; [subst; ring|lra]).
      rewrite Et in *. split; [apply f64_add; auto|eapply add_err; eauto].
    - assert (p' + sg * q' = p' - q') as Et by (destruct Hsg; [lra|subst; ring]).
      rewrite Et in *. split; [apply f64_sub; auto|eapply sub_err; eauto]. }
  split; [exact G3|]. set (v := rnd (p' + sg * q')) in *. set (s := p' + sg * q') in *.
  set (s0 := p + sg * q) in *.
  apply abs_le in E3. apply abs_le in E4. apply Rabs_le. rewrite HU in *. unfold M in *. lra.
Qed.

Lemma mul_dv_binary64 : op2 BMul = Ok (r, w') ->
  f64 (af_v x) a -> f64 (af_v y) b -> f64 (af_dv x) da -> f64 (af_dv y) db ->
  Rabs a <= K -> Rabs b <= K -> Rabs da <= K -> Rabs db <= K ->
  exists d, f64 (af_dv r) d /\
    Rabs (d - (da * b + a * db)) <= / 2 ^ 51 * (Rabs (da * b) + Rabs (a * db)) + 3 * / 2 ^ 1074.
Proof.
  intros E Fx Fy Fdx Fdy Ha Hb Hda Hdb. apply gen2 in E as [_ E].
  destruct (dot_err 1 _ _ _ _ _ _ _ _ Fdx Fy Fx Fdy Hda Hb Ha Hdb (or_introl eq_refl)) as (d & Fd & Hd).
  destruct (Rlt_dec 0 1); [|lra]. exists d. split; [rewrite E; exact Fd|]. fold tiny.
  rewrite Rmult_1_l in Hd. pose proof tiny_pos. pose proof ulp1_val as HU.
  replace (/ 2 ^ 51) with (4 * ulp1) by (unfold ulp1; lra).
  pose proof (Rabs_pos (da * b)). pose proof (Rabs_pos (a * db)). rewrite HU in *. lra.
Qed.

Lemma div_dv_binary64 : op2 BDiv = Ok (r, w') ->
  f64 (af_v x) a -> f64 (af_v y) b -> f64 (af_dv x) da -> f64 (af_dv y) db ->
  Rabs a <= K -> / K <= Rabs b <= K -> Rabs da <= K -> Rabs db <= K ->
  exists d, f64 (af_dv r) d /\
    Rabs (d - (da * b - a * db) / (b * b)) <=
      / 2 ^ 50 * ((Rabs (da * b) + Rabs (a * db)) / (b * b)) + / 2 ^ 600.
Proof.
  intros E Fx Fy Fdx Fdy Ha [Hb0 Hb] Hda Hdb. apply gen2 in E as [_ E].
  destruct (dot_err (-1) _ _ _ _ _ _ _ _ Fdx Fy Fx Fdy Hda Hb Ha Hdb (or_intror eq_refl)) as (n & Fn & Hn).
  destruct (Rlt_dec 0 (-1)) as [L|L]; [lra|].
  pose proof K_ge as HK. pose proof K_small as HS. pose proof tiny_pos as HT. pose proof ulp1_val as HU.
  assert (0 < K) as HK0 by lra.
  assert (0 < / K) as HI by (apply Rinv_0_lt_compat; lra).
  assert (b <> 0) as Hb1 by (intros ->; rewrite Rabs_R0 in Hb0; lra).
  set (B := b * b). assert (B = Rabs b * Rabs b) as EB.
  { unfold B. rewrite <- Rabs_mult. rewrite Rabs_pos_eq; [auto|]. apply Rle_0_sqr. }
  assert (/ K * / K <= B <= K * K) as [B1 B2].
  { rewrite EB. split; apply Rmult_le_compat; auto using Rabs_pos; lra. }
  assert (0 < B) as B0 by nra.
  assert (1 <= K * K) as HKK by nra.
  (* the square *)
  assert (f64 (sf_mul (af_v y) (af_v y)) (rnd B)) as FB.
  { apply f64_mul; auto. fold B. rewrite Rabs_pos_eq by lra. nra. }
  assert (Rabs (rnd B - B) <= ulp1 * B) as EQ.
  { rewrite <- (Rabs_pos_eq B) at 3 by lra. apply rnd_rel. rewrite Rabs_pos_eq by lra.
    apply Rle_trans with (/ K * / K); [|auto].
    replace (/ K) with (bpow radix2 (-200)) by (rewrite bpow_powerRZ; reflexivity).
    rewrite <- bpow_plus. apply bpow_le. lia. }
  assert (f64 (sf_powi (af_v y) 2) (rnd B)) as FP.
  { cbn [sf_powi powi_pos]. rewrite <- (rnd_id _ _ FB) at 1. replace (rnd B) with (1 * rnd B) at 1 by ring.
    apply f64_mul; [apply one_f64|exact FB|]. rewrite Rmult_1_l.
    apply abs_le in EQ. apply Rabs_le. rewrite HU in EQ. nra. }
  set (D := rnd B) in *.
  assert (999 / 1000 * B <= D) as HD by (apply abs_le in EQ; rewrite HU in EQ; lra).
  assert (0 < D) as HD0 by lra.
  set (nn := da * b + -1 * (a * db)) in *. set (M := Rabs (da * b) + Rabs (a * db)) in *.
  assert (0 <= M <= 2 * (K * K)) as HM.
  { unfold M. rewrite !Rabs_mult. pose proof (Rabs_pos a). pose proof (Rabs_pos b).
    pose proof (Rabs_pos da). pose proof (Rabs_pos db).
    assert (Rabs da * Rabs b <= K * K) by (apply Rmult_le_compat; auto).
    assert (Rabs a * Rabs db <= K * K) by (apply Rmult_le_compat; auto).
    assert (0 <= Rabs da * Rabs b) by (apply Rmult_le_pos; auto).
    assert (0 <= Rabs a * Rabs db) by (apply Rmult_le_pos; auto). lra. }
  assert (Rabs nn <= M) as HN0.
  { unfold nn, M. eapply Rle_trans; [apply Rabs_triang|]. rewrite (Rabs_mult (-1)).
    replace (Rabs (-1)) with 1 by (rewrite Rabs_left; lra). lra. }
  (* the quotient *)
  assert (/ D <= 1002 / 1000 * / B) as HID.
  { apply (Rmult_le_reg_l D); auto. rewrite Rinv_r by lra.
    replace (D * (1002 / 1000 * / B)) with (1002 / 1000 * (D * / B)) by ring.
    assert (999 / 1000 <= D * / B); [|lra].
    apply (Rmult_le_reg_r B); auto. rewrite Rmult_assoc, Rinv_l by lra. lra. }
  assert (0 < / D) as HID0 by (apply Rinv_0_lt_compat; auto).
  assert (0 < / B) as HIB0 by (apply Rinv_0_lt_compat; auto).
  assert (/ B <= K * K) as HIB.
  { replace (K * K) with (/ (/ K * / K)) by (field; lra). apply Rinv_le_contravar; [nra|auto]. }
  assert (Rabs (n / D - nn / B) <= (302 / 100 * ulp1 * M + 202 / 100 * tiny) * / B) as EQ2.
  { replace (n / D - nn / B) with ((n - nn) * / D + nn * (B - D) * / D * / B) by (field; lra).
    eapply Rle_trans; [apply Rabs_triang|]. rewrite !Rabs_mult, (Rabs_pos_eq (/ D)), (Rabs_pos_eq (/ B)) by lra.
    assert (Rabs nn * Rabs (B - D) * / D * / B <= M * ulp1 * (1002 / 1000 * / B)) as X1.
    { rewrite Rabs_minus_sym in EQ.
      assert (Rabs (B - D) * / B <= ulp1) as X2.
      { apply (Rmult_le_reg_r B); auto. rewrite Rmult_assoc, Rinv_l by lra. lra. }
      replace (Rabs nn * Rabs (B - D) * / D * / B) with (Rabs nn * (Rabs (B - D) * / B) * / D) by ring.
      assert (0 <= Rabs (B - D) * / B) by (apply Rmult_le_pos; [apply Rabs_pos|lra]).
      apply Rmult_le_compat; [apply Rmult_le_pos; auto using Rabs_pos|lra| |auto].
      apply Rmult_le_compat; auto using Rabs_pos. }
    assert (Rabs (n - nn) * / D <= (201 / 100 * ulp1 * M + 201 / 100 * tiny) * (1002 / 1000 * / B)) as X3.
    { apply Rmult_le_compat; auto using Rabs_pos; lra. }
    assert (0 <= ulp1 * M * / B) as Y1 by (apply Rmult_le_pos; [apply Rmult_le_pos; [rewrite HU|]|]; lra).
    assert (0 <= tiny * / B) as Y2 by (apply Rmult_le_pos; lra).
    nra. }
  assert (Rabs (nn / B) <= M * / B) as BQ0.
  { unfold Rdiv. rewrite Rabs_mult, (Rabs_pos_eq (/ B)) by lra. apply Rmult_le_compat_r; lra. }
  assert (0 <= M * / B) as HMB by (apply Rmult_le_pos; lra).
  assert (0 <= tiny * / B) as HTB by (apply Rmult_le_pos; lra).
  set (q := n / D) in *. set (q0 := nn / B) in *.
  replace ((302 / 100 * ulp1 * M + 202 / 100 * tiny) * / B)
    with (302 / 100 * ulp1 * (M * / B) + 202 / 100 * (tiny * / B)) in EQ2 by ring.
  assert (Rabs q <= 1001 / 1000 * (M * / B) + 202 / 100 * (tiny * / B)) as BQ.
  { apply abs_le in EQ2. apply abs_le in BQ0. apply Rabs_le. rewrite HU in EQ2. lra. }
  assert (M * / B <= 2 * (K * K) * (K * K)) as XM by (apply Rmult_le_compat; lra).
  assert (tiny * / B <= K * K) as XT.
  { rewrite <- (Rmult_1_l (K * K)). apply Rmult_le_compat; lra. }
  assert (Rabs q <= bpow radix2 1023) as BQ1 by nra.
  exists (rnd q). split.
  - rewrite E. cbn [f64ops f_div f_sub f_mul f_powi]. unfold q. apply f64_div; [exact Fn|exact FP|lra|exact BQ1].
  - pose proof (rnd_err q) as EF.
    replace (da * b - a * db) with nn by (unfold nn; ring). fold q0.
    replace (/ 2 ^ 50) with (8 * ulp1) by (unfold ulp1; lra). fold (M / B). change (M / B) with (M * / B).
    assert (202 / 100 * (tiny * / B) * 2 + tiny <= / 2 ^ 600) as TT.
    { assert (tiny * / B <= bpow radix2 (-674)) as Y1.
      { apply Rle_trans with (tiny * (K * K)); [apply Rmult_le_compat_l; lra|].
        rewrite tiny_pow. replace K with (bpow radix2 200) by (rewrite bpow_powerRZ; reflexivity).
        rewrite <- !bpow_plus. apply bpow_le. lia. }
      assert (tiny <= bpow radix2 (-674)) as Y2 by (rewrite tiny_pow; apply bpow_le; lia).
      replace (/ 2 ^ 600) with (bpow radix2 (-600)) by (rewrite bpow_powerRZ; reflexivity).
      replace (bpow radix2 (-600)) with (bpow radix2 74 * bpow radix2 (-674)) by (rewrite <- bpow_plus; reflexivity).
      assert (8 <= bpow radix2 74) by (replace 8 with (bpow radix2 3) by (cbn; lra); apply bpow_le; lia).
      pose proof (bpow_gt_0 radix2 (-674)). nra. }
    apply abs_le in EQ2. apply abs_le in EF. apply Rabs_le. rewrite HU in *. lra.
Qed.
End Methods64.
