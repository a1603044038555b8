(** The constants of AFloat as the start of a search for a minimum or maximum (C99). *)
From Coq Require Import Reals Lra Lia List Arith ZArith Bool String SpecFloat.
From Flocq Require Import Core Digits BinarySingleNaN.
From Verif Require Import Base Float FloatInst Operation AContext Methods MethodFacts Instances F64Facts F64Ops Traits TraitsSpec TraitsFacts.
Local Open Scope R_scope.

Definition big64 : spec_float := S754_finite false 9007199254740991 971.
Lemma big_f64 : f64 big64 largest.
Proof. rewrite largest_val. apply (f64_finite false). reflexivity. Qed.
Lemma big_fmt : generic_format radix2 (FLT_exp (3 - emax64 - prec64) prec64) largest.
Proof. apply f64_fmt with big64, big_f64. Qed.
Lemma big_pos : 0 < largest.
Proof. rewrite largest_val. apply Rmult_lt_0_compat; [apply IZR_lt; lia|apply bpow_gt_0]. Qed.
Lemma big_mag : mag radix2 largest = 1024%Z :> Z.
Proof.
  apply mag_unique_pos. rewrite largest_val. split.
  - change (1024 - 1)%Z with (52 + 971)%Z. rewrite bpow_plus. apply Rmult_le_compat_r; [apply bpow_ge_0|].
    change (bpow radix2 52) with (IZR (2 ^ 52)). apply IZR_le. lia.
  - change 1024%Z with (53 + 971)%Z. rewrite bpow_plus. apply Rmult_lt_compat_r; [apply bpow_gt_0|].
    change (bpow radix2 53) with (IZR (2 ^ 53)). apply IZR_lt. lia.
Qed.
Lemma big_ulp : ulp radix2 (FLT_exp (3 - emax64 - prec64) prec64) largest = bpow radix2 971.
Proof. rewrite ulp_neq_0 by (pose proof big_pos; lra). unfold cexp. rewrite big_mag. reflexivity. Qed.
Lemma absorb a : Rabs a <= 2 ^ 969 -> rnd (largest + a) = largest.
Proof.
  intros H. rewrite pow_bpow in H. change (Z.of_nat 969) with 969%Z in H. apply Rabs_le_inv in H.
  assert (bpow radix2 971 = 4 * bpow radix2 969) as E4 by (change 971%Z with (2 + 969)%Z; rewrite bpow_plus; reflexivity).
  pose proof (bpow_gt_0 radix2 969) as HP. pose proof big_pos as BP.
  assert (Valid_exp (FLT_exp (3 - emax64 - prec64) prec64)) as VE by (apply FLT_exp_valid, Hprec64).
  assert (Monotone_exp (FLT_exp (3 - emax64 - prec64) prec64)) as ME by apply FLT_exp_monotone.
  unfold rnd. apply Rle_antisym.
  - apply round_N_le_midp; [exact VE|apply big_fmt|]. rewrite succ_eq_pos by lra. rewrite big_ulp, E4. lra.
  - apply round_N_ge_midp; [exact VE|apply big_fmt|]. rewrite pred_eq_pos by lra. unfold pred_pos. rewrite big_mag.
    rewrite Req_bool_false.
    + rewrite big_ulp, E4. lra.
    + rewrite largest_val. change (1024 - 1)%Z with (52 + 971)%Z. rewrite bpow_plus. intros E.
      apply Rmult_eq_reg_r in E; [|pose proof (bpow_gt_0 radix2 971); lra]. change (bpow radix2 52) with (IZR (2 ^ 52)) in E. apply eq_IZR in E. discriminate.
Qed.
Lemma big_fits : Rabs largest < bpow radix2 1024.
Proof. rewrite <- big_mag. apply bpow_mag_gt. Qed.

Lemma f64_add_fits x y a b : f64 x a -> f64 y b -> Rabs (rnd (a + b)) < bpow radix2 emax64 -> f64 (sf_add x y) (rnd (a + b)).
Proof.
  intros (bx & <- & Fx & <-) (b_y & <- & Fy & <-) H. pose proof (Bplus_correct _ _ _ _ mode_NE bx b_y Fx Fy) as C.
  change (round radix2 _ _ ?z) with (rnd z) in C. rewrite Rlt_bool_true in C by exact H.
  destruct C as (C1 & C2 & _). exists (Bplus mode_NE bx b_y). rewrite add_equiv, C1, C2. auto.
Qed.
Lemma f64_sub_fits x y a b : f64 x a -> f64 y b -> Rabs (rnd (a - b)) < bpow radix2 emax64 -> f64 (sf_sub x y) (rnd (a - b)).
Proof.
  intros (bx & <- & Fx & <-) (b_y & <- & Fy & <-) H. pose proof (Bminus_correct _ _ _ _ mode_NE bx b_y Fx Fy) as C.
  change (round radix2 _ _ ?z) with (rnd z) in C. rewrite Rlt_bool_true in C by exact H.
  destruct C as (C1 & C2 & _). exists (Bminus mode_NE bx b_y). rewrite sub_equiv, C1, C2. auto.
Qed.
Lemma rnd_opp z : rnd (- z) = - rnd z.
Proof. unfold rnd. rewrite <- round_NE_opp. reflexivity. Qed.
Lemma half_zero x : f64 x 0 -> f64 (sf_mul (sf_div (sf_of_Z 1) (sf_of_Z 2)) x) 0.
Proof. intros [(s & -> & _)|(s & m & e & -> & H & E)]%f64_inv; [destruct s; apply f64_zero|].
  exfalso. apply (f_equal Rabs) in E. rewrite abs_val, Rabs_R0 in E. pose proof (bpow_gt_0 radix2 e).
  assert (0 < IZR (Z.pos m)) by (apply IZR_lt; lia). pose proof (Rmult_lt_0_compat _ _ H1 H0). lra.
Qed.
Lemma small_zero : Rabs (0 : R) <= bpow radix2 1023.
Proof. rewrite Rabs_R0. apply bpow_ge_0. Qed.

Section Search.
Context {F : Type} (T : libm) (tof : spec_float -> option F).
Context (nan_neg : bool) (nan_bits : Z) (parse : string -> Z -> option spec_float).
Let T64 := traits64 nan_neg nan_bits parse.
Let op2 o := meth2 (f64ops T) (from_op (f64ops T) tof) (af_const (f64ops T)) o.

(** [fold(S::max_value(), S::min)] and [fold(S::min_value(), S::max)] start with 0 *)
Theorem min_with_max_value (x y r : AF spec_float) w w' a : f64 (af_v x) a -> Rabs a <= 2 ^ 969 ->
  (op2 BMin x y w = Ok (r, w') -> af_v y = t_max_value T64 -> f64 (af_v r) 0) /\
  (op2 BMin y x w = Ok (r, w') -> af_v y = t_max_value T64 -> f64 (af_v r) 0) /\
  (op2 BMax x y w = Ok (r, w') -> af_v y = t_min_value T64 -> f64 (af_v r) 0) /\
  (op2 BMax y x w = Ok (r, w') -> af_v y = t_min_value T64 -> f64 (af_v r) 0).
Proof.
  intros Ha Sa. pose proof big_f64 as HB. pose proof big_fits as BF. pose proof big_pos as BP.
  assert (f64 (SFopp big64) (- largest)) as HN by (apply f64_opp, HB). cbn in HN. fold big64 in HN.
  assert (Rabs (- a) <= 2 ^ 969) as Sa' by (rewrite Rabs_Ropp; exact Sa).
  assert (Rabs (- largest) < bpow radix2 1024) as BF' by (rewrite Rabs_Ropp; exact BF).
  pose proof (absorb a Sa) as A1. pose proof (absorb (- a) Sa') as A2.
  assert (rnd (a + largest) = largest) as B1 by (rewrite Rplus_comm; exact A1).
  assert (rnd (a - largest) = - largest) as B2 by (rewrite <- A2 at 2; rewrite <- rnd_opp; f_equal; ring).
  assert (rnd (largest - a) = largest) as B3 by exact A2.
  assert (rnd (a + - largest) = - largest) as B4 by exact B2.
  assert (rnd (- largest + a) = - largest) as B5 by (rewrite Rplus_comm; exact B2).
  assert (rnd (a - - largest) = largest) as B6 by (rewrite <- A1 at 2; f_equal; ring).
  assert (rnd (- largest - a) = - largest) as B7 by (rewrite <- A1 at 2; rewrite <- rnd_opp; f_equal; ring).
  assert (rnd (largest - largest) = 0) as B8 by (rewrite Rminus_diag_eq by reflexivity; apply rnd_0).
  assert (rnd (- largest + largest) = 0) as B9 by (rewrite Rplus_opp_l; apply rnd_0).
  unfold op2. repeat split; intros E Ey; apply gen2 in E; rewrite E, Ey; clear E Ey;
    cbn [f64ops f_half f_mul f_add f_sub f_abs t_max_value t_min_value T64 traits64]; apply half_zero.
  - assert (f64 (sf_add (af_v x) big64) largest) as K1 by (rewrite <- B1; apply f64_add_fits; auto; rewrite B1; exact BF).
    assert (f64 (sf_sub (af_v x) big64) (- largest)) as K2 by (rewrite <- B2; apply f64_sub_fits; auto; rewrite B2; exact BF').
    apply f64_abs in K2. rewrite Rabs_Ropp, Rabs_pos_eq in K2 by lra.
    rewrite <- B8. apply f64_sub; auto. rewrite Rminus_diag_eq by reflexivity. apply small_zero.
  - assert (f64 (sf_add big64 (af_v x)) largest) as K1 by (rewrite <- A1; apply f64_add_fits; auto; rewrite A1; exact BF).
    assert (f64 (sf_sub big64 (af_v x)) largest) as K2 by (rewrite <- B3; apply f64_sub_fits; auto; rewrite B3; exact BF).
    apply f64_abs in K2. rewrite Rabs_pos_eq in K2 by lra.
    rewrite <- B8. apply f64_sub; auto. rewrite Rminus_diag_eq by reflexivity. apply small_zero.
  - assert (f64 (sf_add (af_v x) (SFopp big64)) (- largest)) as K1 by (rewrite <- B4; apply f64_add_fits; auto; rewrite B4; exact BF').
    assert (f64 (sf_sub (af_v x) (SFopp big64)) largest) as K2 by (rewrite <- B6; apply f64_sub_fits; auto; rewrite B6; exact BF).
    apply f64_abs in K2. rewrite Rabs_pos_eq in K2 by lra.
    rewrite <- B9. apply f64_add; auto. rewrite Rplus_opp_l. apply small_zero.
  - assert (f64 (sf_add (SFopp big64) (af_v x)) (- largest)) as K1 by (rewrite <- B5; apply f64_add_fits; auto; rewrite B5; exact BF').
    assert (f64 (sf_sub (SFopp big64) (af_v x)) (- largest)) as K2 by (rewrite <- B7; apply f64_sub_fits; auto; rewrite B7; exact BF').
    apply f64_abs in K2. rewrite Rabs_Ropp, Rabs_pos_eq in K2 by lra.
    rewrite <- B9. apply f64_add; auto. rewrite Rplus_opp_l. apply small_zero.
Qed.

(** [fold(S::infinity(), S::min)] and [fold(S::neg_infinity(), S::max)] are NaN *)
Theorem min_with_infinity (x y r : AF spec_float) w w' a : f64 (af_v x) a ->
  (op2 BMin x y w = Ok (r, w') -> af_v y = t_infinity T64 -> af_v r = t_nan T64) /\
  (op2 BMin y x w = Ok (r, w') -> af_v y = t_infinity T64 -> af_v r = t_nan T64) /\
  (op2 BMax x y w = Ok (r, w') -> af_v y = t_neg_infinity T64 -> af_v r = t_nan T64) /\
  (op2 BMax y x w = Ok (r, w') -> af_v y = t_neg_infinity T64 -> af_v r = t_nan T64).
Proof.
  intros H. unfold op2. repeat split; intros E Ey; apply gen2 in E; rewrite E, Ey; clear E Ey;
    apply f64_inv in H as [([] & -> & _)|([] & m & e & -> & _)]; reflexivity.
Qed.
End Search.
