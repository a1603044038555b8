(** The arithmetic of FloatInst.v (SpecFloat's binary64) and the real numbers: results are
    correctly rounded.  Uses Flocq, whose definitions of the operations are SpecFloat's; the
    correspondences are proved as in Flocq.IEEE754.PrimFloat, but without primitive floats. *)
From Coq Require Import Reals Lra Lia ZArith Bool SpecFloat.
From Flocq Require Import Core Relative BinarySingleNaN.
From Verif Require Import Base Float FloatInst.
Local Open Scope R_scope.

#[global] Instance Hprec64 : FLX.Prec_gt_0 prec64 := eq_refl _.
#[global] Instance Hmax64 : Prec_lt_emax prec64 emax64 := eq_refl _.
Definition b64 := binary_float prec64 emax64.

(** [f64 x v]: x is a finite binary64 number of value v. *)
Definition f64 (x : spec_float) (v : R) : Prop :=
  exists b : b64, B2SF b = x /\ is_finite b = true /\ B2R b = v.

(** Rounding to nearest, ties to even. *)
Definition rnd (z : R) : R := round radix2 (FLT_exp (3 - emax64 - prec64) prec64) ZnearestE z.

Lemma round_nearest_even_equiv s m l : round_nearest_even m l = choice_mode mode_NE s m l.
Proof.
  case l; [reflexivity|intro c]. case c; [|reflexivity..].
  now simpl; unfold Round.cond_incr; case Z.even.
Qed.
Lemma round_aux_equiv sx mx ex lx : SpecFloat.binary_round_aux prec64 emax64 sx mx ex lx
  = BinarySingleNaN.binary_round_aux prec64 emax64 mode_NE sx mx ex lx.
Proof.
  unfold SpecFloat.binary_round_aux, BinarySingleNaN.binary_round_aux.
  set (mrse' := shr_fexp _ _ _ _ _). case mrse'; intros mrs' e'; simpl.
  now rewrite (round_nearest_even_equiv sx).
Qed.
Lemma round_equiv s m e : SpecFloat.binary_round prec64 emax64 s m e =
  BinarySingleNaN.binary_round prec64 emax64 mode_NE s m e.
Proof.
  unfold SpecFloat.binary_round, BinarySingleNaN.binary_round, shl_align_fexp.
  set (mez := shl_align _ _ _); case mez as [mz ez]. apply round_aux_equiv.
Qed.
Lemma normalize_equiv m e szero : SpecFloat.binary_normalize prec64 emax64 m e szero
  = B2SF (BinarySingleNaN.binary_normalize prec64 emax64 Hprec64 Hmax64 mode_NE m e szero).
Proof.
  case m as [|p|p]; [now simpl|..]; simpl; rewrite B2SF_SF2B; apply round_equiv.
Qed.

Lemma mul_equiv (x y : b64) : sf_mul (B2SF x) (B2SF y) = B2SF (Bmult mode_NE x y).
Proof.
  case x as [sx|sx| |sx mx ex Bx]; case y as [sy|sy| |sy my ey By]; [now trivial..|].
  simpl. rewrite B2SF_SF2B. apply round_aux_equiv.
Qed.
Lemma add_equiv (x y : b64) : sf_add (B2SF x) (B2SF y) = B2SF (Bplus mode_NE x y).
Proof.
  case x as [sx|sx| |sx mx ex Bx]; case y as [sy|sy| |sy my ey By];
    [now (trivial || simpl; case Bool.eqb)..|].
  apply normalize_equiv.
Qed.
Lemma sub_equiv (x y : b64) : sf_sub (B2SF x) (B2SF y) = B2SF (Bminus mode_NE x y).
Proof.
  case x as [sx|sx| |sx mx ex Bx]; case y as [sy|sy| |sy my ey By];
    [now (trivial || simpl; case Bool.eqb)..|].
  simpl. unfold Zminus. rewrite <- cond_Zopp_negb. apply normalize_equiv.
Qed.
Lemma div_equiv (x y : b64) : sf_div (B2SF x) (B2SF y) = B2SF (Bdiv mode_NE x y).
Proof.
  case x as [sx|sx| |sx mx ex Bx]; case y as [sy|sy| |sy my ey By];
    [now (trivial || simpl; case Bool.eqb)..|].
  simpl. rewrite B2SF_SF2B. set (melz := SFdiv_core_binary _ _ _ _ _ _).
  case melz as [[mz ez] lz]. apply round_aux_equiv.
Qed.
Lemma sqrt_equiv (x : b64) : sf_sqrt (B2SF x) = B2SF (Bsqrt mode_NE x).
Proof.
  case x as [sx|sx| |sx mx ex Bx]; [now (trivial || case sx)..|]. case sx; [reflexivity|].
  simpl. rewrite B2SF_SF2B. set (melz := SFsqrt_core_binary _ _ _ _).
  case melz as [[mz ez] lz]. apply round_aux_equiv.
Qed.

(** Results of moderate size do not overflow. *)
Lemma rnd_fits z : Rabs z <= bpow radix2 1023 -> Rlt_bool (Rabs (rnd z)) (bpow radix2 emax64) = true.
Proof.
  intros H. apply Rlt_bool_true. apply Rle_lt_trans with (bpow radix2 1023); [|apply bpow_lt; reflexivity].
  unfold rnd. apply abs_round_le_generic; auto.
  - apply FLT_exp_valid. exact Hprec64.
  - apply valid_rnd_N.
  - apply generic_format_bpow. unfold FLT_exp, emax64, prec64. lia.
Qed.
Notation small z := (Rabs z <= bpow radix2 1023).

Lemma f64_mul x y a b : f64 x a -> f64 y b -> small (a * b) -> f64 (sf_mul x y) (rnd (a * b)).
Proof.
  intros (bx & <- & Fx & <-) (b_y & <- & Fy & <-) H. pose proof (Bmult_correct _ _ _ _ mode_NE bx b_y) as C.
  fold rnd in C. change (round radix2 _ _ ?z) with (rnd z) in C. rewrite rnd_fits in C by exact H.
  destruct C as (C1 & C2 & _). exists (Bmult mode_NE bx b_y). rewrite mul_equiv, C1, C2, Fx, Fy. auto.
Qed.
(** the same when the result, though large, is representable *)
Lemma f64_mul_fits x y a b : f64 x a -> f64 y b -> Rabs (rnd (a * b)) < bpow radix2 emax64 ->
  f64 (sf_mul x y) (rnd (a * b)).
Proof.
  intros (bx & <- & Fx & <-) (b_y & <- & Fy & <-) H. pose proof (Bmult_correct _ _ _ _ mode_NE bx b_y) as C.
  change (round radix2 _ _ ?z) with (rnd z) in C. rewrite Rlt_bool_true in C by exact H.
  destruct C as (C1 & C2 & _). exists (Bmult mode_NE bx b_y). rewrite mul_equiv, C1, C2, Fx, Fy. auto.
Qed.
Lemma f64_add x y a b : f64 x a -> f64 y b -> small (a + b) -> f64 (sf_add x y) (rnd (a + b)).
Proof.
  intros (bx & <- & Fx & <-) (b_y & <- & Fy & <-) H. pose proof (Bplus_correct _ _ _ _ mode_NE bx b_y Fx Fy) as C.
  change (round radix2 _ _ ?z) with (rnd z) in C. rewrite rnd_fits in C by exact H.
  destruct C as (C1 & C2 & _). exists (Bplus mode_NE bx b_y). rewrite add_equiv, C1, C2. auto.
Qed.
Lemma f64_sub x y a b : f64 x a -> f64 y b -> small (a - b) -> f64 (sf_sub x y) (rnd (a - b)).
Proof.
  intros (bx & <- & Fx & <-) (b_y & <- & Fy & <-) H. pose proof (Bminus_correct _ _ _ _ mode_NE bx b_y Fx Fy) as C.
  change (round radix2 _ _ ?z) with (rnd z) in C. rewrite rnd_fits in C by exact H.
  destruct C as (C1 & C2 & _). exists (Bminus mode_NE bx b_y). rewrite sub_equiv, C1, C2. auto.
Qed.
Lemma f64_div x y a b : f64 x a -> f64 y b -> b <> 0 -> small (a / b) -> f64 (sf_div x y) (rnd (a / b)).
Proof.
  intros (bx & <- & Fx & <-) (b_y & <- & Fy & <-) N H. pose proof (Bdiv_correct _ _ _ _ mode_NE bx b_y N) as C.
  change (round radix2 _ _ ?z) with (rnd z) in C. rewrite rnd_fits in C by exact H.
  destruct C as (C1 & C2 & _). exists (Bdiv mode_NE bx b_y). rewrite div_equiv, C1, C2. auto.
Qed.
Lemma f64_sqrt x a : f64 x a -> 0 < a -> f64 (sf_sqrt x) (rnd (sqrt a)).
Proof.
  intros (bx & <- & Fx & <-) H. destruct (Bsqrt_correct _ _ _ _ mode_NE bx) as (C1 & C2 & _).
  exists (Bsqrt mode_NE bx). rewrite sqrt_equiv, C1, C2. split; [auto|]. split; [|reflexivity].
  destruct bx as [s|s| |s m e Be]; try easy. destruct s; auto. exfalso.
  cbn [B2R] in H. assert (F2R (Float radix2 (cond_Zopp true (Zpos m)) e) < 0); [|lra].
  apply F2R_lt_0. reflexivity.
Qed.
Lemma f64_opp x a : f64 x a -> f64 (SFopp x) (- a).
Proof.
  intros (bx & <- & Fx & <-). exists (Bopp bx). rewrite B2R_Bopp, is_finite_Bopp. split; auto.
  destruct bx; reflexivity.
Qed.
Lemma f64_abs x a : f64 x a -> f64 (SFabs x) (Rabs a).
Proof.
  intros (bx & <- & Fx & <-). exists (Babs bx). rewrite B2R_Babs, is_finite_Babs. split; auto.
  destruct bx; reflexivity.
Qed.
Lemma f64_of_Z n : small (IZR n) -> f64 (sf_of_Z n) (rnd (IZR n)).
Proof.
  intros H. exists (BinarySingleNaN.binary_normalize prec64 emax64 Hprec64 Hmax64 mode_NE n 0 false).
  pose proof (binary_normalize_correct _ _ Hprec64 Hmax64 mode_NE n 0 false) as C. cbv zeta in C.
  replace (F2R (Float radix2 n 0)) with (IZR n) in C by (unfold F2R; cbn; ring).
  change (round radix2 _ _ ?z) with (rnd z) in C. rewrite rnd_fits in C by exact H.
  destruct C as (C1 & C2 & _). rewrite C1, C2. split; [|auto].
  rewrite <- normalize_equiv. destruct n; reflexivity.
Qed.

(** ** Rounding errors *)
Lemma rnd_exact n : (Z.abs n <= 2 ^ 53)%Z -> rnd (IZR n) = IZR n.
Proof.
  intros H. apply round_generic; [apply valid_rnd_N|].
  replace (IZR n) with (F2R (Float radix2 n 0)) by (unfold F2R; cbn; ring).
  destruct (Z.eq_dec (Z.abs n) (2 ^ 53)) as [E|NE].
  - assert (n = 2 ^ 53 \/ n = - 2 ^ 53)%Z as [-> | ->] by lia.
    + replace (F2R (Float radix2 (2 ^ 53) 0)) with (bpow radix2 53) by (unfold F2R; cbn; lra).
      apply generic_format_bpow. unfold FLT_exp, emax64, prec64. lia.
    + replace (F2R (Float radix2 (- 2 ^ 53) 0)) with (- bpow radix2 53) by (unfold F2R; cbn; lra).
      apply generic_format_opp, generic_format_bpow. unfold FLT_exp, emax64, prec64. lia.
  - apply generic_format_FLT. exists (Float radix2 n 0); cbn [Fnum Fexp]; auto.
    + change (radix_val radix2) with 2%Z. unfold prec64. lia.
    + unfold emax64, prec64. lia.
Qed.

Lemma rnd_rel z : bpow radix2 (-1022) <= Rabs z -> Rabs (rnd z - z) <= / 2 ^ 53 * Rabs z.
Proof.
  intros H. unfold rnd. eapply Rle_trans; [apply relative_error_N_FLT; [exact Hprec64|exact H]|].
  apply Rmult_le_compat_r; [apply Rabs_pos|]. unfold prec64. cbn. lra.
Qed.
Lemma rnd_0 : rnd 0 = 0. Proof. apply round_0, valid_rnd_N. Qed.
