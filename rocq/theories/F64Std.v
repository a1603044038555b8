(** What the standards prescribe for [pow] in binary64, and consequences for cbrt and hypot. *)
From Coq Require Import Reals Lra Lia ZArith Bool List SpecFloat Psatz.
From Flocq Require Import Core BinarySingleNaN.
From Verif Require Import Base Float FloatInst Operation Tape AContext Methods F64Facts EstF64 F64Ops.
Import ListNotations.
Local Open Scope R_scope.

(** C17 F.10.4.4, IEEE 754-2019 9.2.1: pow(x, y) is NaN for finite x < 0 and finite non-integer y;
    overflow gives infinity; pow(+inf, 1/2) = +inf. *)
Definition pow_std (T : libm) : Prop :=
  (forall x y a b, f64 x a -> f64 y b -> a < 0 -> (forall n : Z, b <> IZR n) -> l_powf T x y = S754_nan) /\
  (forall x y a b, f64 x a -> f64 y b -> 0 < a -> 2 ^ 1024 <= Rpower a b -> l_powf T x y = S754_infinity false) /\
  l_powf T (S754_infinity false) (sf_div (sf_of_Z 1) (sf_of_Z 2)) = S754_infinity false.

(** A correctly rounded libm with these properties. *)
Definition powf_std (x y : spec_float) : spec_float :=
  match x with
  | S754_infinity false => S754_infinity false
  | S754_finite true _ _ =>
      if Req_EM_T (IZR (Int_part (SF2R radix2 y))) (SF2R radix2 y)
      then sf_of_R (powerRZ (SF2R radix2 x) (Int_part (SF2R radix2 y))) else S754_nan
  | _ => sf_of_R (Rpower (SF2R radix2 x) (SF2R radix2 y))
  end.
Definition libm_std : libm :=
  mkLibm (real1 sin) (real1 cos) (real1 tan) (real1 exp) (real1 ln) (real1 asin) (real1 acos) (real1 atan) powf_std.

Lemma sf_of_R_overflow z : 2 ^ 1024 <= z -> sf_of_R z = S754_infinity false.
Proof.
  intros H. unfold sf_of_R. set (m := ZnearestE _). set (e := cexp _ _ _).
  pose proof (binary_normalize_correct _ _ Hprec64 Hmax64 mode_NE m e false) as C. cbv zeta in C.
  change (F2R (Float radix2 m e)) with (rnd z) in C. change (round radix2 _ _ ?y) with (rnd y) in C.
  assert (rnd (rnd z) = rnd z) as E.
  { apply round_generic; [apply valid_rnd_N|]. apply generic_format_round; [apply FLT_exp_valid, Hprec64|apply valid_rnd_N]. }
  rewrite E in C.
  assert (bpow radix2 1024 <= rnd z) as HB.
  { unfold rnd. apply round_ge_generic; [apply FLT_exp_valid, Hprec64|apply valid_rnd_N| |].
    - apply generic_format_bpow. unfold FLT_exp, emax64, prec64. lia.
    - rewrite bpow_powerRZ. exact H. }
  pose proof (bpow_gt_0 radix2 1024) as HP.
  assert (0 < rnd z) as HZ by lra.
  assert (Rlt_bool (Rabs (rnd z)) (bpow radix2 emax64) = false) as E2.
  { apply Rlt_bool_false. rewrite Rabs_pos_eq by (left; exact HZ). exact HB. }
  rewrite E2 in C. rewrite C. rewrite Rlt_bool_false by (left; exact HZ). reflexivity.
Qed.

Lemma f64_neg_shape x a : f64 x a -> a < 0 -> exists m e, x = S754_finite true m e.
Proof.
  intros (b & <- & Fb & <-) H. destruct b as [s|s| |s m e Be]; cbn [B2R B2SF is_finite] in *; try lra; try discriminate.
  destruct s; [eauto|]. exfalso. refine (Rlt_asym _ _ H _). apply F2R_gt_0. reflexivity.
Qed.
Lemma f64_pos_shape x a : f64 x a -> 0 < a -> exists m e, x = S754_finite false m e.
Proof.
  intros (b & <- & Fb & <-) H. destruct b as [s|s| |s m e Be]; cbn [B2R B2SF is_finite] in *; try lra; try discriminate.
  destruct s; [|eauto]. exfalso. refine (Rlt_asym _ _ H _). apply F2R_lt_0. reflexivity.
Qed.

Lemma libm_std_pow : pow_std libm_std.
Proof.
  repeat split.
  - intros x y a b Fx Fy Ha Hb. destruct (f64_neg_shape _ _ Fx Ha) as (m & e & ->).
    cbn [libm_std l_powf powf_std]. rewrite (f64_val _ _ Fy).
    destruct (Req_EM_T (IZR (Int_part b)) b) as [E|E]; [|reflexivity]. exfalso. symmetry in E. exact (Hb _ E).
  - intros x y a b Fx Fy Ha Hb. destruct (f64_pos_shape _ _ Fx Ha) as (m & e & ->).
    cbn [libm_std l_powf powf_std]. rewrite (f64_val _ _ Fx), (f64_val _ _ Fy). apply sf_of_R_overflow, Hb.
Qed.
Lemma libm_std_ok : libm_ok libm_std.
Proof.
  destruct libm_cr_ok as [H1 H2]. split; [exact H1|].
  intros x y a b Fx Fy Ha Hb. destruct (f64_pos_shape _ _ Fx ltac:(lra)) as (m & e & ->).
  apply (H2 _ _ _ _ Fx Fy Ha Hb).
Qed.

Section Std.
Context (T : libm) (HT : pow_std T) {F : Type} (tof : spec_float -> option F).
Context (x y r : AF spec_float) (w w' : world F) (a b : R).
Local Notation op2 o := (meth2 (f64ops T) (from_op (f64ops T) tof) (af_const (f64ops T)) o x y w).
Local Notation op1 o := (meth1 (f64ops T) (from_op (f64ops T) tof) (af_const (f64ops T)) o x w).

Lemma third_f64 : f64 (sf_div (sf_of_Z 1) (sf_of_Z 3)) (6004799503160661 * / 2 ^ 54).
Proof.
  exists (B754_finite (prec := prec64) (emax := emax64) false 6004799503160661 (-54) eq_refl).
  split; [vm_compute; reflexivity|]. split; [reflexivity|].
  cbn [B2R]. unfold F2R. cbn [Fnum Fexp cond_Zopp]. f_equal. cbn. lra.
Qed.

Lemma cbrt_negative : op1 UCbrt = Ok (r, w') -> f64 (af_v x) a -> a < 0 -> af_v r = S754_nan.
Proof.
  intros E Fx Ha. apply gen1 in E as ->. destruct HT as [H _]. apply (H _ _ _ _ Fx third_f64 Ha).
  intros n E. assert (0 < IZR n < 1) as [L1 L2] by (rewrite <- E; split; lra).
  apply lt_IZR in L1, L2. lia.
Qed.

Lemma square_overflows z c : f64 z c -> 2 ^ 512 <= c -> l_powf T z (sf_of_Z 2) = S754_infinity false.
Proof.
  intros Fz Hc. destruct HT as (_ & H & _).
  assert (0 < 2 ^ 512) as HP by (apply pow_lt; lra).
  apply (H _ _ c 2 Fz); [apply (f64_Z 2); lia|lra|].
  change (Rpower c 2) with (Rpower c (INR 2)). rewrite Rpower_pow by lra.
  replace (2 ^ 1024) with (2 ^ 512 * 2 ^ 512) by (rewrite <- pow_add; f_equal). cbn [pow]. nra.
Qed.

Lemma hypot_overflow : op2 BHypot = Ok (r, w') -> f64 (af_v x) a -> f64 (af_v y) b ->
  2 ^ 512 <= a -> 2 ^ 512 <= b -> af_v r = S754_infinity false.
Proof.
  intros E Fx Fy Ha Hb. apply gen2 in E as ->. cbn [f64ops f_powf f_of_Z f_add f_half].
  rewrite (square_overflows _ _ Fx Ha), (square_overflows _ _ Fy Hb).
  change (sf_add (S754_infinity false) (S754_infinity false)) with (S754_infinity false). apply HT.
Qed.
End Std.
