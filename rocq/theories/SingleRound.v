(** The arithmetic of [f32ops] (Mixed.v) is correctly rounded; as F64Facts.v and F64Ops.v, for
    single precision. *)
From Coq Require Import Reals Lra Lia ZArith Bool List SpecFloat.
From Flocq Require Import Core BinarySingleNaN.
From Verif Require Import Base Float FloatInst Operation Tape AContext Methods F64Facts F64Ops Mixed SingleFacts.
Import ListNotations.
Local Open Scope R_scope.

(** [x] is a finite single, and none is closer to [z]. *)
Definition nearest32 (x : spec_float) (z : R) : Prop :=
  exists v, f32 x v /\ forall y u, f32 y u -> Rabs (v - z) <= Rabs (u - z).

Definition rnd32 (z : R) : R := round radix2 (FLT_exp (3 - emax32 - prec32) prec32) ZnearestE z.

Lemma round_aux_equiv32 sx mx ex lx : SpecFloat.binary_round_aux prec32 emax32 sx mx ex lx
  = BinarySingleNaN.binary_round_aux prec32 emax32 mode_NE sx mx ex lx.
Proof.
  unfold SpecFloat.binary_round_aux, BinarySingleNaN.binary_round_aux.
  set (mrse' := shr_fexp _ _ _ _ _). case mrse'; intros mrs' e'; simpl.
  now rewrite (round_nearest_even_equiv sx).
Qed.
Lemma round_equiv32 s m e : SpecFloat.binary_round prec32 emax32 s m e =
  BinarySingleNaN.binary_round prec32 emax32 mode_NE s m e.
Proof.
  unfold SpecFloat.binary_round, BinarySingleNaN.binary_round, shl_align_fexp.
  set (mez := shl_align _ _ _); case mez as [mz ez]. apply round_aux_equiv32.
Qed.
Lemma normalize_equiv32 m e szero : SpecFloat.binary_normalize prec32 emax32 m e szero
  = B2SF (BinarySingleNaN.binary_normalize prec32 emax32 Hprec32 Hmax32 mode_NE m e szero).
Proof.
  case m as [|p|p]; [now simpl|..]; simpl; rewrite B2SF_SF2B; apply round_equiv32.
Qed.
Lemma mul_equiv32 (x y : b32) : SFmul prec32 emax32 (B2SF x) (B2SF y) = B2SF (Bmult mode_NE x y).
Proof.
  case x as [sx|sx| |sx mx ex Bx]; case y as [sy|sy| |sy my ey By]; [now trivial..|].
  simpl. rewrite B2SF_SF2B. apply round_aux_equiv32.
Qed.
Lemma add_equiv32 (x y : b32) : SFadd prec32 emax32 (B2SF x) (B2SF y) = B2SF (Bplus mode_NE x y).
Proof.
  case x as [sx|sx| |sx mx ex Bx]; case y as [sy|sy| |sy my ey By];
    [now (trivial || simpl; case Bool.eqb)..|].
  apply normalize_equiv32.
Qed.
Lemma sub_equiv32 (x y : b32) : SFsub prec32 emax32 (B2SF x) (B2SF y) = B2SF (Bminus mode_NE x y).
Proof.
  case x as [sx|sx| |sx mx ex Bx]; case y as [sy|sy| |sy my ey By];
    [now (trivial || simpl; case Bool.eqb)..|].
  simpl. unfold Zminus. rewrite <- cond_Zopp_negb. apply normalize_equiv32.
Qed.
Lemma div_equiv32 (x y : b32) : SFdiv prec32 emax32 (B2SF x) (B2SF y) = B2SF (Bdiv mode_NE x y).
Proof.
  case x as [sx|sx| |sx mx ex Bx]; case y as [sy|sy| |sy my ey By];
    [now (trivial || simpl; case Bool.eqb)..|].
  simpl. rewrite B2SF_SF2B. set (melz := SFdiv_core_binary _ _ _ _ _ _).
  case melz as [[mz ez] lz]. apply round_aux_equiv32.
Qed.

Lemma rnd32_fits z : Rabs z <= bpow radix2 127 -> Rlt_bool (Rabs (rnd32 z)) (bpow radix2 emax32) = true.
Proof.
  intros H. apply Rlt_bool_true. apply Rle_lt_trans with (bpow radix2 127); [|apply bpow_lt; reflexivity].
  unfold rnd32. apply abs_round_le_generic; auto.
  - apply FLT_exp_valid. exact Hprec32.
  - apply valid_rnd_N.
  - apply generic_format_bpow. unfold FLT_exp, emax32, prec32. lia.
Qed.
Notation small32 z := (Rabs z <= bpow radix2 127).

Lemma f32_mul x y a b : f32 x a -> f32 y b -> small32 (a * b) -> f32 (SFmul prec32 emax32 x y) (rnd32 (a * b)).
Proof.
  intros (bx & <- & Fx & <-) (b_y & <- & Fy & <-) H. pose proof (Bmult_correct _ _ _ _ mode_NE bx b_y) as C.
  change (round radix2 _ _ ?z) with (rnd32 z) in C. rewrite rnd32_fits in C by exact H.
  destruct C as (C1 & C2 & _). exists (Bmult mode_NE bx b_y). rewrite mul_equiv32, C1, C2, Fx, Fy. auto.
Qed.
Lemma f32_add x y a b : f32 x a -> f32 y b -> small32 (a + b) -> f32 (SFadd prec32 emax32 x y) (rnd32 (a + b)).
Proof.
  intros (bx & <- & Fx & <-) (b_y & <- & Fy & <-) H. pose proof (Bplus_correct _ _ _ _ mode_NE bx b_y Fx Fy) as C.
  change (round radix2 _ _ ?z) with (rnd32 z) in C. rewrite rnd32_fits in C by exact H.
  destruct C as (C1 & C2 & _). exists (Bplus mode_NE bx b_y). rewrite add_equiv32, C1, C2. auto.
Qed.
Lemma f32_sub x y a b : f32 x a -> f32 y b -> small32 (a - b) -> f32 (SFsub prec32 emax32 x y) (rnd32 (a - b)).
Proof.
  intros (bx & <- & Fx & <-) (b_y & <- & Fy & <-) H. pose proof (Bminus_correct _ _ _ _ mode_NE bx b_y Fx Fy) as C.
  change (round radix2 _ _ ?z) with (rnd32 z) in C. rewrite rnd32_fits in C by exact H.
  destruct C as (C1 & C2 & _). exists (Bminus mode_NE bx b_y). rewrite sub_equiv32, C1, C2. auto.
Qed.
Lemma f32_div x y a b : f32 x a -> f32 y b -> b <> 0 -> small32 (a / b) -> f32 (SFdiv prec32 emax32 x y) (rnd32 (a / b)).
Proof.
  intros (bx & <- & Fx & <-) (b_y & <- & Fy & <-) N H. pose proof (Bdiv_correct _ _ _ _ mode_NE bx b_y N) as C.
  change (round radix2 _ _ ?z) with (rnd32 z) in C. rewrite rnd32_fits in C by exact H.
  destruct C as (C1 & C2 & _). exists (Bdiv mode_NE bx b_y). rewrite div_equiv32, C1, C2. auto.
Qed.
Lemma f32_abs x a : f32 x a -> f32 (SFabs x) (Rabs a).
Proof.
  intros (bx & <- & Fx & <-). exists (Babs bx). rewrite B2R_Babs, is_finite_Babs. split; auto.
  destruct bx; reflexivity.
Qed.
Lemma f32_opp x a : f32 x a -> f32 (SFopp x) (- a).
Proof.
  intros (bx & <- & Fx & <-). exists (Bopp bx). rewrite B2R_Bopp, is_finite_Bopp. split; auto.
  destruct bx; reflexivity.
Qed.
Lemma f32_mul_fits x y a b : f32 x a -> f32 y b -> Rabs (rnd32 (a * b)) < bpow radix2 emax32 ->
  f32 (SFmul prec32 emax32 x y) (rnd32 (a * b)).
Proof.
  intros (bx & <- & Fx & <-) (b_y & <- & Fy & <-) H. pose proof (Bmult_correct _ _ _ _ mode_NE bx b_y) as C.
  change (round radix2 _ _ ?z) with (rnd32 z) in C. rewrite Rlt_bool_true in C by exact H.
  destruct C as (C1 & C2 & _). exists (Bmult mode_NE bx b_y). rewrite mul_equiv32, C1, C2, Fx, Fy. auto.
Qed.
Lemma one_f32 : f32 (sf32_of_Z 1) 1.
Proof.
  assert (valid_binary prec32 emax32 (sf32_of_Z 1) = true) as V by (vm_compute; reflexivity).
  exists (SF2B (sf32_of_Z 1) V). split; [apply B2SF_SF2B|]. split; [rewrite is_finite_SF2B; vm_compute; reflexivity|].
  rewrite B2R_SF2B. replace (sf32_of_Z 1) with (S754_finite false 8388608 (-23)) by (vm_compute; reflexivity).
  unfold SF2R, F2R. cbn. lra.
Qed.
Lemma f32_fmt x a : f32 x a -> generic_format radix2 (FLT_exp (3 - emax32 - prec32) prec32) a.
Proof. intros (b & _ & _ & <-). apply generic_format_B2R. Qed.
Lemma rnd32_nearest x z : f32 x (rnd32 z) -> nearest32 x z.
Proof.
  intros H. exists (rnd32 z). split; [exact H|]. intros y u Hu.
  assert (Rnd_N_pt (generic_format radix2 (FLT_exp (3 - emax32 - prec32) prec32)) z (rnd32 z)) as [_ HN].
  { apply round_N_pt. apply FLT_exp_valid, Hprec32. }
  rewrite !(Rabs_minus_sym _ z). rewrite (Rabs_minus_sym z (rnd32 z)), (Rabs_minus_sym z u).
  apply HN. apply f32_fmt with y. exact Hu.
Qed.

Section Single.
Context (T : libm) {F : Type} (tof : spec_float -> option F) (x y r : AF spec_float) (w w' : world F) (a b : R).

Theorem basic_binary32 o f : meth2 (f32ops T) (from_op (f32ops T) tof) (af_const (f32ops T)) o x y w = Ok (r, w') ->
  In (o, f) [(BAdd, Rplus); (BSub, Rminus); (BMul, Rmult); (BDiv, Rdiv)] ->
  f32 (af_v x) a -> f32 (af_v y) b -> (o = BDiv -> b <> 0) -> Rabs (f a b) <= 2 ^ 127 ->
  nearest32 (af_v r) (f a b).
Proof.
  intros E HI Fx Fy Hz HB. apply gen2 in E.
  replace (2 ^ 127) with (bpow radix2 127) in * by (rewrite bpow_powerRZ; reflexivity).
  apply rnd32_nearest.
  destruct HI as [H|[H|[H|[H|[]]]]]; injection H as <- <-; destruct E as [-> _]; cbn [f32ops f_add f_sub f_mul f_div].
  - apply f32_add; auto.
  - apply f32_sub; auto.
  - apply f32_mul; auto.
  - apply f32_div; auto.
Qed.
Theorem basic_dv_binary32 o f da db : meth2 (f32ops T) (from_op (f32ops T) tof) (af_const (f32ops T)) o x y w = Ok (r, w') ->
  In (o, f) [(BAdd, Rplus); (BSub, Rminus)] ->
  f32 (af_dv x) da -> f32 (af_dv y) db -> Rabs (f da db) <= 2 ^ 127 ->
  nearest32 (af_dv r) (f da db).
Proof.
  intros E HI Fx Fy HB. apply gen2 in E.
  replace (2 ^ 127) with (bpow radix2 127) in * by (rewrite bpow_powerRZ; reflexivity).
  apply rnd32_nearest.
  destruct HI as [H|[H|[]]]; injection H as <- <-; destruct E as [_ ->]; cbn [f32ops f_add f_sub f_mul f_div].
  - apply f32_add; auto.
  - apply f32_sub; auto.
Qed.
Theorem abs_binary32 : meth1 (f32ops T) (from_op (f32ops T) tof) (af_const (f32ops T)) UAbs x w = Ok (r, w') ->
  f32 (af_v x) a -> f32 (af_v r) (Rabs a).
Proof. intros E Fx. apply gen1 in E as ->. apply f32_abs, Fx. Qed.
Theorem neg_binary32 : meth1 (f32ops T) (from_op (f32ops T) tof) (af_const (f32ops T)) UNeg x w = Ok (r, w') ->
  f32 (af_v x) a -> f32 (af_v r) (- a).
Proof.
  intros E Fx. apply gen1 in E as [-> _]. cbn [f32ops f_add f_sub f_mul f_div f_zero f_one].
  assert (f32 (SFsub prec32 emax32 (S754_zero false) (sf32_of_Z 1)) (-1)) as F1.
  { replace (-1) with (- (1)) by lra.
    replace (SFsub prec32 emax32 (S754_zero false) (sf32_of_Z 1)) with (SFopp (sf32_of_Z 1)) by (vm_compute; reflexivity).
    apply f32_opp, one_f32. }
  pose proof (f32_opp _ _ Fx) as FO. replace (- a) with (-1 * a) by ring.
  assert (forall z, f32 (SFopp (af_v x)) z -> rnd32 z = z) as RI
    by (intros z H; apply round_generic; [apply valid_rnd_N|eapply f32_fmt; eauto]).
  assert (rnd32 (-1 * a) = -1 * a) as <- by (replace (-1 * a) with (- a) by ring; apply RI, FO).
  apply f32_mul_fits; auto. replace (-1 * a) with (- a) by ring. rewrite (RI _ FO), Rabs_Ropp.
  destruct Fx as (b0 & _ & _ & <-). apply abs_B2R_lt_emax.
Qed.
End Single.
