(** Proofs about the [f32] instance of Mixed.v. *)
From Coq Require Import Reals Lra Lia ZArith Bool List SpecFloat.
From Flocq Require Import Core BinarySingleNaN.
From Verif Require Import Base Float FloatInst Operation Tape AContext Methods Function
  Instances F64Facts Mixed.
Import ListNotations.
Local Open Scope R_scope.

#[global] Instance Hprec32 : FLX.Prec_gt_0 prec32 := eq_refl _.
#[global] Instance Hmax32 : Prec_lt_emax prec32 emax32 := eq_refl _.
Definition b32 := binary_float prec32 emax32.

(** [f32 x v]: x is a finite binary32 number of value v. *)
Definition f32 (x : spec_float) (v : R) : Prop :=
  exists b : b32, B2SF b = x /\ is_finite b = true /\ B2R b = v.

Lemma format_32_64 v :
  generic_format radix2 (FLT_exp (3 - emax32 - prec32) prec32) v ->
  generic_format radix2 (FLT_exp (3 - emax64 - prec64) prec64) v.
Proof.
  apply generic_inclusion_mag. intros _. unfold FLT_exp, emax32, prec32, emax64, prec64. lia.
Qed.

Theorem widen_exact x v : f32 x v -> f64 (widen x) v.
Proof.
  intros (b & <- & Fb & <-).
  destruct b as [s|s| |s m e Be]; try discriminate.
  - exists (B754_zero s). auto.
  - set (b := B754_finite s m e Be : b32).
    assert (generic_format radix2 (FLT_exp (3 - emax64 - prec64) prec64) (B2R b)) as G
      by (apply format_32_64; apply generic_format_B2R).
    assert (small (B2R b)) as Hs.
    { apply Rlt_le, Rlt_le_trans with (bpow radix2 emax32).
      - apply abs_B2R_lt_emax.
      - apply bpow_le. unfold emax32. lia. }
    change (widen (B2SF b))
      with (SpecFloat.binary_normalize prec64 emax64 (cond_Zopp s (Zpos m)) e s).
    rewrite normalize_equiv.
    pose proof (binary_normalize_correct prec64 emax64 Hprec64 Hmax64 mode_NE
      (cond_Zopp s (Zpos m)) e s) as C. cbv zeta in C.
    change (F2R {| Fnum := cond_Zopp s (Zpos m); Fexp := e |}) with (B2R b) in C.
    change (round radix2 _ _ (B2R b)) with (rnd (B2R b)) in C.
    rewrite rnd_fits in C by exact Hs. destruct C as (C1 & C2 & _).
    eexists. split; [reflexivity|]. split; [exact C2|]. rewrite C1.
    unfold rnd. apply round_generic; [apply valid_rnd_N|exact G].
Qed.

(** Numbers that are not finite stay what they are. *)
Theorem widen_special :
  widen S754_nan = S754_nan /\ (forall s, widen (S754_infinity s) = S754_infinity s) /\
  (forall s, widen (S754_zero s) = S754_zero s).
Proof. auto. Qed.

(** The number after 1 in [f32]. *)
Definition next_after_one : spec_float := S754_finite false 8388609 (-23).
Definition square : prog spec_float := Let2 BMul 0 0 (Ret [1%nat]).

(** Squared in single precision and in double precision, the result differs. *)
Theorem square_differs :
  exists t w' t' y y',
    record_prog (f32ops libm0) tof32 square [next_after_one] world0 = Ok (t, w') /\
    tape_y t = Ok y /\
    tape_zero_order d64 t (map (conv d64 tof32) [next_after_one]) = Ok t' /\
    tape_y t' = Ok y' /\ y' <> y.
Proof.
  eexists _, _, _, _, _. split; [vm_compute; reflexivity|].
  split; [vm_compute; reflexivity|]. split; [vm_compute; reflexivity|].
  split; [vm_compute; reflexivity|]. discriminate.
Qed.
