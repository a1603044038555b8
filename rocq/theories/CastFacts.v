(** Conversions to integers, exactly. *)
From Coq Require Import Reals Lra List ZArith Bool Lia SpecFloat.
From Flocq Require Import Core IEEE754.BinarySingleNaN.
From Verif Require Import Base Float AContext FloatInst Cast.
Import ListNotations.
Local Open Scope Z_scope.

(** [z] is the real number [r] rounded toward zero. *)
Definition truncation (r : R) (z : Z) : Prop :=
  ((0 <= r)%R -> (IZR z <= r < IZR z + 1)%R) /\ ((r <= 0)%R -> (IZR z - 1 < r <= IZR z)%R).
Definition is_fin (x : spec_float) : Prop :=
  match x with S754_zero _ | S754_finite _ _ _ => True | _ => False end.

Lemma truncation_unique r z z' : truncation r z -> truncation r z' -> z = z'.
Proof.
  intros [A B] [A' B']. destruct (Rle_dec 0 r) as [H|H].
  - specialize (A H). specialize (A' H). destruct A, A'.
    assert (IZR z < IZR (z' + 1))%R as K1 by (rewrite plus_IZR; lra).
    assert (IZR z' < IZR (z + 1))%R as K2 by (rewrite plus_IZR; lra).
    apply lt_IZR in K1, K2. lia.
  - assert (r <= 0)%R as H' by lra. specialize (B H'). specialize (B' H'). destruct B, B'.
    assert (IZR (z - 1) < IZR z')%R as K1 by (rewrite minus_IZR; lra).
    assert (IZR (z' - 1) < IZR z)%R as K2 by (rewrite minus_IZR; lra).
    apply lt_IZR in K1, K2. lia.
Qed.

Lemma mag_trunc m e : let a := if 0 <=? e then Zpos m * 2 ^ e else Zpos m / 2 ^ (- e) in
  0 <= a /\ (IZR a <= F2R (Float radix2 (Zpos m) e) < IZR a + 1)%R.
Proof.
  cbn zeta. destruct (Z.leb_spec 0 e) as [H|H].
  - assert (F2R (Float radix2 (Zpos m) e) = IZR (Zpos m * 2 ^ e)) as ->.
    { unfold F2R. cbn [Fnum Fexp]. rewrite mult_IZR. f_equal. rewrite <- IZR_Zpower by lia. reflexivity. }
    split; [|lra]. assert (0 < 2 ^ e) by (apply Z.pow_pos_nonneg; lia). nia.
  - assert (0 < 2 ^ (- e)) as P by (apply Z.pow_pos_nonneg; lia).
    assert (F2R (Float radix2 (Zpos m) e) = IZR (Zpos m) / IZR (2 ^ (- e)))%R as ->.
    { unfold F2R. cbn [Fnum Fexp]. unfold Rdiv. f_equal.
      assert (IZR (2 ^ (- e)) = bpow radix2 (- e)) as -> by (rewrite <- IZR_Zpower by lia; reflexivity).
      now rewrite bpow_opp, Rinv_inv. }
    split; [apply Z.div_pos; lia|]. pose proof (Z.div_mod (Zpos m) (2 ^ (- e)) ltac:(lia)) as D.
    pose proof (Z.mod_pos_bound (Zpos m) (2 ^ (- e)) P) as B.
    set (q := Zpos m / 2 ^ (- e)) in *. set (d := 2 ^ (- e)) in *. set (r := Zpos m mod d) in *.
    assert (0 < IZR d)%R as Pd by (apply IZR_lt; exact P).
    rewrite D, plus_IZR, mult_IZR.
    assert (0 <= IZR r < IZR d)%R as [R1 R2] by (split; [apply IZR_le; lia|apply IZR_lt; lia]).
    split.
    + apply Rmult_le_reg_r with (IZR d); [exact Pd|]. unfold Rdiv. rewrite Rmult_assoc, Rinv_l by lra. lra.
    + apply Rmult_lt_reg_r with (IZR d); [exact Pd|]. unfold Rdiv. rewrite Rmult_assoc, Rinv_l by lra. lra.
Qed.

Lemma trunc_exact x z : sf_trunc x = Some z <-> is_fin x /\ truncation (SF2R radix2 x) z.
Proof.
  assert (forall y, is_fin y -> exists w, sf_trunc y = Some w /\ truncation (SF2R radix2 y) w) as H.
  { intros [s|s| |s m e]; cbn [is_fin]; intros F; try contradiction.
    - exists 0. split; [reflexivity|]. cbn. split; intros; lra.
    - cbn [sf_trunc]. eexists. split; [reflexivity|]. pose proof (mag_trunc m e) as M. cbn zeta in M.
      set (a := if 0 <=? e then Zpos m * 2 ^ e else Zpos m / 2 ^ (- e)) in *. clearbody a. destruct M as [M0 [M1 M2]].
      assert (0 < F2R (Float radix2 (Zpos m) e))%R as P by (apply F2R_gt_0; reflexivity).
      assert (SF2R radix2 (S754_finite s m e) = (if s then - F2R (Float radix2 (Zpos m) e) else F2R (Float radix2 (Zpos m) e))%R) as ->.
      { cbn. destruct s; [|reflexivity]. rewrite <- F2R_Zopp. reflexivity. }
      assert (0 <= IZR a)%R by (apply IZR_le; lia).
      split; intros K; destruct s; rewrite ?opp_IZR; lra. }
  split.
  - intros E. assert (is_fin x) as F by (destruct x; cbn in *; try discriminate; exact Logic.I).
    split; [exact F|]. destruct (H _ F) as (w & E1 & T). congruence.
  - intros [F T]. destruct (H _ F) as (w & E1 & T'). rewrite E1. f_equal. eapply truncation_unique; eauto.
Qed.

Theorem to_i64_exact (x : AF spec_float) z : af_to_i64 x = Some z <->
  is_fin (af_v x) /\ truncation (SF2R radix2 (af_v x)) z /\ - 2 ^ 63 <= z < 2 ^ 63.
Proof.
  unfold af_to_i64, f64_to_i64. split.
  - destruct (sf_trunc (af_v x)) as [w|] eqn:E; [|discriminate].
    destruct (Z.leb_spec (- 2 ^ 63) w), (Z.ltb_spec w (2 ^ 63)); cbn [andb]; try discriminate. intros [= ->].
    apply trunc_exact in E as [F T]. auto.
  - intros (F & T & B). rewrite (proj2 (trunc_exact _ z) (conj F T)).
    destruct (Z.leb_spec (- 2 ^ 63) z), (Z.ltb_spec z (2 ^ 63)); try lia. reflexivity.
Qed.
Theorem to_u64_exact (x : AF spec_float) z : af_to_u64 x = Some z <->
  is_fin (af_v x) /\ truncation (SF2R radix2 (af_v x)) z /\ 0 <= z < 2 ^ 64.
Proof.
  unfold af_to_u64, f64_to_u64. split.
  - destruct (sf_trunc (af_v x)) as [w|] eqn:E; [|discriminate].
    destruct (Z.leb_spec 0 w), (Z.ltb_spec w (2 ^ 64)); cbn [andb]; try discriminate. intros [= ->].
    apply trunc_exact in E as [F T]. auto.
  - intros (F & T & B). rewrite (proj2 (trunc_exact _ z) (conj F T)).
    destruct (Z.leb_spec 0 z), (Z.ltb_spec z (2 ^ 64)); try lia. reflexivity.
Qed.

Theorem numcast_exact (x : AF spec_float) y : f64_from_af x = Some y <->
  exists z, is_fin (af_v x) /\ truncation (SF2R radix2 (af_v x)) z /\ - 2 ^ 63 <= z < 2 ^ 64 /\ y = sf_of_Z z.
Proof.
  unfold f64_from_af, af_to_f64. split.
  - destruct (af_to_i64 x) as [z|] eqn:E.
    + intros [= <-]. apply to_i64_exact in E as (F & T & B). exists z. split; [exact F|]. split; [exact T|]. split; [lia|reflexivity].
    + destruct (af_to_u64 x) as [z|] eqn:E2; cbn; [|discriminate].
      intros [= <-]. apply to_u64_exact in E2 as (F & T & B). exists z. split; [exact F|]. split; [exact T|]. split; [lia|reflexivity].
  - intros (z & F & T & B & ->). destruct (Z.ltb_spec z (2 ^ 63)).
    + rewrite (proj2 (to_i64_exact x z)) by (split; [exact F|]; split; [exact T|]; lia). reflexivity.
    + destruct (af_to_i64 x) as [w|] eqn:E.
      { apply to_i64_exact in E as (_ & T' & B'). pose proof (truncation_unique _ _ _ T T'). lia. }
      rewrite (proj2 (to_u64_exact x z)) by (split; [exact F|]; split; [exact T|]; lia). reflexivity.
Qed.

Lemma from_afloat_exact (x y : AF spec_float) :
  af_from_af x = Some y <->
  (exists z, is_fin (af_v x) /\ truncation (BinarySingleNaN.SF2R Zaux.radix2 (af_v x)) z /\
     (- 2 ^ 63 <= z < 2 ^ 64)%Z /\ af_v y = sf_of_Z z) /\
  af_dv y = S754_zero false /\ af_ctx y = None.
Proof.
  unfold af_from_af. destruct (f64_from_af x) as [n|] eqn:E; cbn [option_map].
  - split.
    + intros [= <-]. split; [|auto]. apply numcast_exact in E. exact E.
    + intros ((z & Hf & Ht & Hz & Ev) & Ed & Ec).
      assert (f64_from_af x = Some (sf_of_Z z)) as E2 by (apply numcast_exact; eauto).
      destruct y as [v d c]. cbn in Ev, Ed, Ec. subst v d c. rewrite E in E2. injection E2 as ->. reflexivity.
  - split; [discriminate|]. intros ((z & Hf & Ht & Hz & Ev) & _).
    assert (f64_from_af x = Some (sf_of_Z z)) by (apply numcast_exact; eauto). congruence.
Qed.
