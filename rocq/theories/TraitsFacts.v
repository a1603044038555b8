(** Facts about the constants and queries of AFloat (C99). *)
From Coq Require Import Reals Lra Lia List Arith ZArith Bool String SpecFloat.
From Flocq Require Import Core Digits BinarySingleNaN.
From Verif Require Import Base Float FloatInst AContext Methods Instances F64Facts F64Ops Traits TraitsSpec.
Local Open Scope R_scope.

(** ** Towers *)
Section Tower.
Context {F : Type} (T : Traits F).
Let TT k := tower_traits T k.

Theorem tower_queries k (x : tower F k) : let v := bottom k x in
  t_is_zero (TT k) x = t_is_zero T v /\ t_is_one (TT k) x = t_is_one T v /\
  t_is_nan (TT k) x = t_is_nan T v /\ t_is_infinite (TT k) x = t_is_infinite T v /\
  t_is_finite (TT k) x = t_is_finite T v /\ t_is_normal (TT k) x = t_is_normal T v /\
  t_is_sign_positive (TT k) x = t_is_sign_positive T v /\ t_is_sign_negative (TT k) x = t_is_sign_negative T v /\
  t_classify (TT k) x = t_classify T v /\ t_integer_decode (TT k) x = t_integer_decode T v.
Proof. induction k as [|k IH]; [cbn; repeat split|]. exact (IH (af_v x)). Qed.

Lemma tower_zero k : constant (t_zero T) k (t_zero T) (t_zero (TT k)).
Proof. induction k as [|k IH]; cbn; auto. Qed.
Lemma tower_new k c x : constant (t_zero T) k c x -> constant (t_zero T) (S k) c (af_new x (t_zero (TT k))).
Proof. intros H. cbn. repeat split; auto. apply tower_zero. Qed.

Theorem tower_constants k : let cst := constant (t_zero T) k in
  cst (t_zero T) (t_zero (TT k)) /\ cst (t_one T) (t_one (TT k)) /\ cst (t_nan T) (t_nan (TT k)) /\
  cst (t_infinity T) (t_infinity (TT k)) /\ cst (t_neg_infinity T) (t_neg_infinity (TT k)) /\
  cst (t_neg_zero T) (t_neg_zero (TT k)) /\ cst (t_min_value T) (t_min_value (TT k)) /\
  cst (t_min_positive_value T) (t_min_positive_value (TT k)) /\ cst (t_max_value T) (t_max_value (TT k)).
Proof.
  induction k as [|k IH]; [cbn; repeat split|]. cbv zeta in *. destruct IH as (H1 & H2 & H3 & H4 & H5 & H6 & H7 & H8 & H9).
  split; [apply (tower_new k _ _ H1)|]. split; [apply (tower_new k _ _ H2)|]. split; [apply (tower_new k _ _ H3)|].
  split; [apply (tower_new k _ _ H4)|]. split; [apply (tower_new k _ _ H5)|]. split; [apply (tower_new k _ _ H6)|].
  split; [apply (tower_new k _ _ H7)|]. split; [apply (tower_new k _ _ H8)|apply (tower_new k _ _ H9)].
Qed.

Theorem tower_parse k s r :
  match t_from_str_radix T s r with
  | Some v => exists x, t_from_str_radix (TT k) s r = Some x /\ constant (t_zero T) k v x
  | None => t_from_str_radix (TT k) s r = None
  end.
Proof.
  destruct (t_from_str_radix T s r) as [v|] eqn:E.
  - induction k as [|k (x & IH & C)]; [exists v; split; auto; reflexivity|].
    eexists. split; [cbn; unfold TT in IH; rewrite IH; reflexivity|]. apply tower_new, C.
  - induction k as [|k IH]; [exact E|]. cbn. unfold TT in IH. rewrite IH. reflexivity.
Qed.

Lemma constant_bottom z k : forall c x, constant z k c x -> @bottom F k x = c.
Proof. induction k as [|k IH]; cbn; intros c x H; [exact H|]. apply IH, H. Qed.
Theorem constant_unique z k : forall c x y, constant (F := F) z k c x -> constant z k c y -> x = y.
Proof.
  induction k as [|k IH]; cbn; intros c x y; [congruence|]. destruct x as [v d o], y as [v' d' o']. cbn.
  intros (H1 & H2 & ->) (K1 & K2 & ->). f_equal; eauto.
Qed.
End Tower.

(** ** binary64 *)
#[local] Arguments pow : simpl never.
#[local] Arguments classify64 : simpl never.
#[local] Arguments sign64 : simpl never.
#[local] Arguments decode64 : simpl never.
#[local] Arguments fields : simpl never.
Definition bnd (m : positive) (e : Z) : Prop := bounded prec64 emax64 m e = true.
Lemma bnd_inv m e : bnd m e -> (Z.pos m < 2 ^ 53 /\ -1074 <= e <= 971 /\ (Z.pos m < 2 ^ 52 -> e = -1074))%Z.
Proof.
  unfold bnd, bounded, canonical_mantissa. intros H. apply andb_prop in H as [H1 H2].
  apply Zeq_bool_eq in H1. apply Zle_bool_imp_le in H2. rewrite Zpos_digits2_pos in H1.
  unfold fexp, SpecFloat.emin, prec64, emax64 in *. pose proof (Zdigits_correct radix2 (Z.pos m)) as [D1 D2].
  set (d := Zdigits radix2 (Z.pos m)) in *. assert (d <= 53)%Z as Hd by lia.
  rewrite Z.abs_eq in D1, D2 by lia. change (Zaux.radix_val radix2) with 2%Z in D1, D2.
  assert (2 ^ d <= 2 ^ 53)%Z as HP by (apply Z.pow_le_mono_r; lia).
  repeat split; try lia. intros Hm. destruct (Z.le_gt_cases d 52) as [L|L]; [lia|].
  assert (2 ^ 52 <= 2 ^ (d - 1))%Z by (apply Z.pow_le_mono_r; lia). lia.
Qed.

Lemma f64_inv x a : f64 x a ->
  (exists s, x = S754_zero s /\ a = 0) \/
  (exists s m e, x = S754_finite s m e /\ bnd m e /\ a = IZR (cond_Zopp s (Z.pos m)) * bpow radix2 e).
Proof.
  intros (b & <- & Hf & <-). destruct b as [s|s| |s m e Hb]; try discriminate.
  - left. exists s. auto.
  - right. exists s, m, e. split; [reflexivity|]. split; [exact Hb|]. reflexivity.
Qed.
Lemma f64_zero s : f64 (S754_zero s) 0.
Proof. exists (B754_zero s). auto. Qed.
Lemma f64_finite s m e : bnd m e -> f64 (S754_finite s m e) (IZR (cond_Zopp s (Z.pos m)) * bpow radix2 e).
Proof. intros H. exists (B754_finite s m e H). auto. Qed.
Lemma double_f64 x : double x -> (exists a, f64 x a) \/ (exists s, x = S754_infinity s) \/ x = S754_nan.
Proof.
  intros H. destruct x as [s|s| |s m e]; eauto.
  - left. exists 0. apply f64_zero.
  - left. eexists. apply f64_finite. exact H.
Qed.
Lemma f64_double x a : f64 x a -> double x.
Proof. intros [(s & -> & _)|(s & m & e & -> & H & _)]%f64_inv; [reflexivity|exact H]. Qed.
Lemma abs_cond s m : Rabs (IZR (cond_Zopp s (Z.pos m))) = IZR (Z.pos m).
Proof. rewrite <- abs_IZR. f_equal. destruct s; reflexivity. Qed.
Lemma abs_val s m e : Rabs (IZR (cond_Zopp s (Z.pos m)) * bpow radix2 e) = IZR (Z.pos m) * bpow radix2 e.
Proof. rewrite Rabs_mult, abs_cond, (Rabs_pos_eq (bpow radix2 e)) by apply bpow_ge_0. reflexivity. Qed.

Section F64.
Context (nan_neg : bool) (nan_bits : Z) (parse : string -> Z -> option spec_float).
Context (Hnan : (0 < nan_bits < 2 ^ 52)%Z).
Let T64 := traits64 nan_neg nan_bits parse.

(** *** integer_decode *)
Theorem decode_exact x a : f64 x a -> let '(m, e, s) := t_integer_decode T64 x in
  a = IZR s * IZR m * powerRZ 2 e /\ (0 <= m < 2 ^ 53)%Z /\ (-1075 <= e <= 971)%Z /\ (s = 1 \/ s = -1)%Z.
Proof.
  intros [(s & -> & ->)|(s & m & e & -> & H & ->)]%f64_inv; cbn [t_integer_decode T64 traits64]; unfold decode64, fields.
  - destruct s; cbn -[powerRZ]; repeat split; try lia; lra.
  - apply bnd_inv in H as (H1 & H2 & H3). change (powerRZ 2) with (powerRZ (IZR radix2)). destruct (Z.leb_spec (2 ^ 52) (Z.pos m)) as [L|L].
    + destruct (Z.eqb_spec (e + 1075) 0) as [E|_]; [lia|].
      replace (Z.pos m - 2 ^ 52 + 2 ^ 52)%Z with (Z.pos m) by lia. replace (e + 1075 - 1075)%Z with e by lia.
      rewrite <- bpow_powerRZ. destruct s; cbn [cond_Zopp]; repeat split; try lia;
        rewrite ?opp_IZR, ?Ropp_mult_distr_l_reverse; cbn [Z.opp]; try ring.
    + rewrite H3 by exact L. cbn [Z.eqb]. change (0 - 1075)%Z with (-1075)%Z.
      rewrite <- bpow_powerRZ. replace (-1074)%Z with (1 + -1075)%Z by reflexivity. rewrite bpow_plus, mult_IZR. change (bpow radix2 1) with 2.
      destruct s; cbn [cond_Zopp]; repeat split; try lia; cbn [Z.opp]; try ring.
      change (Z.neg m) with (- Z.pos m)%Z. rewrite opp_IZR. ring.
Qed.
Lemma sgn_inj (s s' : bool) : (if s then -1 else 1)%Z = (if s' then -1 else 1)%Z -> s = s'.
Proof. destruct s, s'; congruence. Qed.
Lemma fields_range x : double x -> let '(s, E, f) := fields nan_neg nan_bits x in (0 <= E <= 2047 /\ 0 <= f < 2 ^ 52)%Z.
Proof.
  intros D. destruct x as [s|s| |s m e]; unfold fields; try lia. apply bnd_inv in D.
  destruct (Z.leb_spec (2 ^ 52) (Z.pos m)); lia.
Qed.
Lemma triple_inj {A B C : Type} (a a' : A) (b b' : B) (c c' : C) : (a, b, c) = (a', b', c') -> a = a' /\ b = b' /\ c = c'.
Proof. intros E. injection E. auto. Qed.
Lemma fields_fin s m e : bnd m e -> let '(s', E, f) := fields nan_neg nan_bits (S754_finite s m e) in
  s' = s /\ (0 <= E < 2047)%Z /\ (E = 0 -> f = Z.pos m /\ e = -1074)%Z /\ (E <> 0 -> f = Z.pos m - 2 ^ 52 /\ e = E - 1075)%Z.
Proof.
  intros H. apply bnd_inv in H. unfold fields. destruct (Z.leb_spec (2 ^ 52) (Z.pos m)); repeat split; lia.
Qed.
Lemma fields_inj x y : double x -> double y -> fields nan_neg nan_bits x = fields nan_neg nan_bits y -> x = y.
Proof using Hnan.
  intros Dx Dy. destruct x as [s|s| |s m e], y as [s'|s'| |s' m' e'];
    try (pose proof (fields_fin s _ _ Dx) as Hx; destruct (fields nan_neg nan_bits (S754_finite s m e)) as [[? ?] ?]);
    try (pose proof (fields_fin s' _ _ Dy) as Hy; destruct (fields nan_neg nan_bits (S754_finite s' m' e')) as [[? ?] ?]);
    unfold fields; intros E; apply triple_inj in E as (E1 & E2 & E3); try lia; try congruence.
  destruct Hx as (-> & Hx1 & Hx2 & Hx3), Hy as (-> & Hy1 & Hy2 & Hy3). subst. destruct (Z.eq_dec z1 0) as [Z|Z].
  - destruct (Hx2 Z) as [K1 ->], (Hy2 Z) as [K2 ->]. f_equal. congruence.
  - destruct (Hx3 Z) as [K1 ->], (Hy3 Z) as [K2 ->]. f_equal. lia.
Qed.
Theorem decode_injective x y : double x -> double y -> t_integer_decode T64 x = t_integer_decode T64 y -> x = y.
Proof.
  intros Dx Dy. cbn [t_integer_decode T64 traits64]. unfold decode64. intros E. apply fields_inj; auto.
  pose proof (fields_range x Dx) as Rx. pose proof (fields_range y Dy) as Ry.
  destruct (fields nan_neg nan_bits x) as [[s E1] f], (fields nan_neg nan_bits y) as [[s' E1'] f'].
  apply triple_inj in E as (E2 & E3 & E4). apply sgn_inj in E4. assert (E1 = E1') by lia. subst.
  assert (f = f') by (destruct (E1' =? 0)%Z; lia). congruence.
Qed.

(** *** Categories and signs *)
Lemma pow_bpow n : 2 ^ n = bpow radix2 (Z.of_nat n).
Proof. rewrite bpow_powerRZ, <- pow_powerRZ. reflexivity. Qed.
Lemma inv_bpow n : / 2 ^ n = bpow radix2 (- Z.of_nat n).
Proof. rewrite pow_bpow, <- bpow_opp. reflexivity. Qed.
Lemma small_size m e : bnd m e -> (Z.pos m < 2 ^ 52)%Z -> 0 < IZR (Z.pos m) * bpow radix2 e < / 2 ^ 1022.
Proof.
  intros H L. apply bnd_inv in H as (_ & _ & E). rewrite (E L). split.
  - apply Rmult_lt_0_compat; [apply IZR_lt; lia|apply bpow_gt_0].
  - rewrite inv_bpow. change (- Z.of_nat 1022)%Z with (52 + -1074)%Z. rewrite bpow_plus.
    apply Rmult_lt_compat_r; [apply bpow_gt_0|]. change (bpow radix2 52) with (IZR (2 ^ 52)). apply IZR_lt, L.
Qed.
Lemma normal_size m e : bnd m e -> (2 ^ 52 <= Z.pos m)%Z -> / 2 ^ 1022 <= IZR (Z.pos m) * bpow radix2 e.
Proof.
  intros H L. apply bnd_inv in H as (_ & [E _] & _). rewrite inv_bpow. change (- Z.of_nat 1022)%Z with (52 + -1074)%Z.
  rewrite bpow_plus. apply Rmult_le_compat; try apply bpow_ge_0.
  - change (bpow radix2 52) with (IZR (2 ^ 52)). apply IZR_le, L.
  - apply bpow_le, E.
Qed.
Lemma normal_pos : 0 < / 2 ^ 1022. Proof. rewrite inv_bpow. apply bpow_gt_0. Qed.
Lemma f64_fun x a b : f64 x a -> f64 x b -> a = b.
Proof.
  intros [(s & -> & ->)|(s & m & e & -> & H & ->)]%f64_inv [(s' & E & ->)|(s' & m' & e' & E & H' & ->)]%f64_inv; try discriminate; auto.
  injection E as <- <- <-. reflexivity.
Qed.
Lemma classify_finite s m e : bnd m e ->
  classify64 nan_neg nan_bits (S754_finite s m e) = if (2 ^ 52 <=? Z.pos m)%Z then CNormal else CSubnormal.
Proof.
  intros H. apply bnd_inv in H as (H1 & H2 & H3). unfold classify64, fields.
  destruct (Z.leb_spec (2 ^ 52) (Z.pos m)) as [L|L].
  - destruct (Z.eqb_spec (e + 1075) 2047) as [E|_]; [lia|]. destruct (Z.eqb_spec (e + 1075) 0) as [E|_]; [lia|]. reflexivity.
  - reflexivity.
Qed.
Theorem classify_right x c : double x -> t_classify T64 x = c <-> in_category x c.
Proof using Hnan.
  intros D. cbn [t_classify T64 traits64]. pose proof normal_pos as NP.
  assert (in_category x (classify64 nan_neg nan_bits x)) as HC.
  { destruct x as [s|s| |s m e].
    - apply f64_zero.
    - exists s. reflexivity.
    - unfold classify64, fields. cbn. destruct (Z.eqb_spec nan_bits 0) as [E|_]; [lia|]. reflexivity.
    - rewrite classify_finite by exact D. destruct (Z.leb_spec (2 ^ 52) (Z.pos m)) as [L|L];
        eexists; (split; [apply f64_finite, D|]); rewrite abs_val; [apply normal_size|apply small_size]; auto. }
  split; [intros <-; exact HC|]. intros HC'. clear Hnan D. destruct (classify64 nan_neg nan_bits x), c; auto; cbn in HC, HC'; remember (/ 2 ^ 1022) as q eqn:Q; clear Q.
  all: repeat match goal with
    | H : exists _, _ |- _ => destruct H
    | H : _ /\ _ |- _ => destruct H
    | H : f64 ?x ?a, K : f64 ?x ?b |- _ => pose proof (f64_fun _ _ _ H K); clear K
    end; subst; rewrite ?Rabs_R0 in *; try lra; try discriminate.
  all: try match goal with H : f64 _ _ |- _ => apply f64_inv in H as [(? & ? & _)|(? & ? & ? & ? & _)]; discriminate end.
Qed.
Theorem queries_right x : double x ->
  (t_is_nan T64 x = true <-> t_classify T64 x = CNan) /\
  (t_is_infinite T64 x = true <-> t_classify T64 x = CInfinite) /\
  (t_is_zero T64 x = true <-> t_classify T64 x = CZero) /\
  (t_is_normal T64 x = true <-> t_classify T64 x = CNormal) /\
  (t_is_finite T64 x = true <-> exists a, f64 x a) /\
  (t_is_one T64 x = true <-> f64 x 1) /\
  t_is_sign_positive T64 x = negb (t_is_sign_negative T64 x) /\
  (forall a, f64 x a -> (a < 0 -> t_is_sign_negative T64 x = true) /\ (0 < a -> t_is_sign_negative T64 x = false)).
Proof using Hnan.
  intros D.
  assert (forall s m e a c, f64 x a -> f64 (S754_finite s m e) c -> SFeqb x (S754_finite s m e) = true <-> a = c) as EQ.
  { intros s m e a c (b & <- & Fb & <-) (b' & Eb & Fb' & <-). rewrite <- Eb.
    change (SFeqb (B2SF b) (B2SF b')) with (Beqb b b'). rewrite (Beqb_correct _ _ _ _ Fb Fb'). split; intros H.
    - destruct (Req_bool_spec (B2R b) (B2R b')); auto; discriminate.
    - apply Req_bool_true, H. }
  assert (f64 (S754_finite false 4503599627370496 (-52)) 1) as O1.
  { replace 1 with (IZR (cond_Zopp false (Z.pos 4503599627370496)) * bpow radix2 (-52)); [apply f64_finite; reflexivity|].
    change (bpow radix2 (-52)) with (/ IZR (Zpower_pos 2 52)). cbn. lra. }
  rewrite !(classify_right x) by exact D.
  split; [|split; [|split; [|split; [|split; [|split; [|split]]]]]].
  - cbn. destruct x as [[]|[]| |[] m e]; cbn; try (split; congruence);
      unfold SFeqb, SFcompare; rewrite Z.compare_refl, Pos.compare_cont_refl; cbn; split; discriminate.
  - cbn. destruct x as [[]|[]| |[] m e]; cbn; split; try congruence; try (intros [s E]; discriminate); eauto.
  - cbn. destruct x as [[]|[]| |[] m e]; cbn; split; try discriminate; try reflexivity; intros H; try apply f64_zero;
      apply f64_inv in H as [(s & E & _)|(s & m' & e' & E & _ & E2)]; try discriminate;
      exfalso; apply (f_equal Rabs) in E2; rewrite abs_val, Rabs_R0 in E2; pose proof (bpow_gt_0 radix2 e');
      assert (0 < IZR (Z.pos m')) by (apply IZR_lt; lia); pose proof (Rmult_lt_0_compat _ _ H0 H); lra.
  - rewrite <- (classify_right x) by exact D. cbn. destruct (classify64 nan_neg nan_bits x); split; congruence.
  - split.
    + cbn. destruct (double_f64 x D) as [K|[[[] ->]| ->]]; auto; discriminate.
    + intros [a K]. apply f64_inv in K as [([] & -> & _)|([] & m & e & -> & _)]; reflexivity.
  - destruct (double_f64 x D) as [[a Ha]|[[s ->]| ->]].
    + cbn [t_is_one T64 traits64]. rewrite (EQ _ _ _ _ _ Ha O1). split; [intros ->; exact Ha|intros H; eapply f64_fun; eauto].
    + split; [destruct s; discriminate|]. intros H. apply f64_inv in H as [(? & ? & _)|(? & ? & ? & ? & _)]; discriminate.
    + split; [discriminate|]. intros H. apply f64_inv in H as [(? & ? & _)|(? & ? & ? & ? & _)]; discriminate.
  - reflexivity.
  - intros a [(s & -> & ->)|(s & m & e & -> & H & ->)]%f64_inv; [split; lra|]. cbn. unfold sign64, fields.
    assert (0 < bpow radix2 e) as Hp by apply bpow_gt_0. destruct s; cbn [cond_Zopp Z.opp].
    + assert (IZR (Z.neg m) * bpow radix2 e < 0).
      { assert (IZR (Z.neg m) < 0) by (apply IZR_lt; lia). pose proof (Rmult_lt_0_compat (- IZR (Z.neg m)) _ ltac:(lra) Hp). lra. }
      destruct (2 ^ 52 <=? Z.pos m)%Z; split; auto; lra.
    + assert (0 < IZR (Z.pos m) * bpow radix2 e) by (apply Rmult_lt_0_compat; auto; apply IZR_lt; lia).
      destruct (2 ^ 52 <=? Z.pos m)%Z; split; auto; lra.
Qed.

(** *** Constants *)
Definition largest : R := (2 - / 2 ^ 52) * 2 ^ 1023.
Lemma largest_val : largest = IZR (Z.pos 9007199254740991) * bpow radix2 971.
Proof.
  unfold largest. rewrite (pow_bpow 1023). change (Z.of_nat 1023) with (52 + 971)%Z. rewrite bpow_plus, (inv_bpow 52).
  change (bpow radix2 52) with (IZR (2 ^ 52)). change (bpow radix2 (- Z.of_nat 52)) with (/ IZR (Zpower_pos 2 52)).
  cbn. lra.
Qed.
Theorem constants_right :
  f64 (t_zero T64) 0 /\ f64 (t_one T64) 1 /\ f64 (t_neg_zero T64) 0 /\ t_neg_zero T64 <> t_zero T64 /\
  t_is_sign_negative T64 (t_neg_zero T64) = true /\
  t_is_nan T64 (t_nan T64) = true /\
  f64 (t_max_value T64) largest /\ f64 (t_min_value T64) (- largest) /\
  (forall x a, f64 x a -> - largest <= a <= largest) /\
  (forall x a, f64 x a -> SFltb x (t_infinity T64) = true /\ SFltb (t_neg_infinity T64) x = true) /\
  f64 (t_min_positive_value T64) (/ 2 ^ 1022) /\ t_is_normal T64 (t_min_positive_value T64) = true /\
  (forall x a, f64 x a -> 0 < a -> t_is_normal T64 x = true -> / 2 ^ 1022 <= a).
Proof using Hnan.
  split; [apply f64_zero|]. split.
  { replace 1 with (IZR (cond_Zopp false (Z.pos 4503599627370496)) * bpow radix2 (-52)); [apply f64_finite; reflexivity|].
    change (bpow radix2 (-52)) with (/ IZR (Zpower_pos 2 52)). cbn. lra. }
  split; [apply f64_zero|]. split; [discriminate|]. split; [reflexivity|]. split; [reflexivity|].
  split; [rewrite largest_val; apply (f64_finite false); reflexivity|].
  split; [rewrite largest_val, <- Ropp_mult_distr_l_reverse, <- opp_IZR; apply (f64_finite true); reflexivity|].
  split.
  { intros x a H. assert (Rabs a <= largest); [|apply Rabs_le_inv; auto].
    apply f64_inv in H as [(s & -> & ->)|(s & m & e & -> & H & ->)].
    - rewrite Rabs_R0, largest_val. apply Rmult_le_pos; [apply IZR_le; lia|apply bpow_ge_0].
    - rewrite abs_val, largest_val. apply bnd_inv in H as (H1 & H2 & _). apply Rmult_le_compat; try apply bpow_ge_0.
      + apply IZR_le. lia.
      + apply IZR_le. lia.
      + apply bpow_le. lia. }
  split.
  { intros x a [(s & -> & ->)|(s & m & e & -> & H & ->)]%f64_inv; destruct s; split; reflexivity. }
  split.
  { replace (/ 2 ^ 1022) with (IZR (cond_Zopp false (Z.pos 4503599627370496)) * bpow radix2 (-1074)); [apply f64_finite; reflexivity|].
    rewrite inv_bpow. change (- Z.of_nat 1022)%Z with (52 + -1074)%Z. rewrite bpow_plus. reflexivity. }
  split; [reflexivity|].
  intros x a H P N. apply (queries_right x (f64_double _ _ H)) in N. apply (classify_right _ _ (f64_double _ _ H)) in N as (b & Hb & L).
  rewrite <- (f64_fun _ _ _ H Hb), Rabs_pos_eq in L by lra. exact L.
Qed.
End F64.
