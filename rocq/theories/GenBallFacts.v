(** Rounding errors of the nonsmooth drivers: the three arithmetics. *)
From Coq Require Import Reals Lra Lia ZArith Bool List SpecFloat.
From Flocq Require Import Core BinarySingleNaN.
From Verif Require Import Base Float FloatInst Operation Tape Spec TapeFacts RealInst F64Facts F64Ops FopsRel BallSpec BallFacts BallMain
  Matrix MatrixFacts AbsNormal AbsNormalFacts GenJac DriverSpec DriverPanics GenBallSpec RelDrivers RelGen.
Import ListNotations.
Local Open Scope R_scope.

(** ** What [==] identifies *)
Lemma sn_refl a : same_number a a.
Proof. left. auto. Qed.
Lemma sn_sym a b : same_number a b -> same_number b a.
Proof. intros [->|(s & s' & -> & ->)]; [apply sn_refl|right; eauto]. Qed.
Lemma sn_trans a b c : same_number a b -> same_number b c -> same_number a c.
Proof.
  intros [->|(s & s' & -> & ->)] H; auto. destruct H as [<-|(u & u' & E & ->)]; right; eauto.
Qed.
Lemma sn_zero s s' : same_number (S754_zero s) (S754_zero s').
Proof. right. eauto. Qed.
Lemma sn_add_l a a' b : same_number a a' -> same_number (sf_add a b) (sf_add a' b).
Proof.
  intros [->|(s & s' & -> & ->)]; [apply sn_refl|]. destruct b as [u| | |]; cbn; try apply sn_refl.
  destruct (Bool.eqb s u), (Bool.eqb s' u); apply sn_zero.
Qed.
Lemma sn_add_r a b b' : same_number b b' -> same_number (sf_add a b) (sf_add a b').
Proof.
  intros [->|(s & s' & -> & ->)]; [apply sn_refl|]. destruct a as [u| | |]; cbn; try apply sn_refl.
  destruct (Bool.eqb u s), (Bool.eqb u s'); apply sn_zero.
Qed.
Lemma sn_mul a a' c : same_number a a' -> same_number (sf_mul a c) (sf_mul a' c).
Proof.
  intros [->|(s & s' & -> & ->)]; [apply sn_refl|]. destruct c; cbn; try apply sn_refl; apply sn_zero.
Qed.
Lemma sn_div a a' c : same_number a a' -> same_number (sf_div a c) (sf_div a' c).
Proof.
  intros [->|(s & s' & -> & ->)]; [apply sn_refl|]. destruct c; cbn; try apply sn_refl; apply sn_zero.
Qed.
Lemma sn_neg a a' : same_number a a' -> same_number (SFopp a) (SFopp a').
Proof. intros [->|(s & s' & -> & ->)]; [apply sn_refl|]. apply sn_zero. Qed.
Lemma sn_abs a a' : same_number a a' -> SFabs a = SFabs a'.
Proof. intros [->|(s & s' & -> & ->)]; reflexivity. Qed.
Lemma sn_eqb a b : SFeqb a b = true -> same_number a b.
Proof.
  unfold SFeqb. destruct a as [s|s| |s m e], b as [s'|s'| |s' m' e']; cbn; try (destruct s; discriminate);
    try (destruct s'; discriminate); try discriminate.
  - intros _. apply sn_zero.
  - destruct s, s'; cbn; try discriminate; intros _; apply sn_refl.
  - destruct s, s'; try discriminate;
      destruct (Z.compare e e') eqn:E1; try discriminate; apply Z.compare_eq in E1; subst e'; cbn;
      destruct (Pos.compare_cont Eq m m') eqn:E2; try discriminate; intros _; left;
      apply (Pos.compare_eq m m') in E2; subst m'; reflexivity.
Qed.
Lemma f64_eq_like T : eq_like (f64ops T) same_number.
Proof.
  constructor.
  - exact sn_refl.
  - exact sn_trans.
  - exact sn_sym.
  - intros a a' b b' Ha Hb. eapply sn_trans; [apply sn_add_l, Ha|apply sn_add_r, Hb].
  - exact sn_mul.
  - exact sn_div.
  - exact sn_neg.
  - exact sn_abs.
  - exact sn_eqb.
Qed.
Lemma ball_eq_like : eq_like Bops eq.
Proof. constructor; cbn; intros; subst; auto; try discriminate. Qed.
Lemma R_eq_like : eq_like Rops eq.
Proof. constructor; cbn; intros; subst; auto. revert H; unfold Reqb; destruct (Req_EM_T a b); [auto|discriminate]. Qed.

Lemma sn_f64 a b v : same_number a b -> f64 b v -> f64 a v.
Proof.
  intros [->|(s & s' & -> & ->)]; [auto|]. intros (x & E & F & V). destruct x as [u| | |]; cbn in *; try discriminate.
  exists (B754_zero s). cbn. auto.
Qed.
Lemma inside_compat a a' b b' : same_number a a' -> inside a' b' -> b' = b -> inside a b.
Proof.
  intros HS HI <-. destruct b' as [[c r]|]; [|exact I]. destruct HI as (v & Fv & Hv). exists v. split; auto. eapply sn_f64; eauto.
Qed.
Lemma about_compat a a' b b' : a = a' -> about a' b' -> b' = b -> about a b.
Proof. intros -> H <-. exact H. Qed.

(** ** Signs *)
Lemma f64_ltb x y a b : f64 x a -> f64 y b -> SFltb x y = Rltb a b.
Proof.
  intros (u & <- & Fu & <-) (v & <- & Fv & <-). fold (Bltb u v). rewrite (Bltb_correct _ _ u v Fu Fv).
  unfold Rltb. destruct (Rlt_dec (B2R u) (B2R v)).
  - now apply Rlt_bool_true.
  - apply Rlt_bool_false. lra.
Qed.
Lemma Rltb_same a b c d : (a < b <-> c < d) -> Rltb a b = Rltb c d.
Proof. intros H. unfold Rltb. destruct (Rlt_dec a b), (Rlt_dec c d); tauto. Qed.
Lemma decided_sign v c r : Rabs (v - c) <= r -> decided (Some (c, r)) -> (v < 0 <-> c < 0) /\ (0 < v <-> 0 < c).
Proof.
  intros H [D|[-> ->]].
  - revert H D. unfold Rabs. destruct (Rcase_abs (v - c)), (Rcase_abs c); lra.
  - assert (v = 0) as -> by (revert H; unfold Rabs; destruct (Rcase_abs (v - 0)); lra). tauto.
Qed.
Lemma inside_sign T x b : inside x b -> decided b -> same_sign (f64ops T) Bops x b.
Proof.
  destruct b as [[c r]|]; [|contradiction]. intros (v & Fv & Hv) D. destruct (decided_sign v c r Hv D) as [A B].
  split; cbn [f_ltb f_zero f64ops Bops]; rewrite (f64_ltb _ _ _ _ Fv zero_f64) || rewrite (f64_ltb _ _ _ _ zero_f64 Fv);
    apply Rltb_same; tauto.
Qed.
Lemma about_sign b z : about b z -> decided b -> same_sign Bops Rops b z.
Proof. destruct b as [[c r]|]; [|contradiction]. intros <- D. split; reflexivity. Qed.

Lemma F2_sign {A B} (P : A -> B -> Prop) (S : A -> B -> Prop) (Q : B -> Prop) x y :
  (forall a b, P a b -> Q b -> S a b) -> Forall2 P x y -> Forall Q y -> Forall2 S x y.
Proof. intros H. induction 1; intros HF; inversion HF; subst; constructor; auto. Qed.
Lemma F2_sign' {A B} (P : A -> B -> Prop) (S : A -> B -> Prop) (Q : A -> Prop) x y :
  (forall a b, P a b -> Q a -> S a b) -> Forall2 P x y -> Forall Q x -> Forall2 S x y.
Proof. intros H. induction 1; intros HF; inversion HF; subst; constructor; auto. Qed.

(** ** Matrices *)
Lemma bounded_mat_of A B C : mrel inside A B -> mrel about B C -> bounded_mat A B C.
Proof.
  intros H1 H2. pose proof H1 as [a1 a2 _]. pose proof H2 as [b1 b2 _]. split; [auto|]. split; [auto|].
  intros i j c r _ _ E. pose proof (rel_m_get _ _ _ i j H1) as X. pose proof (rel_m_get _ _ _ i j H2) as Y.
  rewrite E in X, Y. apply rrel_ok in X as (x & Ex & v & Fv & Hv). apply rrel_ok' in Y as (y & Ey & Hy). cbn in Hy. subst y.
  split; [auto|]. exists x, v. auto.
Qed.
Lemma inside_points l : Forall2 inside l (map point l).
Proof. rewrite <- (map_id l) at 1. apply F2_map, in_point. Qed.
Lemma about_points l : Forall2 about (map point l) (map real_of l).
Proof. apply F2_map, about_point. Qed.
