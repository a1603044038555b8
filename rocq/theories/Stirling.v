(** Wallis' product, the lower Stirling bound, and the estimate of checkpointing.rs:31-35. *)
From Coq Require Import Reals Lra Lia List Arith ZArith Psatz.
From Verif Require Import Base AContext Checkpoint CheckSpec CheckFacts.
Local Open Scope R_scope.

(** *** Antiderivatives of the powers of sine *)
Fixpoint F2 (n : nat) : (R -> R) * (R -> R) :=
  match n with
  | O => (fun x => x, fun x => 1 - cos x)
  | S n' => (snd (F2 n'),
             fun x => ((INR n' + 1) * fst (F2 n') x - cos x * sin x ^ S n') / (INR n' + 2))
  end.
Definition F n := fst (F2 n).
Lemma F_SS n x : F (S (S n)) x = ((INR n + 1) * F n x - cos x * sin x ^ S n) / (INR n + 2).
Proof. reflexivity. Qed.

Lemma pow_deriv n x : derivable_pt_lim (fun x => sin x ^ S n) x ((INR n + 1) * sin x ^ n * cos x).
Proof.
  pose proof (derivable_pt_lim_comp sin (fun y => y ^ S n) x (cos x) (INR (S n) * sin x ^ pred (S n))
                (derivable_pt_lim_sin x) (derivable_pt_lim_pow (sin x) (S n))) as H.
  cbn [pred] in H. rewrite S_INR in H. exact H.
Qed.

Lemma F_deriv n : forall x, derivable_pt_lim (F n) x (sin x ^ n).
Proof.
  enough ((forall x, derivable_pt_lim (F n) x (sin x ^ n)) /\
          (forall x, derivable_pt_lim (F (S n)) x (sin x ^ S n))) by tauto.
  induction n as [|n [IH1 IH2]].
  - split; intros x.
    + apply derivable_pt_lim_id.
    + replace (sin x ^ 1) with (0 - - sin x) by ring.
      apply (derivable_pt_lim_minus (fun _ => 1) cos x 0 (- sin x)).
      * apply derivable_pt_lim_const.
      * apply derivable_pt_lim_cos.
  - split; auto. intros x.
    assert (INR n + 2 <> 0) as NZ by (pose proof (pos_INR n); lra).
    pose proof (derivable_pt_lim_mult cos (fun x => sin x ^ S n) x _ _ (derivable_pt_lim_cos x) (pow_deriv n x)) as D1.
    pose proof (derivable_pt_lim_scal (F n) (INR n + 1) x _ (IH1 x)) as D2.
    pose proof (derivable_pt_lim_minus _ _ x _ _ D2 D1) as D3.
    pose proof (derivable_pt_lim_scal _ (/ (INR n + 2)) x _ D3) as D4.
    replace (sin x ^ S (S n)) with
      (/ (INR n + 2) * ((INR n + 1) * sin x ^ n - (- sin x * sin x ^ S n + cos x * ((INR n + 1) * sin x ^ n * cos x)))).
    + intros eps He. destruct (D4 eps He) as [d Hd]. exists d. intros h Hh Hlt. specialize (Hd h Hh Hlt).
      rewrite !F_SS. unfold mult_real_fct, minus_fct, mult_fct in Hd.
      unfold Rdiv. rewrite (Rmult_comm _ (/ (INR n + 2))), (Rmult_comm (_ * F n x - _) (/ (INR n + 2))).
      exact Hd.
    + cbn [pow]. pose proof (sin2_cos2 x) as SC. unfold Rsqr in SC.
      replace (cos x * ((INR n + 1) * sin x ^ n * cos x)) with ((INR n + 1) * sin x ^ n * (1 - sin x * sin x))
        by (rewrite <- SC; ring).
      field. lra.
Qed.

Lemma F_zero n : F n 0 = 0.
Proof.
  enough (F n 0 = 0 /\ F (S n) 0 = 0) by tauto.
  induction n as [|n [IH1 IH2]].
  - split; [reflexivity|]. change (1 - cos 0 = 0). rewrite cos_0. ring.
  - split; auto. rewrite F_SS, IH1, sin_0. cbn [pow]. unfold Rdiv. ring.
Qed.

Definition Sn n := F n (PI / 2).
Lemma Sn_SS n : Sn (S (S n)) = (INR n + 1) / (INR n + 2) * Sn n.
Proof. unfold Sn. rewrite F_SS, cos_PI2. field. pose proof (pos_INR n); lra. Qed.

Lemma Sn_decr n : Sn (S n) <= Sn n.
Proof.
  destruct (MVT_cor2 (fun x => F n x - F (S n) x) (fun x => sin x ^ n - sin x ^ S n) 0 (PI / 2)) as (c & E & H1 & H2).
  - pose proof PI_RGT_0; lra.
  - intros c _. apply (derivable_pt_lim_minus (F n) (F (S n))); apply F_deriv.
  - rewrite !F_zero in E. fold (Sn n) in E. fold (Sn (S n)) in E.
    assert (0 <= sin c ^ n - sin c ^ S n).
    { pose proof (sin_ge_0 c ltac:(lra) ltac:(pose proof PI_RGT_0; lra)). pose proof (SIN_bound c).
      pose proof (pow_le (sin c) n H). cbn [pow]. nra. }
    pose proof PI_RGT_0. nra.
Qed.

(** q n = C(2n, n) / 4^n *)
Fixpoint q (n : nat) : R := match n with O => 1 | S n' => q n' * ((2 * INR n' + 1) / (2 * INR n' + 2)) end.
Lemma q_pos n : 0 < q n.
Proof.
  induction n as [|n IH]; cbn [q]; [lra|]. pose proof (pos_INR n).
  apply Rmult_lt_0_compat; auto. apply Rdiv_lt_0_compat; lra.
Qed.
Lemma INR_double n : INR (n + n) = 2 * INR n. Proof. rewrite plus_INR. ring. Qed.
Lemma S_even n : Sn (n + n) = PI / 2 * q n.
Proof.
  induction n as [|n IH]; [cbn; unfold Sn; cbn; ring|].
  replace (S n + S n)%nat with (S (S (n + n))) by lia. rewrite Sn_SS, IH, INR_double. cbn [q].
  field. pose proof (pos_INR n); lra.
Qed.
Lemma S_odd n : Sn (S (n + n)) * (q n * (2 * INR n + 1)) = 1.
Proof.
  induction n as [|n IH].
  - cbn [q Nat.add INR]. replace (Sn 1) with (1 - cos (PI / 2)) by reflexivity. rewrite cos_PI2. ring.
  - replace (S (S n + S n))%nat with (S (S (S (n + n)))) by lia. rewrite Sn_SS, S_INR, INR_double. cbn [q].
    rewrite (S_INR n). refine (eq_trans _ IH). field. pose proof (pos_INR n); lra.
Qed.

Lemma wallis n : (1 <= n)%nat -> PI * INR n * (q n * q n) <= 1.
Proof.
  intros Hn. destruct n as [|n]; [lia|].
  pose proof (Sn_decr (S (n + n))) as H. replace (S (S (n + n))) with (S n + S n)%nat in H by lia.
  rewrite S_even in H. pose proof (S_odd n) as O.
  assert (q (S n) * (2 * INR (S n)) = q n * (2 * INR n + 1)) as E.
  { cbn [q]. rewrite S_INR. field. pose proof (pos_INR n); lra. }
  rewrite <- E in O. pose proof (q_pos (S n)). pose proof (lt_0_INR (S n) ltac:(lia)).
  set (s := Sn (S (n + n))) in *. set (p := q (S n)) in *. set (m := INR (S n)) in *.
  assert (0 < p * (2 * m)) by nra. nra.
Qed.

(** *** Logarithms of factorials *)
Fixpoint lf (n : nat) : R := match n with O => 0 | S n' => lf n' + ln (INR (S n')) end.
Definition L (n : nat) : R := lf n + INR n - (INR n + 1 / 2) * ln (INR n).

Lemma lf_double n : lf (n + n) = 2 * lf n + INR n * ln 4 + ln (q n).
Proof.
  induction n as [|n IH]; [cbn; rewrite ln_1; ring|].
  replace (S n + S n)%nat with (S (S (n + n))) by lia.
  change (lf (S (S (n + n)))) with (lf (n + n) + ln (INR (S (n + n))) + ln (INR (S (S (n + n))))).
  change (lf (S n)) with (lf n + ln (INR (S n))). rewrite IH. cbn [q].
  rewrite !S_INR, INR_double. pose proof (pos_INR n) as P. pose proof (q_pos n) as Q.
  rewrite (ln_mult (q n)) by (auto; apply Rdiv_lt_0_compat; lra).
  assert (ln (2 * INR n + 1) + ln (2 * INR n + 1 + 1) =
          ln 4 + 2 * ln (INR n + 1) + ln ((2 * INR n + 1) / (2 * INR n + 2))) as E.
  { replace (2 * ln (INR n + 1)) with (ln (INR n + 1) + ln (INR n + 1)) by ring.
    assert (0 < (2 * INR n + 1) / (2 * INR n + 2)) by (apply Rdiv_lt_0_compat; lra).
    assert (0 < (INR n + 1) * (INR n + 1)) by nra.
    rewrite <- !ln_mult by nra. f_equal. field. lra. }
  lra.
Qed.

(** *** Two inequalities for the logarithm *)
Lemma mono_from_0 (g g' : R -> R) : g 0 = 0 ->
  (forall c, 0 <= c -> derivable_pt_lim g c (g' c)) -> (forall c, 0 < c -> 0 <= g' c) ->
  forall u, 0 < u -> 0 <= g u.
Proof.
  intros G0 GD GP u Hu. destruct (MVT_cor2 g g' 0 u Hu) as (c & E & H1 & H2).
  - intros c [Hc _]. auto.
  - rewrite G0 in E. specialize (GP c H1). nra.
Qed.

Lemma ln1_deriv c : 0 <= c -> derivable_pt_lim (fun u => ln (1 + u)) c (/ (1 + c)).
Proof.
  intros Hc. replace (/ (1 + c)) with (/ (1 + c) * (0 + 1)) by ring.
  apply (derivable_pt_lim_comp (fun u => 1 + u) ln).
  - apply (derivable_pt_lim_plus (fun _ => 1) (fun u => u)); [apply derivable_pt_lim_const|apply derivable_pt_lim_id].
  - apply derivable_pt_lim_ln. lra.
Qed.

(** (2 + u) ln (1 + u) >= 2 u *)
Lemma ln_ge u : 0 < u -> 2 * u <= (2 + u) * ln (1 + u).
Proof.
  intros Hu.
  (* first (1 + u) ln (1 + u) >= u, i.e. ln(1+u) >= u / (1 + u) *)
  assert (forall v, 0 < v -> 0 <= (1 + v) * ln (1 + v) - v) as A.
  { apply (mono_from_0 _ (fun c => ln (1 + c))).
    - rewrite !Rplus_0_r, ln_1. ring.
    - intros c Hc.
      replace (ln (1 + c)) with (((0 + 1) * ln (1 + c) + (1 + c) * / (1 + c)) - 1) by (field; lra).
      apply (derivable_pt_lim_minus (fun v => (1 + v) * ln (1 + v)) (fun v => v)); [|apply derivable_pt_lim_id].
      apply (derivable_pt_lim_mult (fun v => 1 + v) (fun v => ln (1 + v))); [|apply ln1_deriv; auto].
      apply (derivable_pt_lim_plus (fun _ => 1) (fun u => u)); [apply derivable_pt_lim_const|apply derivable_pt_lim_id].
    - intros c Hc. rewrite <- ln_1. left. apply ln_increasing; lra. }
  enough (0 <= (2 + u) * ln (1 + u) - 2 * u) by lra.
  revert u Hu. apply (mono_from_0 _ (fun c => (ln (1 + c) + (2 + c) * / (1 + c)) - 2)).
  - rewrite !Rplus_0_r, ln_1. ring.
  - intros c Hc. replace (ln (1 + c) + (2 + c) * / (1 + c) - 2) with
      (((0 + 1) * ln (1 + c) + (2 + c) * / (1 + c)) - 2 * 1) by ring.
    apply (derivable_pt_lim_minus (fun v => (2 + v) * ln (1 + v)) (fun v => 2 * v)).
    + apply (derivable_pt_lim_mult (fun v => 2 + v) (fun v => ln (1 + v))); [|apply ln1_deriv; auto].
      apply (derivable_pt_lim_plus (fun _ => 2) (fun u => u)); [apply derivable_pt_lim_const|apply derivable_pt_lim_id].
    + apply (derivable_pt_lim_scal (fun v => v) 2). apply derivable_pt_lim_id.
  - intros c Hc. specialize (A c Hc).
    replace (ln (1 + c) + (2 + c) * / (1 + c) - 2) with (((1 + c) * ln (1 + c) - c) * / (1 + c)) by (field; lra).
    apply Rmult_le_pos; auto. left. apply Rinv_0_lt_compat. lra.
Qed.

(** 2 (1 + u) ln (1 + u) <= u (2 + u) *)
Lemma ln_le u : 0 < u -> 2 * (1 + u) * ln (1 + u) <= u * (2 + u).
Proof.
  intros Hu. enough (0 <= u * (2 + u) - 2 * (1 + u) * ln (1 + u)) by lra.
  revert u Hu. apply (mono_from_0 _ (fun c => 2 * (c - ln (1 + c)))).
  - rewrite !Rplus_0_r, ln_1. ring.
  - intros c Hc.
    replace (2 * (c - ln (1 + c))) with ((1 * (2 + c) + c * (0 + 1)) - ((2 * (0 + 1)) * ln (1 + c) + (2 * (1 + c)) * / (1 + c)))
      by (field; lra).
    apply (derivable_pt_lim_minus (fun v => v * (2 + v)) (fun v => 2 * (1 + v) * ln (1 + v))).
    + apply (derivable_pt_lim_mult (fun v => v) (fun v => 2 + v)); [apply derivable_pt_lim_id|].
      apply (derivable_pt_lim_plus (fun _ => 2) (fun u => u)); [apply derivable_pt_lim_const|apply derivable_pt_lim_id].
    + apply (derivable_pt_lim_mult (fun v => 2 * (1 + v)) (fun v => ln (1 + v))); [|apply ln1_deriv; auto].
      apply (derivable_pt_lim_scal (fun v => 1 + v) 2).
      apply (derivable_pt_lim_plus (fun _ => 1) (fun u => u)); [apply derivable_pt_lim_const|apply derivable_pt_lim_id].
  - intros c Hc. assert (ln (1 + c) <= c); [|lra].
    enough (0 <= c - ln (1 + c)) by lra. revert c Hc.
    apply (mono_from_0 _ (fun c => 1 - / (1 + c))).
    + rewrite !Rplus_0_r, ln_1. ring.
    + intros c Hc. apply (derivable_pt_lim_minus (fun v => v) (fun v => ln (1 + v))); [apply derivable_pt_lim_id|apply ln1_deriv; auto].
    + intros c Hc. replace (1 - / (1 + c)) with (c * / (1 + c)) by (field; lra).
      apply Rmult_le_pos; [lra|]. left. apply Rinv_0_lt_compat. lra.
Qed.

Lemma L_step n : (1 <= n)%nat ->
  0 <= L n - L (S n) <= 1 / (4 * INR n) - 1 / (4 * INR (S n)).
Proof.
  intros Hn. pose proof (lt_0_INR n ltac:(lia)) as P.
  assert (L n - L (S n) = (INR n + 1 / 2) * ln (1 + / INR n) - 1) as ->.
  { unfold L. change (lf (S n)) with (lf n + ln (INR (S n))). rewrite S_INR.
    replace (1 + / INR n) with ((INR n + 1) * / INR n) by (field; lra).
    rewrite ln_mult by (try apply Rinv_0_lt_compat; lra). rewrite ln_Rinv by lra. ring. }
  rewrite S_INR. set (m := INR n) in *. assert (0 < / m) as PI0 by (apply Rinv_0_lt_compat; auto).
  pose proof (ln_ge (/ m) PI0) as H1. pose proof (ln_le (/ m) PI0) as H2.
  set (l := ln (1 + / m)) in *.
  split.
  - assert (m * (2 * / m) <= m * ((2 + / m) * l)) by (apply Rmult_le_compat_l; lra).
    replace (m * (2 * / m)) with 2 in H by (field; lra).
    replace (m * ((2 + / m) * l)) with ((2 * m + 1) * l) in H by (field; lra). lra.
  - assert (m * m * (2 * (1 + / m) * l) <= m * m * (/ m * (2 + / m))) by (apply Rmult_le_compat_l; nra).
    replace (m * m * (/ m * (2 + / m))) with (2 * m + 1) in H by (field; lra).
    replace (m * m * (2 * (1 + / m) * l)) with (2 * m * (m + 1) * l) in H by (field; lra).
    apply (Rmult_le_reg_l (4 * m * (m + 1))); [nra|].
    replace (4 * m * (m + 1) * (1 / (4 * m) - 1 / (4 * (m + 1)))) with 1 by (field; lra).
    nra.
Qed.

Lemma L_decr n m : (1 <= n)%nat -> (n <= m)%nat -> L m <= L n <= L m + (1 / (4 * INR n) - 1 / (4 * INR m)).
Proof.
  intros Hn. induction 1 as [|m Hm IH]; [lra|]. pose proof (L_step m ltac:(lia)). lra.
Qed.

Lemma ln4 : ln 4 = 2 * ln 2.
Proof. replace 4 with (2 * 2) by ring. rewrite ln_mult by lra. ring. Qed.

Lemma L_lower0 n : (1 <= n)%nat -> ln (2 * PI) / 2 - 1 / (4 * INR n) <= L n.
Proof.
  intros Hn. pose proof (lt_0_INR n ltac:(lia)) as P. pose proof PI_RGT_0 as PP. pose proof (q_pos n) as Q.
  assert (2 * L n - L (n + n) = (ln 2 - ln (INR n)) / 2 - ln (q n)) as E.
  { unfold L. rewrite lf_double, INR_double, ln4. rewrite (ln_mult 2) by lra. field. }
  assert (ln PI + ln (INR n) + 2 * ln (q n) <= 0) as W.
  { replace (2 * ln (q n)) with (ln (q n) + ln (q n)) by ring.
    assert (0 < q n * q n) by nra. assert (0 < PI * INR n) by nra.
    rewrite <- (ln_mult (q n)), <- ln_mult, <- ln_mult by auto.
    rewrite <- ln_1. destruct (wallis n Hn) as [W|W].
    - left. apply ln_increasing; auto. apply Rmult_lt_0_compat; auto.
    - rewrite W. lra. }
  assert (n <= n + n)%nat as LE by lia.
  destruct (L_decr n (n + n) Hn LE) as [_ H]. rewrite (ln_mult 2) by lra.
  assert (0 < 1 / (4 * INR (n + n))) by (rewrite INR_double; apply Rdiv_lt_0_compat; lra).
  lra.
Qed.

Lemma stirling n : (1 <= n)%nat -> ln (2 * PI) / 2 <= L n.
Proof.
  intros Hn. apply Rnot_lt_le. intros LT.
  set (e := ln (2 * PI) / 2 - L n) in *. assert (0 < e) as He by (unfold e; lra).
  destruct (archimed (/ e)) as [A _].
  assert (0 < up (/ e))%Z as UZ by (apply lt_IZR; pose proof (Rinv_0_lt_compat e He); lra).
  set (m := (n + Z.to_nat (up (/ e)))%nat).
  assert (/ e < INR m) as HM.
  { unfold m. rewrite plus_INR, (INR_IZR_INZ (Z.to_nat _)), Z2Nat.id by lia. pose proof (pos_INR n). lra. }
  assert (0 < INR m) as PM by (pose proof (Rinv_0_lt_compat e He); lra).
  pose proof (L_lower0 m ltac:(unfold m; lia)) as H1.
  destruct (L_decr n m Hn ltac:(unfold m; lia)) as [H2 _].
  assert (1 / (4 * INR m) < e); [|unfold e in *; lra].
  apply (Rmult_lt_reg_r (4 * INR m)); [lra|]. replace (1 / (4 * INR m) * (4 * INR m)) with 1 by (field; lra).
  assert (e * / e < e * INR m) by (apply Rmult_lt_compat_l; auto). rewrite Rinv_r in H by lra. lra.
Qed.

(** *** Binomial coefficients *)
Fixpoint zf (n : nat) : Z := match n with O => 1 | S n' => Z.of_nat (S n') * zf n' end%Z.
Lemma zf_pos n : (0 < zf n)%Z.
Proof. induction n as [|n IH]; cbn [zf]; lia. Qed.
Lemma Bn_fact c : forall t, (Bn c t * zf c * zf t = zf (c + t))%Z.
Proof.
  induction c as [|c IH]; intros t; [rewrite Bn_0l; cbn [zf Nat.add]; lia|].
  induction t as [|t IHt]; [rewrite Bn_0r, Nat.add_0_r; cbn [zf]; lia|].
  rewrite Bn_S. specialize (IH (S t)).
  assert (zf (S c + S t) = Z.of_nat (S c + S t) * zf (c + S t))%Z as -> by (rewrite Nat.add_succ_l; reflexivity).
  replace (S c + t)%nat with (c + S t)%nat in IHt by lia.
  transitivity ((Bn c (S t) * zf c * zf (S t)) * Z.of_nat (S c) + (Bn (S c) t * zf (S c) * zf t) * Z.of_nat (S t))%Z.
  - cbn [zf]. ring.
  - rewrite IH, IHt. lia.
Qed.
Lemma ln_zf n : ln (IZR (zf n)) = lf n.
Proof.
  induction n as [|n IH]; [apply ln_1|].
  change (zf (S n)) with (Z.of_nat (S n) * zf n)%Z. rewrite mult_IZR, ln_mult.
  - rewrite IH. cbn [lf]. rewrite INR_IZR_INZ. ring.
  - apply IZR_lt. lia.
  - apply IZR_lt, zf_pos.
Qed.
Lemma ln_Bn c t : ln (IZR (Bn c t)) = lf (c + t) - lf c - lf t.
Proof.
  pose proof (IZR_lt _ _ (zf_pos c)). pose proof (IZR_lt _ _ (zf_pos t)).
  pose proof (IZR_lt 0 (Bn c t) ltac:(pose proof (Bn_pos c t); lia)).
  rewrite <- !ln_zf, <- Bn_fact, !mult_IZR, !ln_mult; auto; [ring|]. apply Rmult_lt_0_compat; auto.
Qed.

Lemma ln_tangent y A : 0 < y -> 0 < A -> ln y <= ln A + (y - A) / A.
Proof.
  intros Hy HA. replace y with (A * (y / A)) at 1 by (field; lra).
  assert (0 < y / A) by (apply Rdiv_lt_0_compat; auto). rewrite ln_mult by auto.
  assert (ln (y / A) <= y / A - 1).
  { set (z := y / A) in *. pose proof (exp_ineq1_le (z - 1)).
    replace (1 + (z - 1)) with z in H0 by ring.
    rewrite <- (ln_exp (z - 1)). destruct H0 as [H0|H0]; [left; apply ln_increasing; auto|rewrite <- H0; lra]. }
  replace ((y - A) / A) with (y / A - 1) by (field; lra). lra.
Qed.

(** ln (t+1) + .. + ln (t+c) <= c ln A + (tangent), summed *)
Lemma lf_upper t A : 0 < A -> forall c,
  lf (c + t) - lf t <= INR c * ln A + (INR c * INR t + INR c * (INR c + 1) / 2 - INR c * A) / A.
Proof.
  intros HA. induction c as [|c IH].
  - cbn [Nat.add INR]. replace ((0 * INR t + 0 * (0 + 1) / 2 - 0 * A) / A) with 0 by (field; lra). lra.
  - change (lf (S c + t)) with (lf (c + t) + ln (INR (S (c + t)))).
    pose proof (ln_tangent (INR (S (c + t))) A (lt_0_INR (S (c + t)) ltac:(lia)) HA) as T.
    rewrite (S_INR c). rewrite S_INR, plus_INR in T. rewrite S_INR, plus_INR.
    replace (((INR c + 1) * INR t + (INR c + 1) * (INR c + 1 + 1) / 2 - (INR c + 1) * A) / A)
      with ((INR c * INR t + INR c * (INR c + 1) / 2 - INR c * A) / A + (INR c + INR t + 1 - A) / A) by (field; lra).
    lra.
Qed.

Lemma Bn_upper c t : (1 <= c)%nat ->
  ln (IZR (Bn c t)) <= INR c * ln (INR t + (INR c + 1) / 2) - lf c.
Proof.
  intros Hc. pose proof (pos_INR t). pose proof (pos_INR c).
  pose proof (lf_upper t (INR t + (INR c + 1) / 2) ltac:(lra) c) as U.
  replace ((INR c * INR t + INR c * (INR c + 1) / 2 - INR c * (INR t + (INR c + 1) / 2)) / (INR t + (INR c + 1) / 2))
    with 0 in U by (field; lra).
  rewrite ln_Bn. lra.
Qed.

(** The estimate stays at least (c - 1) / 2 below any sufficient number of repetitions. *)
Theorem estimate_under c r t : (1 <= c)%nat -> (1 <= r)%Z -> (r <= Bn c t)%Z ->
  estimate (Z.of_nat c) r <= INR t - (INR c - 1) / 2.
Proof.
  intros Hc Hr HB. unfold estimate. rewrite <- INR_IZR_INZ.
  pose proof (lt_0_INR c ltac:(lia)) as C0. pose proof PI_RGT_0 as PP. pose proof (pos_INR t) as T0.
  assert (0 < IZR r) as R0 by (apply (IZR_lt 0); lia).
  set (A := INR t + (INR c + 1) / 2). assert (0 < A) as A0 by (unfold A; lra).
  enough (exp (-1) * INR c * Rpower (sqrt (2 * PI * INR c) * IZR r) (1 / INR c) <= A) by (unfold A in *; lra).
  assert (0 < 2 * PI * INR c) as Q0 by nra.
  assert (0 < sqrt (2 * PI * INR c)) as S0 by (apply sqrt_lt_R0; auto).
  assert (ln (sqrt (2 * PI * INR c)) = (ln (2 * PI) + ln (INR c)) / 2) as LS.
  { rewrite <- ln_mult by lra. rewrite <- (sqrt_sqrt (2 * PI * INR c)) at 2 by lra. rewrite ln_mult by auto. field. }
  pose proof (stirling c Hc) as ST. unfold L in ST. pose proof (Bn_upper c t Hc) as BU. fold A in BU.
  assert (ln (IZR r) <= ln (IZR (Bn c t))) as LR.
  { destruct (Z.eq_dec r (Bn c t)) as [->|NE]; [lra|]. left. apply ln_increasing; auto. apply IZR_lt. lia. }
  unfold Rpower. rewrite ln_mult, LS by auto.
  rewrite <- (exp_ln (INR c) C0) at 1. rewrite <- !exp_plus. rewrite <- (exp_ln A A0).
  set (E := -1 + ln (INR c) + 1 / INR c * ((ln (2 * PI) + ln (INR c)) / 2 + ln (IZR r))).
  assert (E <= ln A) as EA.
  { apply (Rmult_le_reg_l (INR c)); auto.
    replace (INR c * E) with (- INR c + INR c * ln (INR c) + (ln (2 * PI) + ln (INR c)) / 2 + ln (IZR r))
      by (unfold E; field; lra). lra. }
  destruct EA as [EA| ->]; [left; apply exp_increasing; auto|lra].
Qed.

Theorem accurate_under est N : accurate est N -> under est N.
Proof.
  intros HA c r Hc Hr HN t HB. destruct (HA c r Hc Hr HN) as (v & V1 & V2 & V3).
  pose proof (estimate_under (Z.to_nat c) r t ltac:(lia) ltac:(lia) HB) as E.
  rewrite Z2Nat.id in E by lia.
  apply Rabs_def2 in V1. destruct V1 as [V1 _].
  assert (2 <= INR (Z.to_nat c)) as C2.
  { change 2 with (INR 2). apply le_INR. lia. }
  assert (IZR (est c r) < IZR (Z.of_nat t + 1)) as LT.
  { rewrite plus_IZR, <- INR_IZR_INZ. lra. }
  apply lt_IZR in LT. lia.
Qed.
