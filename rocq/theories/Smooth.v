(** Functions of one variable whose derivative is locally Lipschitz. *)
From Coq Require Import Reals Lra ZArith Lia.
From Verif Require Import Base RealInst Approx.
Open Scope R_scope.

(** [g] is bounded and Lipschitz near [a]. *)
Definition loclip (g : R -> R) (a : R) : Prop :=
  exists M r, 0 <= M /\ 0 < r /\ forall p q, Rabs (p - a) < r -> Rabs (q - a) < r ->
    Rabs (g p - g q) <= M * Rabs (p - q) /\ Rabs (g q) <= M.

(** [g'] is the derivative of [g] near [a], with a second order remainder, and locally
    Lipschitz. *)
Definition c11 (g g' : R -> R) (a : R) : Prop :=
  exists M r, 0 <= M /\ 0 < r /\ forall p q, Rabs (p - a) < r -> Rabs (q - a) < r ->
    Rabs (g p - g q - g' q * (p - q)) <= M * (Rabs (p - q) * Rabs (p - q)) /\
    Rabs (g' p - g' q) <= M * Rabs (p - q) /\ Rabs (g' q) <= M.

Lemma Rabs_between x y z a r :
  Rabs (x - a) < r -> Rabs (y - a) < r -> x <= z <= y -> Rabs (z - a) < r.
Proof. intros A B C. apply Rabs_def2 in A, B. apply Rabs_def1; lra. Qed.

(** The mean value theorem, without an order on the points. *)
Lemma mean_value g g' a r :
  (forall p, Rabs (p - a) < r -> derivable_pt_lim g p (g' p)) ->
  forall p q, Rabs (p - a) < r -> Rabs (q - a) < r ->
  exists c, Rabs (c - a) < r /\ Rabs (c - q) <= Rabs (p - q) /\ g p - g q = g' c * (p - q).
Proof.
  intros D p q Hp Hq. destruct (Rtotal_order p q) as [L|[->|L]].
  - destruct (MVT_cor2 g g' p q L) as (c & E & Hc).
    { intros c Hc. apply D. apply (Rabs_between p q); auto. }
    exists c. split; [apply (Rabs_between p q); auto; lra|]. split.
    + rewrite !Rabs_left by lra. lra.
    + lra.
  - exists q. split; auto. split; [|lra].
    replace (q - q) with 0 by lra. lra.
  - destruct (MVT_cor2 g g' q p L) as (c & E & Hc).
    { intros c Hc. apply D. apply (Rabs_between q p); auto. }
    exists c. split; [apply (Rabs_between q p); auto; lra|]. split.
    + rewrite !Rabs_right by lra. lra.
    + lra.
Qed.

Lemma c11_intro g g' a :
  (exists r, 0 < r /\ forall p, Rabs (p - a) < r -> derivable_pt_lim g p (g' p)) ->
  loclip g' a -> c11 g g' a.
Proof.
  intros (r & Hr & D) (M & r' & HM & Hr' & L).
  exists M, (Rmin r r'). split; auto. split; [apply Rmin_pos; auto|].
  intros p q Hp Hq.
  assert (forall z, Rabs (z - a) < Rmin r r' -> Rabs (z - a) < r /\ Rabs (z - a) < r') as Hm.
  { intros z Hz. split; eapply Rlt_le_trans; [apply Hz|apply Rmin_l|apply Hz|apply Rmin_r]. }
  destruct (mean_value g g' a (Rmin r r')) with (p := p) (q := q) as (c & Hc & Hcq & E); auto.
  { intros z Hz. apply D, Hm, Hz. }
  apply Hm in Hp as [Hp Hp'], Hq as [Hq Hq'], Hc as [_ Hc].
  destruct (L p q Hp' Hq') as [A B]. split; [|auto].
  rewrite E. replace (g' c * (p - q) - g' q * (p - q)) with ((g' c - g' q) * (p - q)) by ring.
  rewrite Rabs_mult. destruct (L c q Hc Hq') as [A' _].
  rewrite <- Rmult_assoc. apply Rmult_le_compat_r; [apply Rabs_pos|].
  eapply Rle_trans; [apply A'|]. apply Rmult_le_compat_l; auto.
Qed.

Lemma c11_loclip g g' a : c11 g g' a -> loclip g a.
Proof.
  intros (M & r & HM & Hr & H).
  exists (M * (2 * r) + M + Rabs (g a) + M * r * r + M * r), r.
  assert (0 <= M * r) as H0 by (apply Rmult_le_pos; lra).
  assert (0 <= M * r * r) as H1 by (apply Rmult_le_pos; lra).
  pose proof (Rabs_pos (g a)) as H2.
  split; [lra|]. split; auto. intros p q Hp Hq.
  assert (Rabs (a - a) < r) as Ha.
  { replace (a - a) with 0 by lra. rewrite Rabs_R0; auto. }
  assert (Rabs (p - q) <= 2 * r) as Hpq.
  { replace (p - q) with ((p - a) - (q - a)) by lra.
    eapply Rle_trans; [apply Rabs_triang|]. rewrite Rabs_Ropp. lra. }
  split.
  - destruct (H p q Hp Hq) as (A & _ & B).
    replace (g p - g q) with ((g p - g q - g' q * (p - q)) + g' q * (p - q)) by lra.
    eapply Rle_trans; [apply Rabs_triang|]. rewrite (Rabs_mult (g' q)).
    pose proof (Rabs_pos (p - q)) as P.
    assert (Rabs (g' q) * Rabs (p - q) <= M * Rabs (p - q)) as C by (apply Rmult_le_compat_r; auto).
    assert (M * (Rabs (p - q) * Rabs (p - q)) <= M * (2 * r) * Rabs (p - q)) as D.
    { rewrite Rmult_assoc. apply Rmult_le_compat_l; auto. apply Rmult_le_compat_r; auto. }
    assert (0 <= (Rabs (g a) + M * r * r + M * r) * Rabs (p - q)) as E
      by (apply Rmult_le_pos; lra).
    lra.
  - destruct (H q a Hq Ha) as (A & _ & B).
    replace (g q) with ((g q - g a - g' a * (q - a)) + g' a * (q - a) + g a) by lra.
    eapply Rle_trans; [apply Rabs_triang|].
    assert (Rabs (g q - g a - g' a * (q - a) + g' a * (q - a)) <= M * r * r + M * r) as C.
    { eapply Rle_trans; [apply Rabs_triang|]. rewrite (Rabs_mult (g' a)).
      pose proof (Rabs_pos (q - a)) as P.
      apply Rplus_le_compat.
      - eapply Rle_trans; [apply A|]. rewrite Rmult_assoc. apply Rmult_le_compat_l; auto.
        apply Rmult_le_compat; lra.
      - apply Rmult_le_compat; auto using Rabs_pos. lra. }
    assert (0 <= M * (2 * r)) by lra. lra.
Qed.

(** ** Closure of [loclip] *)
Lemma loclip_const c a : loclip (fun _ => c) a.
Proof.
  exists (Rabs c), 1. split; [apply Rabs_pos|]. split; [lra|]. intros p q _ _. split; [|lra].
  replace (c - c) with 0 by lra. rewrite Rabs_R0.
  apply Rmult_le_pos; apply Rabs_pos.
Qed.

Lemma loclip_id a : loclip (fun x => x) a.
Proof.
  exists (Rabs a + 1), 1. pose proof (Rabs_pos a). split; [lra|]. split; [lra|].
  intros p q _ Hq. split.
  - pose proof (Rabs_pos (p - q)) as P.
    assert (0 <= Rabs a * Rabs (p - q)) by (apply Rmult_le_pos; lra). lra.
  - replace q with ((q - a) + a) by lra. eapply Rle_trans; [apply Rabs_triang|]. lra.
Qed.

Lemma loclip_plus f g a : loclip f a -> loclip g a -> loclip (fun x => f x + g x) a.
Proof.
  intros (M & r & HM & Hr & F) (N & s & HN & Hs & G).
  exists (M + N), (Rmin r s). split; [lra|]. split; [apply Rmin_pos; auto|]. intros p q Hp Hq.
  assert (forall z, Rabs (z - a) < Rmin r s -> Rabs (z - a) < r /\ Rabs (z - a) < s) as Hm.
  { intros z Hz. split; eapply Rlt_le_trans; [apply Hz|apply Rmin_l|apply Hz|apply Rmin_r]. }
  apply Hm in Hp as [Hp1 Hp2], Hq as [Hq1 Hq2].
  destruct (F p q Hp1 Hq1) as [F1 F2], (G p q Hp2 Hq2) as [G1 G2]. split.
  - replace (f p + g p - (f q + g q)) with ((f p - f q) + (g p - g q)) by lra.
    eapply Rle_trans; [apply Rabs_triang|]. lra.
  - eapply Rle_trans; [apply Rabs_triang|]. lra.
Qed.

Lemma loclip_mult f g a : loclip f a -> loclip g a -> loclip (fun x => f x * g x) a.
Proof.
  intros (M & r & HM & Hr & F) (N & s & HN & Hs & G).
  assert (0 <= M * N) as HMN by (apply Rmult_le_pos; auto).
  exists (2 * (M * N)), (Rmin r s). split; [lra|]. split; [apply Rmin_pos; auto|]. intros p q Hp Hq.
  assert (forall z, Rabs (z - a) < Rmin r s -> Rabs (z - a) < r /\ Rabs (z - a) < s) as Hm.
  { intros z Hz. split; eapply Rlt_le_trans; [apply Hz|apply Rmin_l|apply Hz|apply Rmin_r]. }
  pose proof Hp as Hp0. apply Hm in Hp as [Hp1 Hp2], Hq as [Hq1 Hq2].
  destruct (F p q Hp1 Hq1) as [F1 F2], (G p q Hp2 Hq2) as [G1 G2].
  destruct (F p p Hp1 Hp1) as [_ F3].
  pose proof (Rabs_pos (p - q)) as P. split.
  - replace (f p * g p - f q * g q) with (f p * (g p - g q) + g q * (f p - f q)) by ring.
    eapply Rle_trans; [apply Rabs_triang|]. rewrite !Rabs_mult.
    assert (Rabs (f p) * Rabs (g p - g q) <= M * (N * Rabs (p - q))) as A
      by (apply Rmult_le_compat; auto using Rabs_pos).
    assert (Rabs (g q) * Rabs (f p - f q) <= N * (M * Rabs (p - q))) as B
      by (apply Rmult_le_compat; auto using Rabs_pos).
    lra.
  - rewrite Rabs_mult.
    assert (Rabs (f q) * Rabs (g q) <= M * N) by (apply Rmult_le_compat; auto using Rabs_pos). lra.
Qed.

Lemma loclip_comp f g a : loclip f a -> loclip g (f a) -> loclip (fun x => g (f x)) a.
Proof.
  intros (M & r & HM & Hr & F) (N & s & HN & Hs & G).
  assert (0 <= M * N) as HMN by (apply Rmult_le_pos; auto).
  assert (0 < s / (M + 1)) as Hd by (apply Rdiv_lt_0_compat; lra).
  exists (M * N + N), (Rmin r (s / (M + 1))). split; [lra|]. split; [apply Rmin_pos; auto|].
  intros p q Hp Hq.
  assert (Rabs (a - a) < r) as Ha.
  { replace (a - a) with 0 by lra. rewrite Rabs_R0; auto. }
  assert (forall z, Rabs (z - a) < Rmin r (s / (M + 1)) ->
            Rabs (z - a) < r /\ Rabs (f z - f a) < s) as Hm.
  { intros z Hz. assert (Rabs (z - a) < r) as H1 by (eapply Rlt_le_trans; [apply Hz|apply Rmin_l]).
    assert (Rabs (z - a) < s / (M + 1)) as H2 by (eapply Rlt_le_trans; [apply Hz|apply Rmin_r]).
    split; auto. destruct (F z a H1 Ha) as [A _]. eapply Rle_lt_trans; [apply A|].
    pose proof (Rabs_pos (z - a)).
    assert ((M + 1) * Rabs (z - a) < (M + 1) * (s / (M + 1))) as B
      by (apply Rmult_lt_compat_l; lra).
    replace ((M + 1) * (s / (M + 1))) with s in B by (field; lra). lra. }
  apply Hm in Hp as [Hp1 Hp2], Hq as [Hq1 Hq2].
  destruct (F p q Hp1 Hq1) as [F1 F2], (G _ _ Hp2 Hq2) as [G1 G2].
  pose proof (Rabs_pos (p - q)) as P. split; [|lra].
  assert (N * Rabs (f p - f q) <= N * (M * Rabs (p - q))) as A by (apply Rmult_le_compat_l; auto).
  assert (0 <= N * Rabs (p - q)) by (apply Rmult_le_pos; auto). lra.
Qed.

Lemma loclip_ext f g a : (forall x, f x = g x) -> loclip f a -> loclip g a.
Proof.
  intros E (M & r & HM & Hr & F). exists M, r. split; auto. split; auto. intros p q Hp Hq.
  rewrite <- !E. auto.
Qed.

Lemma loclip_inv b : b <> 0 -> loclip Rinv b.
Proof.
  intros Hb. assert (0 < Rabs b) as Hp by (apply Rabs_pos_lt; auto).
  set (r := Rabs b / 2). assert (0 < r) as Hr by (unfold r; lra).
  assert (0 < / r) as Hi by (apply Rinv_0_lt_compat; auto).
  assert (0 <= / r * / r) as Hii by (apply Rmult_le_pos; lra).
  exists (/ r * / r + / r), r. split; [lra|]. split; auto.
  assert (forall z, Rabs (z - b) < r -> r < Rabs z /\ z <> 0) as Hz.
  { intros z H. assert (r < Rabs z) as A.
    { pose proof (Rabs_triang_inv b (b - z)) as T. replace (b - (b - z)) with z in T by lra.
      rewrite (Rabs_minus_sym b z) in T. unfold r in *. lra. }
    split; auto. intros ->. rewrite Rabs_R0 in A. lra. }
  intros p q Hpp Hqq. destruct (Hz p Hpp) as [Lp Np], (Hz q Hqq) as [Lq Nq].
  assert (forall z, r < Rabs z -> z <> 0 -> Rabs (/ z) <= / r) as Hinv.
  { intros z L N. rewrite Rabs_inv. apply Rinv_le_contravar; lra. }
  split.
  - replace (/ p - / q) with (- (/ p * / q * (p - q))) by (field; auto).
    rewrite Rabs_Ropp, !Rabs_mult. pose proof (Rabs_pos (p - q)) as P.
    assert (Rabs (/ p) * Rabs (/ q) <= / r * / r) as A
      by (apply Rmult_le_compat; auto using Rabs_pos).
    apply Rmult_le_compat_r; auto. lra.
  - pose proof (Hinv q Lq Nq). lra.
Qed.

Lemma loclip_sqrt b : 0 < b -> loclip sqrt b.
Proof.
  intros Hb. set (r := b / 2). assert (0 < r) as Hr by (unfold r; lra).
  pose proof (sqrt_lt_R0 r Hr) as Hs.
  assert (0 < / sqrt r) as Hi by (apply Rinv_0_lt_compat; auto).
  pose proof (sqrt_pos (2 * b)) as H2.
  exists (/ sqrt r + sqrt (2 * b)), r. split; [lra|]. split; auto.
  intros p q Hp Hq. apply Rabs_def2 in Hp, Hq. unfold r in Hp, Hq. split.
  - assert (sqrt r <= sqrt p) as A by (apply sqrt_le_1; unfold r; lra).
    assert (0 <= sqrt q) as B by (apply sqrt_pos).
    assert (sqrt p - sqrt q = (p - q) * / (sqrt p + sqrt q)) as ->.
    { pose proof (sqrt_sqrt p ltac:(lra)) as E1. pose proof (sqrt_sqrt q ltac:(lra)) as E2.
      replace (p - q) with ((sqrt p - sqrt q) * (sqrt p + sqrt q)) by (ring_simplify; lra).
      field. lra. }
    rewrite Rabs_mult, Rmult_comm. apply Rmult_le_compat_r; [apply Rabs_pos|].
    rewrite Rabs_right. 2:{ apply Rle_ge, Rlt_le, Rinv_0_lt_compat. lra. }
    assert (/ (sqrt p + sqrt q) <= / sqrt r) by (apply Rinv_le_contravar; lra). lra.
  - rewrite Rabs_right by (apply Rle_ge, sqrt_pos).
    assert (sqrt q <= sqrt (2 * b)) by (apply sqrt_le_1; lra). lra.
Qed.

(** A function with a bounded derivative near the point. *)
Lemma loclip_deriv g g' a M r :
  0 <= M -> 0 < r -> (forall p, Rabs (p - a) < r -> derivable_pt_lim g p (g' p)) ->
  (forall p, Rabs (p - a) < r -> Rabs (g' p) <= M) -> loclip g a.
Proof.
  intros HM Hr D B. pose proof (Rabs_pos (g a)) as Ga.
  assert (0 <= M * r) as Hmr by (apply Rmult_le_pos; lra).
  exists (M + M * r + Rabs (g a)), r. split; [lra|]. split; auto.
  assert (forall p q, Rabs (p - a) < r -> Rabs (q - a) < r -> Rabs (g p - g q) <= M * Rabs (p - q))
    as L.
  { intros p q Hp Hq. destruct (mean_value g g' a r D p q Hp Hq) as (c & Hc & _ & ->).
    rewrite Rabs_mult. apply Rmult_le_compat_r; [apply Rabs_pos|auto]. }
  assert (Rabs (a - a) < r) as Ha.
  { replace (a - a) with 0 by lra. rewrite Rabs_R0; auto. }
  intros p q Hp Hq. split.
  - pose proof (L p q Hp Hq). pose proof (Rabs_pos (p - q)).
    assert (0 <= (M * r + Rabs (g a)) * Rabs (p - q)) by (apply Rmult_le_pos; lra). lra.
  - replace (g q) with ((g q - g a) + g a) by lra. eapply Rle_trans; [apply Rabs_triang|].
    pose proof (L q a Hq Ha) as A. pose proof (Rabs_pos (q - a)).
    assert (M * Rabs (q - a) <= M * r) by (apply Rmult_le_compat_l; lra). lra.
Qed.

Lemma loclip_sin a : loclip sin a.
Proof.
  apply (loclip_deriv sin cos a 1 1); try lra.
  - intros p _. apply derivable_pt_lim_sin.
  - intros p _. apply Rabs_le. apply COS_bound.
Qed.

Lemma loclip_cos a : loclip cos a.
Proof.
  apply (loclip_deriv cos (fun x => - sin x) a 1 1); try lra.
  - intros p _. apply derivable_pt_lim_cos.
  - intros p _. rewrite Rabs_Ropp. apply Rabs_le. apply SIN_bound.
Qed.

Lemma loclip_exp a : loclip exp a.
Proof.
  pose proof (exp_pos (a + 1)).
  apply (loclip_deriv exp exp a (exp (a + 1)) 1); try lra.
  - intros p _. apply derivable_pt_lim_exp.
  - intros p Hp. pose proof (exp_pos p). rewrite Rabs_right by lra.
    apply Rabs_def2 in Hp. apply Rlt_le, exp_increasing. lra.
Qed.

Lemma loclip_opp f a : loclip f a -> loclip (fun x => - f x) a.
Proof.
  intros H. apply (loclip_ext (fun x => (-1) * f x)); [intros; ring|].
  apply loclip_mult; auto. apply loclip_const.
Qed.

Lemma loclip_pow n a : loclip (fun x => x ^ n) a.
Proof.
  induction n; cbn [pow].
  - apply loclip_const.
  - apply loclip_mult; auto. apply loclip_id.
Qed.

Lemma loclip_powerRZ n a : a <> 0 \/ (0 <= n)%Z -> loclip (fun x => powerRZ x n) a.
Proof.
  intros H. destruct (Z_le_gt_dec 0 n) as [Hn|Hn].
  - apply (loclip_ext (fun x => x ^ Z.to_nat n)); [|apply loclip_pow].
    intros x. rewrite <- powerRZ_nat. rewrite Z2Nat.id by lia. reflexivity.
  - assert (a <> 0) as Ha by (destruct H; auto; lia).
    apply (loclip_ext (fun x => / x ^ Z.to_nat (- n))).
    + intros x. rewrite <- powerRZ_nat. rewrite Z2Nat.id by lia. rewrite <- powerRZ_neg'.
      f_equal. lia.
    + apply (loclip_comp (fun x => x ^ Z.to_nat (- n)) Rinv); [apply loclip_pow|].
      apply loclip_inv, pow_nonzero; auto.
Qed.

(** ** The elementary functions *)
Lemma near_ne a : a <> 0 -> exists r, 0 < r /\ forall p, Rabs (p - a) < r -> p <> 0.
Proof.
  intros H. exists (Rabs a). split; [apply Rabs_pos_lt; auto|]. intros p Hp ->.
  replace (0 - a) with (- a) in Hp by lra. rewrite Rabs_Ropp in Hp. lra.
Qed.

Lemma c11_sin a : c11 sin cos a.
Proof.
  apply c11_intro; [|apply loclip_cos]. exists 1. split; [lra|]. intros. apply derivable_pt_lim_sin.
Qed.
Lemma c11_cos a : c11 cos (fun x => - sin x) a.
Proof.
  apply c11_intro; [|apply loclip_opp, loclip_sin]. exists 1. split; [lra|].
  intros. apply derivable_pt_lim_cos.
Qed.
Lemma c11_exp a : c11 exp exp a.
Proof.
  apply c11_intro; [|apply loclip_exp]. exists 1. split; [lra|]. intros. apply derivable_pt_lim_exp.
Qed.
Lemma c11_inv a : a <> 0 -> c11 Rinv (fun x => - / (x * x)) a.
Proof.
  intros H. apply c11_intro.
  - destruct (near_ne a H) as (r & Hr & N). exists r. split; auto. intros p Hp. apply d_inv; auto.
  - apply loclip_opp, (loclip_comp (fun x => x * x) Rinv).
    + apply loclip_mult; apply loclip_id.
    + apply loclip_inv. apply Rmult_integral_contrapositive; auto.
Qed.
Lemma c11_ln a : 0 < a -> c11 ln Rinv a.
Proof.
  intros H. apply c11_intro; [|apply loclip_inv; lra]. exists a. split; auto. intros p Hp.
  apply Rabs_def2 in Hp. apply derivable_pt_lim_ln. lra.
Qed.
Lemma c11_atan a : c11 atan (fun x => / (1 + x * x)) a.
Proof.
  apply c11_intro.
  - exists 1. split; [lra|]. intros p _. pose proof (derivable_pt_lim_atan p) as D.
    replace (p * p) with (p ^ 2) by ring. exact D.
  - apply (loclip_comp (fun x => 1 + x * x) Rinv).
    + apply loclip_plus; [apply loclip_const|]. apply loclip_mult; apply loclip_id.
    + apply loclip_inv. pose proof (Rle_0_sqr a). unfold Rsqr in *. lra.
Qed.

Lemma unit_pos a : -1 < a < 1 -> 0 < 1 - a * a.
Proof.
  intros H. replace (1 - a * a) with ((1 - a) * (1 + a)) by ring. apply Rmult_lt_0_compat; lra.
Qed.

Lemma near_unit a : -1 < a < 1 -> exists r, 0 < r /\ forall p, Rabs (p - a) < r -> -1 < p < 1.
Proof.
  intros H. exists (Rmin (a + 1) (1 - a)). split; [apply Rmin_pos; lra|]. intros p Hp.
  pose proof (Rmin_l (a + 1) (1 - a)). pose proof (Rmin_r (a + 1) (1 - a)).
  apply Rabs_def2 in Hp. lra.
Qed.

Lemma loclip_isqrt a : -1 < a < 1 -> loclip (fun x => / sqrt (1 - x * x)) a.
Proof.
  intros H. pose proof (unit_pos a H) as U.
  apply (loclip_comp (fun x => sqrt (1 - x * x)) Rinv).
  - apply (loclip_comp (fun x => 1 - x * x) sqrt); [|apply loclip_sqrt; auto].
    apply (loclip_ext (fun x => 1 + - (x * x))); [intros; ring|].
    apply loclip_plus; [apply loclip_const|]. apply loclip_opp, loclip_mult; apply loclip_id.
  - apply loclip_inv. pose proof (sqrt_lt_R0 _ U). lra.
Qed.

Lemma c11_asin a : -1 < a < 1 -> c11 asin (fun x => / sqrt (1 - x * x)) a.
Proof.
  intros H. apply c11_intro; [|apply loclip_isqrt; auto].
  destruct (near_unit a H) as (r & Hr & N). exists r. split; auto. intros p Hp.
  replace (/ sqrt (1 - p * p)) with (1 / sqrt (1 - p²)) by (unfold Rsqr, Rdiv; ring).
  apply d_asin; auto.
Qed.

Lemma c11_acos a : -1 < a < 1 -> c11 acos (fun x => - / sqrt (1 - x * x)) a.
Proof.
  intros H. apply c11_intro; [|apply loclip_opp, loclip_isqrt; auto].
  destruct (near_unit a H) as (r & Hr & N). exists r. split; auto. intros p Hp.
  replace (- / sqrt (1 - p * p)) with (-1 / sqrt (1 - p²)) by (unfold Rsqr, Rdiv; ring).
  apply d_acos; auto.
Qed.

Lemma c11_powerRZ n a : a <> 0 \/ (1 <= n)%Z ->
  c11 (fun x => powerRZ x n) (fun x => IZR n * powerRZ x (n - 1)) a.
Proof.
  intros H. apply c11_intro.
  - destruct H as [H|H].
    + destruct (near_ne a H) as (r & Hr & N). exists r. split; auto. intros p Hp.
      apply d_powerRZ. left. apply N; auto.
    + exists 1. split; [lra|]. intros p Hp. apply d_powerRZ. auto.
  - apply loclip_mult; [apply loclip_const|]. apply loclip_powerRZ. destruct H; auto. right; lia.
Qed.
