(** Linear algebra on lists of reals. *)
From Coq Require Import Reals Lra List Arith Bool Lia.
From Verif Require Import Base Float Operation Tape Spec TapeFacts RealInst DerivSpec DerivFacts LinearFacts
  DerivFacts2 Matrix MatrixFacts Jacobian JacobianFacts AbsNormal AbsNormalFacts AnfSpec.
Import ListNotations.
Open Scope R_scope.

Lemma nth_ext0 (x y : list R) : length x = length y ->
  (forall i, (i < length x)%nat -> nth i x 0 = nth i y 0) -> x = y.
Proof. intros L H. apply (nth_ext x y 0 0); auto. Qed.

Lemma nth_zip (f : R -> R -> R) x : forall y i, (i < length x)%nat -> (i < length y)%nat ->
  nth i (map (fun p => f (fst p) (snd p)) (combine x y)) 0 = f (nth i x 0) (nth i y 0).
Proof. induction x as [|a x IH]; intros [|b y] [|i] H1 H2; cbn in *; try lia; auto. apply IH; lia. Qed.

Lemma zip_length (f : R -> R -> R) x y : length x = length y ->
  length (map (fun p => f (fst p) (snd p)) (combine x y)) = length x.
Proof. intros H. rewrite map_length, combine_length. lia. Qed.

Lemma nth_vadd x y i : length x = length y -> nth i (vadd x y) 0 = nth i x 0 + nth i y 0.
Proof.
  intros L. destruct (Nat.lt_ge_cases i (length x)) as [H|H].
  - apply (nth_zip Rplus); lia.
  - rewrite !nth_overflow; try lia; [ring|]. unfold vadd. rewrite (zip_length Rplus); lia.
Qed.
Lemma nth_vsub x y i : length x = length y -> nth i (vsub x y) 0 = nth i x 0 - nth i y 0.
Proof.
  intros L. destruct (Nat.lt_ge_cases i (length x)) as [H|H].
  - apply (nth_zip Rminus); lia.
  - rewrite !nth_overflow; try lia; [ring|]. unfold vsub. rewrite (zip_length Rminus); lia.
Qed.
Lemma nth_vmul x y i : length x = length y -> nth i (vmul x y) 0 = nth i x 0 * nth i y 0.
Proof.
  intros L. destruct (Nat.lt_ge_cases i (length x)) as [H|H].
  - apply (nth_zip Rmult); lia.
  - rewrite !nth_overflow; try lia; [ring|]. unfold vmul. rewrite (zip_length Rmult); lia.
Qed.
Lemma vadd_len x y : length x = length y -> length (vadd x y) = length x.
Proof. intros. apply (zip_length Rplus); auto. Qed.
Lemma vsub_len x y : length x = length y -> length (vsub x y) = length x.
Proof. intros. apply (zip_length Rminus); auto. Qed.
Lemma vmul_len x y : length x = length y -> length (vmul x y) = length x.
Proof. intros. apply (zip_length Rmult); auto. Qed.
Lemma vabs_len x : length (vabs x) = length x.
Proof. apply map_length. Qed.
Lemma nth_vabs x i : nth i (vabs x) 0 = Rabs (nth i x 0).
Proof. unfold vabs. rewrite <- Rabs_R0 at 1. apply map_nth. Qed.
Lemma nth_vneg x i : nth i (map Ropp x) 0 = - nth i x 0.
Proof. rewrite <- Ropp_0 at 1. apply map_nth. Qed.

Lemma dot_vadd_r u : forall x y, length x = length y -> dot u (vadd x y) = dot u x + dot u y.
Proof.
  induction u as [|a u IH]; intros [|b x] [|c y] L; cbn in *; try discriminate; try ring.
  fold (vadd x y). rewrite IH by lia. ring.
Qed.
Lemma dot_vsub_r u : forall x y, length x = length y -> dot u (vsub x y) = dot u x - dot u y.
Proof.
  induction u as [|a u IH]; intros [|b x] [|c y] L; cbn in *; try discriminate; try ring.
  fold (vsub x y). rewrite IH by lia. ring.
Qed.
Lemma dot_vadd_l u x y : length x = length y -> dot (vadd x y) u = dot x u + dot y u.
Proof. intros. rewrite !(dot_sym _ u). apply dot_vadd_r; auto. Qed.
Lemma dot_vmul_l s x : forall y, dot (vmul x s) y = dot x (vmul s y).
Proof.
  revert s; induction x as [|a x IH]; intros [|b s] [|c y]; cbn; auto.
  fold (vmul x s) (vmul s y). rewrite IH. ring.
Qed.
Lemma dot_vneg_r u : forall x, dot u (map Ropp x) = - dot u x.
Proof. induction u as [|a u IH]; intros [|b x]; cbn; try rewrite IH; ring. Qed.

Lemma dot_unit_r n z i : length z = n -> (i < n)%nat -> dot z (unitv Rops n i) = nth i z 0.
Proof. intros. rewrite dot_sym. apply dot_unit; auto. Qed.

(** dot products only see entries *)
Lemma dot_ext u : forall x y, length x = length y ->
  (forall i, nth i u 0 * nth i x 0 = nth i u 0 * nth i y 0) -> dot u x = dot u y.
Proof.
  intros x y L H. assert (dot u (vsub x y) = 0) as E.
  { apply dot_zero. intros i. rewrite nth_vsub by auto. rewrite Rmult_minus_distr_l, H. ring. }
  rewrite dot_vsub_r in E by auto. lra.
Qed.

Lemma dot_nondeg u v : length u = length v ->
  (forall x, length x = length u -> dot u x = dot v x) -> u = v.
Proof.
  intros L H. apply nth_ext0; auto. intros i Hi.
  rewrite <- (dot_unit_r (length u) u i), <- (dot_unit_r (length u) v i) by auto.
  apply H. apply unitv_length.
Qed.

(** ** Matrices *)
Lemma row_ent A i j : nth j (row A i) 0 = ent Rops A i j.
Proof. reflexivity. Qed.
Lemma col_len A j : length (col A j) = length (m_dat A).
Proof. apply map_length. Qed.
Lemma nth_col A i j : nth i (col A j) 0 = ent Rops A i j.
Proof.
  unfold col, ent. cbn [f_zero Rops].
  replace 0 with (nth j (@nil R) 0) at 1 by (destruct j; reflexivity).
  rewrite (map_nth (fun r => nth j r 0)). reflexivity.
Qed.
Lemma row_len A r c i : shape A r c -> (i < r)%nat -> length (row A i) = c.
Proof.
  intros ([L H] & Hr & Hc) Hi. rewrite Forall_forall in H. rewrite <- Hc. apply H.
  apply nth_In. lia.
Qed.
Lemma row_over A r c i : shape A r c -> (r <= i)%nat -> row A i = [].
Proof. intros ([L H] & Hr & Hc) Hi. apply nth_overflow. lia. Qed.
Lemma mulv_len A r c x : shape A r c -> length (mulv A x) = r.
Proof. intros ([L H] & Hr & Hc). unfold mulv. rewrite map_length. lia. Qed.
Lemma nth_mulv A x i : nth i (mulv A x) 0 = dot (row A i) x.
Proof. unfold mulv, row. change 0 with (dot [] x) at 1. apply (map_nth (fun r => dot r x)). Qed.

Lemma mulv_vadd A x y : length x = length y -> mulv A (vadd x y) = vadd (mulv A x) (mulv A y).
Proof.
  intros L. apply nth_ext0.
  - rewrite vadd_len; unfold mulv; rewrite !map_length; auto.
  - intros i _. rewrite nth_vadd by (unfold mulv; rewrite !map_length; auto).
    rewrite !nth_mulv. apply dot_vadd_r; auto.
Qed.
Lemma mulv_vsub A x y : length x = length y -> mulv A (vsub x y) = vsub (mulv A x) (mulv A y).
Proof.
  intros L. apply nth_ext0.
  - rewrite vsub_len; unfold mulv; rewrite !map_length; auto.
  - intros i _. rewrite nth_vsub by (unfold mulv; rewrite !map_length; auto).
    rewrite !nth_mulv. apply dot_vsub_r; auto.
Qed.

Lemma shape_tab r c f : shape (m_tab r c f) r c.
Proof. split; [apply m_tab_wf|auto]. Qed.
Lemma shape_ext A B r c : shape A r c -> shape B r c ->
  (forall i j, (i < r)%nat -> (j < c)%nat -> ent Rops A i j = ent Rops B i j) -> A = B.
Proof.
  intros (WA & RA & CA) (WB & RB & CB) H. apply (mat_ext Rops); auto; try congruence.
  intros i j Hi Hj. apply H; lia.
Qed.

(** matrices are determined by their action *)
Lemma mulv_inj A B r c : shape A r c -> shape B r c ->
  (forall x, length x = c -> mulv A x = mulv B x) -> A = B.
Proof.
  intros HA HB H. apply (shape_ext A B r c); auto. intros i j Hi Hj.
  rewrite <- !row_ent.
  rewrite <- (dot_unit_r c (row A i) j), <- (dot_unit_r c (row B i) j); auto;
    try (eapply row_len; eauto; fail).
  rewrite <- !nth_mulv. rewrite H; auto. apply unitv_length.
Qed.

Lemma vmulm_len x A : length (vmulm x A) = m_cols A.
Proof. unfold vmulm. rewrite map_length, seq_length. auto. Qed.
Lemma nth_vmulm x A j : (j < m_cols A)%nat -> nth j (vmulm x A) 0 = dot x (col A j).
Proof. intros H. unfold vmulm. apply (nth_map_seq (fun j => dot x (col A j))); auto. Qed.

Lemma dot_combine_cols (rows : list (list R)) c y : forall x,
  Forall (fun r => length r = c) rows -> length x = length rows -> length y = c ->
  dot (map (fun j => dot x (map (fun r => nth j r 0) rows)) (seq 0 c)) y
    = dot x (map (fun r => dot r y) rows).
Proof.
  induction rows as [|r rows IH]; intros [|a x] HF Lx Ly; cbn in Lx; try discriminate.
  - cbn.
    transitivity (dot (repeat 0 c) y); [|apply dot_repeat].
    f_equal. clear. generalize 0%nat. induction c; intros s; cbn; f_equal; auto.
  - apply Forall_cons_iff in HF as [Hr HF']. cbn [map dot].
    rewrite <- (IH x) by (auto; lia).
    assert (map (fun j => a * nth j r 0 + dot x (map (fun r0 => nth j r0 0) rows)) (seq 0 c)
      = vadd (map (fun j => a * nth j r 0) (seq 0 c))
             (map (fun j => dot x (map (fun r0 => nth j r0 0) rows)) (seq 0 c))) as ->.
    { apply nth_ext0.
      - rewrite vadd_len; rewrite !map_length; auto.
      - intros j Hj. rewrite map_length, seq_length in Hj.
        rewrite nth_vadd by (rewrite !map_length; auto).
        rewrite !nth_map_seq by auto. reflexivity. }
    rewrite dot_vadd_l by (rewrite !map_length; auto). f_equal.
    assert (map (fun j => a * nth j r 0) (seq 0 c) = vscal a r) as ->.
    { apply nth_ext0; [unfold vscal; rewrite !map_length, seq_length; auto|].
      intros j Hj. rewrite map_length, seq_length in Hj. rewrite nth_map_seq by auto.
      unfold vscal. rewrite <- (Rmult_0_r a) at 2. rewrite map_nth. reflexivity. }
    clear. revert y. induction r as [|b r IHr]; intros [|e y]; cbn; try ring. 
    rewrite IHr. ring.
Qed.

(** (x A) y = x (A y) *)
Lemma vmulm_mulv x A y r c : shape A r c -> length x = r -> length y = c ->
  dot (vmulm x A) y = dot x (mulv A y).
Proof.
  intros ([L H] & Hr & Hc) Lx Ly. unfold vmulm, mulv, col.
  apply dot_combine_cols; auto; try congruence. 
Qed.

Lemma shape_mm A B : shape (mm A B) (m_rows A) (m_cols B).
Proof. apply shape_tab. Qed.
Lemma row_mm A B i : (i < m_rows A)%nat -> row (mm A B) i = vmulm (row A i) B.
Proof. intros H. unfold row at 1, mm, m_tab. cbn. rewrite nth_map_seq by auto. reflexivity. Qed.

Lemma mulv_mm A B x r k c : shape A r k -> shape B k c -> length x = c ->
  mulv (mm A B) x = mulv A (mulv B x).
Proof.
  intros HA HB Lx. destruct HA as (WA & RA & CA), HB as (WB & RB & CB).
  apply nth_ext0.
  - erewrite mulv_len by apply shape_mm. erewrite mulv_len; [|split; eauto]. auto.
  - intros i Hi. erewrite mulv_len in Hi by apply shape_mm.
    rewrite !nth_mulv, row_mm by auto. eapply vmulm_mulv; [split; eauto| |congruence].
    eapply row_len; [split; eauto|congruence].
Qed.
