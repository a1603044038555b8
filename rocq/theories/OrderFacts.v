(** The order of summation in dense products does not matter in exact arithmetic and enters the
    inhomogeneous parts only. *)
From Coq Require Import Reals Lra Lia ZArith NArith Bool List SpecFloat Permutation FunctionalExtensionality.
From Verif Require Import Base Float FloatInst Operation Tape AContext Methods Function Spec Param Instances TapeFacts RealInst F64Facts F64Ops FopsRel BallSpec BallFacts BallMain
  FunctionFacts JacobianFacts CheckSpec Checkpoint CheckMain
  DerivSpec LinearFacts Matrix MatrixFacts AbsNormal AbsNormalFacts AnfSpec RVec AnfFacts AnfFacts2 GenJac GenSpec GenFacts DriverSpec DriverPanics Shape RecordFacts ReplayFacts Replay2 EstF64
  GenBallSpec RelDrivers RelGen GenBallFacts GenBallMain SwitchChain ChainBallSpec ChainBall OrderSpec.
Import ListNotations.
Local Open Scope nat_scope.

(** ** Orders *)
Lemma products_backward n : forall j, products (backward j n) = seq j n.
Proof. induction n as [|n IH]; intros j; cbn; [auto|]. now rewrite IH. Qed.
Lemma backward_valid n : order_of n (backward 0 n).
Proof. unfold order_of. now rewrite products_backward. Qed.
Lemma products_forward n : products (forward n) = seq 0 n.
Proof.
  induction n as [|n IH]; [reflexivity|]. destruct n as [|n]; [reflexivity|]. cbn [forward products].
  cbn [forward] in IH. rewrite IH. rewrite (seq_S (S n)). reflexivity.
Qed.
Lemma forward_valid n : order_of n (forward n).
Proof. unfold order_of. now rewrite products_forward. Qed.

Section One.
Context {F : Type} (Fo : Fops F).
Lemma backward_sum y : forall x j u v, length x = length y -> length u = j -> length v = j ->
  sum_by Fo (backward j (length y)) (u ++ x) (v ++ y) = fdot Fo x y.
Proof.
  induction y as [|b y IH]; intros [|a x] j u v L Lu Lv; try discriminate L; [reflexivity|].
  cbn [length backward sum_by fdot]. rewrite !app_nth2, Lu, Lv, Nat.sub_diag by lia. cbn [nth]. f_equal.
  change (a :: x) with ([a] ++ x). change (b :: y) with ([b] ++ y). rewrite !app_assoc.
  apply IH; [cbn in L; lia|rewrite app_length; cbn; lia..].
Qed.
Lemma forward_sum_S x y n : sum_by Fo (forward (S (S n))) x y =
  f_add Fo (sum_by Fo (forward (S n)) x y) (f_mul Fo (nth (S n) x (f_zero Fo)) (nth (S n) y (f_zero Fo))).
Proof. reflexivity. Qed.
Lemma combine_seq {A} (l : list A) : forall j, map snd (combine (seq j (length l)) l) = l.
Proof. induction l as [|a l IH]; intros j; cbn; [auto|]. now rewrite IH. Qed.

Theorem mulv_backward (A : matrix F) v : wf_mat A -> mulv_by Fo (fun n _ => backward 0 n) A v = m_mulv Fo A v.
Proof.
  intros [W1 W2]. unfold mulv_by, m_mulv. destruct (Nat.eqb_spec (m_cols A) (length v)) as [E|]; [|reflexivity]. f_equal.
  rewrite <- (combine_seq (m_dat A) 0) at 3. rewrite map_map. apply map_ext_in. intros [i row] Hp. cbn [fst snd].
  apply in_combine_r in Hp. apply (backward_sum v row 0 [] []); auto.
  rewrite Forall_forall in W2. rewrite (W2 _ Hp). auto.
Qed.
End One.

(** ** In exact arithmetic *)
Local Open Scope R_scope.
Definition sumR (l : list R) : R := fold_right Rplus 0 l.
Lemma sumR_app a b : sumR (a ++ b) = sumR a + sumR b.
Proof. unfold sumR. induction a as [|r a IH]; cbn [app fold_right]; [symmetry; apply Rplus_0_l|]. rewrite IH. symmetry. apply Rplus_assoc. Qed.
Lemma sumR_perm a b : Permutation a b -> sumR a = sumR b.
Proof. induction 1; unfold sumR in *; cbn in *; lra. Qed.
Lemma sum_by_R o x y : sum_by Rops o x y = sumR (map (fun j => nth j x 0 * nth j y 0) (products o)).
Proof.
  induction o as [j|l IHl r IHr|]; cbn [sum_by products map sumR fold_right]; [cbn; lra| |reflexivity]. rewrite map_app, sumR_app, IHl, IHr. reflexivity.
Qed.
Lemma sumR_seq y : forall x j u v, length u = j -> length v = j ->
  sumR (map (fun k => nth k (u ++ x) 0 * nth k (v ++ y) 0) (seq j (length y))) = fdot Rops x y.
Proof.
  induction y as [|b y IH]; intros x j u v Lu Lv; [destruct x; reflexivity|].
  cbn [length seq map sumR fold_right]. rewrite !app_nth2, Lu, Lv, Nat.sub_diag by lia. cbn [nth].
  destruct x as [|a x]; cbn [nth fdot].
  - fold (sumR (map (fun k => nth k (u ++ []) 0 * nth k (v ++ b :: y) 0) (seq (S j) (length y)))).
    enough (forall l, (forall k, In k l -> (j <= k)%nat) -> sumR (map (fun k => nth k (u ++ []) 0 * nth k (v ++ b :: y) 0) l) = 0) as Z.
    { rewrite Z; [cbn; lra|]. intros k Hk. apply in_seq in Hk. lia. }
    intros l. induction l as [|k l IHl]; intros Hl; [reflexivity|]. cbn [map sumR fold_right].
    rewrite (nth_overflow (u ++ [])) by (rewrite app_nil_r, Lu; apply Hl; left; auto).
    unfold sumR in IHl. rewrite IHl; [lra|]. intros; apply Hl; right; auto.
  - change (f_add Rops) with Rplus. change (f_mul Rops) with Rmult. f_equal.
    rewrite <- (IH x (S j) (u ++ [a]) (v ++ [b])) by (rewrite app_length; cbn; lia). rewrite <- !app_assoc. reflexivity.
Qed.
Theorem mulv_exact s : valid s -> mulv_by Rops s = m_mulv Rops.
Proof.
  intros HV. extensionality A. extensionality v. unfold mulv_by, m_mulv. destruct (_ =? _)%nat; [|reflexivity]. f_equal.
  rewrite <- (combine_seq (m_dat A) 0) at 3. rewrite map_map. apply map_ext. intros [i row]. cbn [fst snd].
  rewrite sum_by_R. rewrite (sumR_perm _ (map (fun j => nth j row 0 * nth j v 0) (seq 0 (length v)))) by (apply Permutation_map, HV).
  apply (sumR_seq v row 0 [] []); auto.
Qed.

Theorem abs_normal_exact red o t : valid2 o -> abs_normal_by Rops red o t = abs_normal_tape Rops red t.
Proof. intros [V1 V2]. unfold abs_normal_by. rewrite !mulv_exact by auto. reflexivity. Qed.
Theorem gj_exact red o t dx bits next : valid2 o -> gj_by Rops red o t dx bits next = generalized_jacobian_tape Rops red t dx bits next.
Proof. intros [V1 V2]. unfold gj_by. rewrite !mulv_exact by auto. reflexivity. Qed.
Theorem chain_exact red os est c x dx k w : (forall i, valid2 (os i)) ->
  generalized_jacobian_chain_by Rops red os est c x dx k w = generalized_jacobian_chain Rops red est c x dx k w.
Proof.
  intros HV. unfold generalized_jacobian_chain_by, generalized_jacobian_chain.
  assert (gj_reverse_by Rops red os c = gj_reverse Rops red c) as ->; [|reflexivity].
  extensionality st. extensionality g. extensionality w0. destruct st as [[i x0] dx0]. unfold gj_reverse_by, gj_reverse, mbind.
  destruct (mlift (chain_nth c i) w0) as [[f w1]|]; [|reflexivity].
  unfold generalized_jacobian_by, generalized_jacobian, mbind. destruct (mlift (fn_n f) w1) as [[n w2]|]; [|reflexivity].
  destruct (mlift (assert _) w2) as [[u w3]|]; [|reflexivity]. destruct (fn_tape Rops f x0 w3) as [[t w4]|]; [|reflexivity].
  rewrite gj_exact by auto. reflexivity.
Qed.
