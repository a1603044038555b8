(** Builder programs whose registers are all in range run through in every arithmetic. *)
From Coq Require Import List Arith ZArith Bool Lia.
From Verif Require Import Base Float Operation Tape AContext Methods Function Spec Param Instances TapeFacts Build PairBuild.
Import ListNotations.

Section Range.
Context {F : Type} (Fo : Fops F).

Fixpoint fits (r : nat) (p : prog F) : Prop :=
  match p with
  | Ret outs => Forall (fun a => a < r) outs
  | LetC _ p' => fits (S r) p'
  | Let1 u a p' => u <> UUnsupported /\ a < r /\ fits (S r) p'
  | Let2 b a1 a2 p' => b <> BUnsupported /\ a1 < r /\ a2 < r /\ fits (S r) p'
  | LetMulAdd a1 a2 a3 p' => a1 < r /\ a2 < r /\ a3 < r /\ fits (S r) p'
  | Inspect _ _ | Abort => False
  end.

Lemma get_lt_ok {A} (l : list A) i : i < length l -> exists a, get l i = Ok a.
Proof. intros H. unfold get. destruct (nth_error l i) eqn:E; eauto. apply nth_error_None in E. lia. Qed.

Lemma meth1_total u x : u <> UUnsupported -> exists r, meth1 Fo (v_fop Fo) (fun c => c) u x tt = Ok (r, tt).
Proof. destruct u; intros H; try congruence; eexists; reflexivity. Qed.
Lemma meth2_total b x y : b <> BUnsupported -> exists r, meth2 Fo (v_fop Fo) (fun c => c) b x y tt = Ok (r, tt).
Proof. destruct b; intros H; try congruence; eexists; reflexivity. Qed.

Lemma fits_run p : forall env, fits (length env) p ->
  exists ys, run Fo (v_fop Fo) (fun c => c) (fun v => v) p env tt = Ok (ys, tt) /\ length ys = length (rets p).
Proof.
  assert (forall (env : list F) v, length (env ++ [v]) = S (length env)) as L by (intros; rewrite app_length; cbn; lia).
  induction p as [os|v p IH|u a p IH|b a1 a2 p IH|a1 a2 a3 p IH|a k IH|]; cbn [fits rets run]; intros env H; try contradiction.
  - unfold mlift. destruct (mapM_total (get env) os) as [ys E].
    + intros a Ha. rewrite Forall_forall in H. apply get_lt_ok; auto.
    + rewrite E. exists ys. split; [auto|]. eapply mapM_ok_length; eauto.
  - apply IH. now rewrite L.
  - destruct H as (Hu & Ha & H). unfold mbind, mlift. destruct (get_lt_ok env a Ha) as [x ->].
    destruct (meth1_total u x Hu) as [r ->]. apply IH. now rewrite L.
  - destruct H as (Hb & Ha & Ha' & H). unfold mbind, mlift. destruct (get_lt_ok env a1 Ha) as [x ->].
    destruct (get_lt_ok env a2 Ha') as [y ->]. destruct (meth2_total b x y Hb) as [r ->]. apply IH. now rewrite L.
  - destruct H as (Ha & Hb & Hc & H). unfold mbind, mlift. destruct (get_lt_ok env a1 Ha) as [x ->].
    destruct (get_lt_ok env a2 Hb) as [y ->]. destruct (get_lt_ok env a3 Hc) as [z ->].
    assert (exists r, m_mul_add (v_fop Fo) x y z tt = Ok (r, tt)) as [r Er] by (eexists; reflexivity).
    unfold mbind, mlift in *. rewrite Er. apply IH. now rewrite L.
Qed.

Lemma fits_straight p : forall r, fits r p -> straight p.
Proof.
  induction p as [os|v p IH|u a p IH|b a1 a2 p IH|a1 a2 a3 p IH|a k IH|]; cbn; intros r H; auto; try contradiction;
    intuition eauto.
Qed.

(** A builder started with [r] registers in use ends with a result satisfying [Q]. *)
Definition rsem {A} (m : builder F A) (r : nat) (Q : A -> nat -> Prop) : Prop :=
  exists a r', r <= r' /\ Q a r' /\
    forall k, (fits r' (k a r') -> fits r (m k r)) /\ rets (m k r) = rets (k a r').

Lemma rsem_ret {A} (a : A) r (Q : A -> nat -> Prop) : Q a r -> rsem (b_ret a) r Q.
Proof. intros H. exists a, r. repeat split; auto. Qed.
Lemma rsem_bind {A B} (m : builder F A) (f : A -> builder F B) r (Q : B -> nat -> Prop) :
  rsem m r (fun a r' => r <= r' -> rsem (f a) r' Q) -> rsem (b_bind m f) r Q.
Proof.
  intros (a & r1 & L1 & H1 & R1). destruct (H1 L1) as (b & r2 & L2 & H2 & R2). exists b, r2. split; [lia|]. split; [auto|].
  intros k. unfold b_bind. destruct (R1 (fun a r' => f a k r')) as [A1 ->]. destruct (R2 k) as [A2 ->]. split; auto.
Qed.
Lemma rsem_conseq {A} (m : builder F A) r (P Q : A -> nat -> Prop) :
  rsem m r P -> (forall a r', r <= r' -> P a r' -> Q a r') -> rsem m r Q.
Proof. intros (a & r' & L & H & R) HQ. exists a, r'. auto. Qed.
Lemma rsem_const c r (Q : nat -> nat -> Prop) : Q r (r + 1) -> rsem (b_const c) r Q.
Proof.
  intros H. exists r, (r + 1). split; [lia|]. split; [auto|]. intros k. unfold b_const. cbn [fits rets].
  rewrite Nat.add_1_r. auto.
Qed.
Lemma rsem_bin b a1 a2 r (Q : nat -> nat -> Prop) : b <> BUnsupported -> a1 < r -> a2 < r -> Q r (r + 1) -> rsem (b_bin b a1 a2) r Q.
Proof.
  intros Hb H1 H2 H. exists r, (r + 1). split; [lia|]. split; [auto|]. intros k. unfold b_bin. cbn [fits rets].
  rewrite Nat.add_1_r. auto.
Qed.
Lemma rsem_get rs i r (Q : nat -> nat -> Prop) : i < length rs -> (forall a, nth_error rs i = Some a -> Q a r) -> rsem (b_get rs i) r Q.
Proof.
  intros Hi H. unfold b_get. destruct (nth_error rs i) eqn:E; [apply rsem_ret; auto|]. apply nth_error_None in E. lia.
Qed.
Lemma rsem_set rs i a r (Q : list nat -> nat -> Prop) : i < length rs -> Q (update rs i a) r -> rsem (b_set rs i a) r Q.
Proof.
  intros Hi H. unfold b_set. destruct (nth_error rs i) eqn:E; [apply rsem_ret; auto|]. apply nth_error_None in E. lia.
Qed.
Lemma rsem_for {A B} (f : B -> A -> builder F B) (I : B -> nat -> Prop) (l : list A) : forall s r, I s r ->
  (forall a s r, In a l -> I s r -> rsem (f s a) r I) -> rsem (b_for f l s) r I.
Proof.
  induction l as [|a l IH]; intros s r Hs H; cbn [b_for]; [apply rsem_ret; auto|].
  apply rsem_bind. eapply rsem_conseq; [apply H; [now left|auto]|].
  intros s' r' _ Hs' _. apply IH; auto. intros a' s0 r0 Ha. apply H. now right.
Qed.

Lemma body_fits n (m : list nat -> builder F (list nat)) (Q : list nat -> Prop) :
  rsem (m (seq 0 n)) n (fun outs r => Forall (fun a => a < r) outs /\ Q outs) ->
  fits n (b_body n m) /\ Q (rets (b_body n m)).
Proof.
  intros (outs & r' & _ & [H HQ] & R). unfold b_body. destruct (R (fun outs _ => Ret outs)) as [A ->]. cbn in *. auto.
Qed.

Lemma lt_update r rs i a : a < r -> Forall (fun a => a < r) rs -> Forall (fun a => a < r) (update rs i a).
Proof.
  intros Ha H. revert i. induction H as [|b rs Hb H IH]; intros [|i]; cbn; constructor; auto.
Qed.
Lemma lt_mono r r' rs : r <= r' -> Forall (fun a => a < r) rs -> Forall (fun a => a < r') rs.
Proof. intros L. apply Forall_impl. intros; lia. Qed.
Lemma lt_nth r rs i a : Forall (fun a => a < r) rs -> nth_error rs i = Some a -> a < r.
Proof. intros H E. rewrite Forall_forall in H. apply H. eapply nth_error_In; eauto. Qed.
End Range.
