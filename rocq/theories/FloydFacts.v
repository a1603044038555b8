(** The shortest-path example computes shortest paths. *)
From Coq Require Import Reals Lra List Arith ZArith Bool Lia.
From Verif Require Import Base Float Operation Tape AContext Methods Function Spec TapeFacts RealInst Param Instances
  FunctionFacts ReplayFacts MethodSpec MethodFacts Build BuildFacts Programs FloydSpec.
Import ListNotations.
Open Scope R_scope.

(** ** Walks *)
Section Walks.
Context (n : nat) (W : nat -> nat -> R).

Lemma walk_app i m j v w : walk n W i m v -> walk n W m j w -> walk n W i j (v + w).
Proof.
  intros H1 H2. induction H1 as [i m Hi Hm|i k m v Hi H1 IH].
  - now constructor.
  - rewrite Rplus_assoc. constructor; auto.
Qed.

Lemma walk_lt i j w : walk n W i j w -> (i < n /\ j < n)%nat.
Proof. induction 1; intuition. Qed.

(** walks whose intermediate vertices are below b *)
Inductive walkb (b : nat) : nat -> nat -> R -> Prop :=
| walkb_edge i j : (i < n)%nat -> (j < n)%nat -> walkb b i j (W i j)
| walkb_cons i m j w : (i < n)%nat -> (m < b)%nat -> walkb b m j w -> walkb b i j (W i m + w).

Lemma walk_walkb i j w : walk n W i j w -> walkb n i j w.
Proof.
  induction 1 as [|i m j w Hi H IH]; [now constructor|]. constructor; auto. apply (walk_lt _ _ _ H).
Qed.
Lemma walkb_walk b i j w : walkb b i j w -> walk n W i j w.
Proof. induction 1; constructor; auto. Qed.

Lemma walkb_split b i j w : no_negative_cycle n W -> (b < n)%nat -> walkb (S b) i j w ->
  (exists v, v <= w /\ walkb b i j v) \/
  (exists v1 v2, v1 + v2 <= w /\ walkb b i b v1 /\ walkb b b j v2).
Proof.
  intros NN Hb. induction 1 as [i j Hi Hj|i m j w Hi Hm H IH].
  - left. exists (W i j). split; [lra|now constructor].
  - destruct (Nat.eq_dec m b) as [->|Hne].
    + right. destruct IH as [(v & Hv & H1)|(v1 & v2 & Hv & H1 & H2)].
      * exists (W i b), v. repeat split; auto; [lra|now constructor].
      * exists (W i b), v2. repeat split; auto; [|now constructor].
        pose proof (NN b v1 (walkb_walk _ _ _ _ H1)). lra.
    + assert (m < b)%nat by lia.
      destruct IH as [(v & Hv & H1)|(v1 & v2 & Hv & H1 & H2)].
      * left. exists (W i m + v). split; [lra|now constructor].
      * right. exists (W i m + v1), v2. repeat split; auto; [lra|now constructor].
Qed.

(** D holds weights of walks and is at most every walk with intermediate vertices below b *)
Definition upto (b : nat) (D : nat -> nat -> R) : Prop :=
  forall i j, (i < n)%nat -> (j < n)%nat ->
    walk n W i j (D i j) /\ forall w, walkb b i j w -> D i j <= w.

Lemma upto_0 D : (forall i j, (i < n)%nat -> (j < n)%nat -> D i j = W i j) -> upto 0 D.
Proof.
  intros H i j Hi Hj. rewrite H by auto. split; [now constructor|].
  intros w Hw. inversion Hw; subst; [lra|lia].
Qed.

Lemma upto_step b D D' : no_negative_cycle n W -> (b < n)%nat -> upto b D ->
  (forall i j, (i < n)%nat -> (j < n)%nat -> D' i j = Rmin (D i j) (D i b + D b j)) -> upto (S b) D'.
Proof.
  intros NN Hb HD HD' i j Hi Hj. rewrite HD' by auto.
  destruct (HD i j Hi Hj) as (S1 & L1), (HD i b Hi Hb) as (S2 & L2), (HD b j Hb Hj) as (S3 & L3).
  split.
  - apply Rmin_case; [auto|]. eapply walk_app; eauto.
  - intros w Hw. destruct (walkb_split b i j w NN Hb Hw) as [(v & Hv & H)|(v1 & v2 & Hv & H & H')].
    + apply Rle_trans with (D i j); [apply Rmin_l|]. specialize (L1 v H). lra.
    + apply Rle_trans with (D i b + D b j); [apply Rmin_r|]. specialize (L2 v1 H). specialize (L3 v2 H'). lra.
Qed.

Lemma upto_shortest D : upto n D -> forall i j, (i < n)%nat -> (j < n)%nat -> shortest n W i j (D i j).
Proof.
  intros H i j Hi Hj. destruct (H i j Hi Hj) as (S & L). split; [auto|]. intros w Hw. apply L. now apply walk_walkb.
Qed.
End Walks.

(** ** One step *)
Lemma idx_lt n i j : (i < n)%nat -> (j < n)%nat -> (i * n + j < n * n)%nat.
Proof. intros. nia. Qed.
Lemma idx_inj n i j i' j' : (j < n)%nat -> (j' < n)%nat -> (i * n + j = i' * n + j')%nat -> i = i' /\ j = j'.
Proof.
  intros Hj Hj' E. assert (i = i') by nia. subst. split; auto. lia.
Qed.

Lemma at_update n v i j i' j' a : length v = (n * n)%nat -> (i < n)%nat -> (j < n)%nat -> (j' < n)%nat ->
  at_ n (update v (i * n + j) a) i' j' = if (i' =? i) && (j' =? j) then a else at_ n v i' j'.
Proof.
  intros L Hi Hj Hj'. unfold at_. pose proof (idx_lt n i j Hi Hj) as Hl.
  destruct ((i' =? i)%nat && (j' =? j)%nat) eqn:E.
  - apply andb_true_iff in E as [E1 E2]. apply Nat.eqb_eq in E1, E2. subst.
    apply nth_error_nth. apply nth_error_update_eq. lia.
  - destruct (Nat.eq_dec (i * n + j) (i' * n + j')) as [Eq|Ne].
    + apply idx_inj in Eq as [-> ->]; auto. rewrite !Nat.eqb_refl in E. discriminate.
    + pose proof (nth_error_update_neq v (i * n + j) (i' * n + j') a Ne) as H.
      destruct (nth_error v (i' * n + j')) eqn:E1.
      * rewrite (nth_error_nth _ _ 0 H). symmetry. now apply nth_error_nth.
      * rewrite !nth_overflow; auto; apply nth_error_None; auto.
Qed.

Definition cellv (n k : nat) (v : list R) (ij : nat * nat) : list R :=
  let '(i, j) := ij in update v (i * n + j) (Rmin (at_ n v i j) (at_ n v i k + at_ n v k j)).
Definition stepv (n k : nat) (v : list R) : list R :=
  fold_left (cellv n k) (list_prod (seq 0 n) (seq 0 n)) v.

Lemma cells_in n i j : In (i, j) (list_prod (seq 0 n) (seq 0 n)) <-> (i < n)%nat /\ (j < n)%nat.
Proof. rewrite in_prod_iff, !in_seq. lia. Qed.

Lemma pair_dec (p q : nat * nat) : {p = q} + {p <> q}.
Proof. decide equality; apply Nat.eq_dec. Qed.
Lemma NoDup_prod {A B} (l : list A) (l' : list B) : NoDup l -> NoDup l' -> NoDup (list_prod l l').
Proof.
  intros H H'. induction H as [|a l Ha H IH]; cbn; [constructor|].
  assert (NoDup (map (fun y => (a, y)) l')) as Hm.
  { clear -H'. induction H' as [|b l' Hb H' IH]; cbn; constructor; auto.
    intros Hin. apply in_map_iff in Hin as (y & E & Hy). injection E as ->. contradiction. }
  assert (forall z, In z (map (fun y => (a, y)) l') -> ~ In z (list_prod l l')) as Hd.
  { intros z Hz Hz'. apply in_map_iff in Hz as (y & <- & Hy). apply in_prod_iff in Hz' as [Hl _]. contradiction. }
  revert Hd. induction Hm as [|z m Hz Hm IHm]; intros Hd; cbn; auto. constructor.
  - rewrite in_app_iff. intros [Hin|Hin]; [contradiction|]. apply (Hd z); cbn; auto.
  - apply IHm. intros y Hy. apply Hd. cbn. auto.
Qed.

Lemma holds_len env rs vs : holds env rs vs -> length rs = length vs.
Proof. induction 1; cbn; auto. Qed.
Lemma holds_nth env rs vs i v : holds env rs vs -> nth_error vs i = Some v ->
  exists a, nth_error rs i = Some a /\ nth_error env a = Some v.
Proof.
  intros H. revert i. induction H as [|a b rs vs E H IH]; intros [|i] Hv; try discriminate; cbn in *; eauto.
  injection Hv as <-. eauto.
Qed.
Lemma holds_update env rs vs i a v : holds env rs vs -> nth_error env a = Some v ->
  holds env (update rs i a) (update vs i v).
Proof.
  intros H E. revert i. induction H as [|b c rs vs E' H IH]; intros [|i]; cbn; constructor; auto. apply IH.
Qed.
Lemma nth_at n v i j : length v = (n * n)%nat -> (i < n)%nat -> (j < n)%nat ->
  nth_error v (i * n + j) = Some (at_ n v i j).
Proof. intros L Hi Hj. unfold at_. apply nth_error_nth'. rewrite L. now apply idx_lt. Qed.

Lemma sem_cell n k rs vs env i j : length vs = (n * n)%nat -> (i < n)%nat -> (j < n)%nat -> (k < n)%nat ->
  holds env rs vs ->
  bsem (fw_cell n k rs (i, j)) env (fun rs' env' => holds env' rs' (cellv n k vs (i, j))).
Proof.
  intros L Hi Hj Hk H. unfold fw_cell. pose proof (holds_len _ _ _ H) as Lr.
  destruct (holds_nth _ _ _ _ _ H (nth_at n vs i j L Hi Hj)) as (a1 & A1 & E1).
  destruct (holds_nth _ _ _ _ _ H (nth_at n vs i k L Hi Hk)) as (a2 & A2 & E2).
  destruct (holds_nth _ _ _ _ _ H (nth_at n vs k j L Hk Hj)) as (a3 & A3 & E3).
  apply sem_bind, (sem_get _ _ _ _ _ A1). intros _.
  apply sem_bind, (sem_get _ _ _ _ _ A2). intros _.
  apply sem_bind, (sem_get _ _ _ _ _ A3). intros _.
  apply sem_bind. eapply (sem_bin BAdd); [cbn; tauto|eassumption..|]. intros _.
  apply sem_bind. eapply (sem_bin BMin); [cbn; tauto|apply get_ext; eassumption|apply get_last|]. intros _.
  apply sem_set; [rewrite Lr, L; now apply idx_lt|]. cbn [cellv sem2].
  apply holds_update; [|apply get_last]. do 2 apply holds_ext. exact H.
Qed.

Lemma cellv_len n k v ij : length (cellv n k v ij) = length v.
Proof. destruct ij. apply update_length. Qed.
Lemma fold_len n k l v : length (fold_left (cellv n k) l v) = length v.
Proof. revert v. induction l; intros v; cbn; auto. rewrite IHl. apply cellv_len. Qed.

Lemma sem_step n k rs vs env : length vs = (n * n)%nat -> (k < n)%nat -> holds env rs vs ->
  bsem (fw_step n k rs) env (fun rs' env' => holds env' rs' (stepv n k vs)).
Proof.
  intros L Hk H. unfold fw_step, stepv.
  apply (sem_for (fw_cell n k) (fun done rs env => holds env rs (fold_left (cellv n k) done vs))); [exact H|].
  intros done [i j] rest rs1 env1 E H1.
  assert (In (i, j) (list_prod (seq 0 n) (seq 0 n))) as Hin by (rewrite E; apply in_or_app; cbn; tauto).
  apply cells_in in Hin as [Hi Hj]. rewrite fold_left_app. cbn [fold_left].
  apply sem_cell; auto. rewrite fold_len. auto.
Qed.

(** In place or not does not matter if the diagonal entry is not negative. *)
Lemma stepv_spec n k v : length v = (n * n)%nat -> (k < n)%nat -> 0 <= at_ n v k k ->
  forall i j, (i < n)%nat -> (j < n)%nat ->
  at_ n (stepv n k v) i j = Rmin (at_ n v i j) (at_ n v i k + at_ n v k j).
Proof.
  intros L Hk Hd. unfold stepv.
  set (m := fun i j => Rmin (at_ n v i j) (at_ n v i k + at_ n v k j)).
  assert (forall j, m k j = at_ n v k j) as Mk.
  { intros j. unfold m. rewrite Rmin_left; auto. lra. }
  assert (forall i, m i k = at_ n v i k) as Mc.
  { intros i. unfold m. rewrite Rmin_left; auto. lra. }
  assert (forall done rest, list_prod (seq 0 n) (seq 0 n) = done ++ rest ->
    let u := fold_left (cellv n k) done v in
    forall i j, (i < n)%nat -> (j < n)%nat ->
      (In (i, j) done -> at_ n u i j = m i j) /\ (~ In (i, j) done -> at_ n u i j = at_ n v i j)) as G.
  { induction done as [|[p q] done IH] using rev_ind; intros rest E u i j Hi Hj.
    { split; [intros []|reflexivity]. }
    unfold u. rewrite fold_left_app. cbn [fold_left cellv].
    rewrite <- app_assoc in E. specialize (IH _ E). set (u' := fold_left (cellv n k) done v) in *. cbn zeta in IH.
    assert (In (p, q) (list_prod (seq 0 n) (seq 0 n))) as Hin by (rewrite E; apply in_or_app; cbn; tauto).
    apply cells_in in Hin as [Hp Hq].
    assert (length u' = (n * n)%nat) as Lu by (unfold u'; rewrite fold_len; auto).
    assert (forall i, (i < n)%nat -> at_ n u' i k = at_ n v i k) as Cu.
    { intros i0 H0. destruct (IH i0 k H0 Hk) as [I1 I2].
      destruct (in_dec pair_dec (i0, k) done); [rewrite I1, Mc; auto|auto]. }
    assert (forall j, (j < n)%nat -> at_ n u' k j = at_ n v k j) as Ru.
    { intros j0 H0. destruct (IH k j0 Hk H0) as [I1 I2].
      destruct (in_dec pair_dec (k, j0) done); [rewrite I1, Mk; auto|auto]. }
    assert (~ In (p, q) done) as Hn.
    { intros Hin. assert (NoDup (list_prod (seq 0 n) (seq 0 n))) as ND.
      { apply NoDup_prod; apply seq_NoDup. }
      rewrite E in ND. apply NoDup_remove_2 in ND. apply ND. apply in_or_app. auto. }
    rewrite at_update by auto. rewrite Cu, Ru by auto.
    destruct (IH p q Hp Hq) as [_ Ipq]. rewrite (Ipq Hn).
    destruct ((i =? p)%nat && (j =? q)%nat) eqn:Eq.
    - apply andb_true_iff in Eq as [E1 E2]. apply Nat.eqb_eq in E1, E2. subst.
      split; [reflexivity|]. intros Hc. exfalso. apply Hc. apply in_or_app. cbn. tauto.
    - destruct (IH i j Hi Hj) as [I1 I2]. rewrite in_app_iff. cbn. split.
      + intros [H|[H|[]]]; [auto|]. injection H as -> ->. rewrite !Nat.eqb_refl in Eq. discriminate.
      + intros H. apply I2. tauto. }
  intros i j Hi Hj. destruct (G (list_prod (seq 0 n) (seq 0 n)) [] (eq_sym (app_nil_r _)) i j Hi Hj) as [H _].
  apply H. now apply cells_in.
Qed.
