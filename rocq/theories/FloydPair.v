(** The stages of the shortest-path example on pairs of numbers and derivatives. *)
From Coq Require Import Reals Lra List Arith ZArith NArith Bool Lia.
From Verif Require Import Base Float Operation Tape AContext Methods Function Spec TapeFacts
  RealInst Param FunctionFacts StraightSpec StraightMain TapeShape MethodSpec Build BuildFacts PairBuild Programs FloydSpec FloydFacts FloydMain.
Import ListNotations.
Open Scope R_scope.

(** ** Matrices of anything *)
Definition gat {A} (d : A) (n : nat) (v : list A) (i j : nat) : A := nth (i * n + j) v d.

Lemma gat_update {A} (d : A) n v i j i' j' a : length v = (n * n)%nat -> (i < n)%nat -> (j < n)%nat -> (j' < n)%nat ->
  gat d n (update v (i * n + j) a) i' j' = if (i' =? i)%nat && (j' =? j)%nat then a else gat d n v i' j'.
Proof.
  intros L Hi Hj Hj'. unfold gat. pose proof (idx_lt n i j Hi Hj) as Hl.
  destruct ((i' =? i)%nat && (j' =? j)%nat) eqn:E.
  - apply andb_true_iff in E as [E1 E2]. apply Nat.eqb_eq in E1, E2. subst.
    apply nth_error_nth. apply nth_error_update_eq. lia.
  - destruct (Nat.eq_dec (i * n + j) (i' * n + j')) as [Eq|Ne].
    + apply idx_inj in Eq as [-> ->]; auto. rewrite !Nat.eqb_refl in E. discriminate.
    + pose proof (nth_error_update_neq v (i * n + j) (i' * n + j') a Ne) as H.
      destruct (nth_error v (i' * n + j')) eqn:E1.
      * rewrite (nth_error_nth _ _ d H). symmetry. now apply nth_error_nth.
      * rewrite !nth_overflow; auto; apply nth_error_None; auto.
Qed.
Lemma nth_gat {A} (d : A) n v i j : length v = (n * n)%nat -> (i < n)%nat -> (j < n)%nat ->
  nth_error v (i * n + j) = Some (gat d n v i j).
Proof. intros L Hi Hj. unfold gat. apply nth_error_nth'. rewrite L. now apply idx_lt. Qed.

Definition pat (n : nat) (v : list (R * R)) (i j : nat) : R * R := gat (0, 0) n v i j.
Definition rat (n : nat) (v : list nat) (i j : nat) : nat := gat 0%nat n v i j.

Lemma pat_snd n v i j : snd (pat n v i j) = at_ n (map snd v) i j.
Proof. unfold pat, gat, at_. change 0 with (snd ((0, 0) : R * R)) at 3. now rewrite map_nth. Qed.
Lemma pat_fst n v i j : fst (pat n v i j) = at_ n (map fst v) i j.
Proof. unfold pat, gat, at_. change 0 with (fst ((0, 0) : R * R)) at 3. now rewrite map_nth. Qed.
Lemma pat_combine n x v i j : length x = (n * n)%nat -> length v = (n * n)%nat ->
  pat n (combine x v) i j = (at_ n x i j, at_ n v i j).
Proof. intros L1 L2. unfold pat, gat, at_. apply combine_nth. congruence. Qed.

Lemma pholds_len env rs vs : pholds env rs vs -> length rs = length vs.
Proof. induction 1; cbn; auto. Qed.
Lemma pholds_nth env rs vs i v : pholds env rs vs -> nth_error vs i = Some v ->
  exists a, nth_error rs i = Some a /\ nth_error env a = Some v.
Proof.
  intros H. revert i. induction H as [|a b rs vs E H IH]; intros [|i] Hv; try discriminate; cbn in *; eauto.
  injection Hv as <-. eauto.
Qed.
Lemma pholds_update env rs vs i a v : pholds env rs vs -> nth_error env a = Some v ->
  pholds env (update rs i a) (update vs i v).
Proof.
  intros H E. revert i. induction H as [|b c rs vs E' H IH]; intros [|i]; cbn; constructor; auto. apply IH.
Qed.
Lemma pholds_lt env rs vs : pholds env rs vs -> Forall (fun r => (r < length env)%nat) rs.
Proof.
  induction 1 as [|a v rs vs E H IH]; constructor; auto. apply nth_error_Some. congruence.
Qed.

Ltac pext := repeat first [eassumption | apply pget_last | apply pget_ext].

(** ** A step *)
Definition padd (a b : R * R) : R * R := (fst a + fst b, snd a + snd b).
Definition pcell (n k : nat) (v : list (R * R)) (ij : nat * nat) : list (R * R) :=
  let '(i, j) := ij in update v (i * n + j) (pmin (pat n v i j) (padd (pat n v i k) (pat n v k j))).
Definition pstep (n k : nat) (v : list (R * R)) : list (R * R) :=
  fold_left (pcell n k) (list_prod (seq 0 n) (seq 0 n)) v.
Lemma pcell_len n k v ij : length (pcell n k v ij) = length v.
Proof. destruct ij. apply update_length. Qed.
Lemma pfold_len n k l v : length (fold_left (pcell n k) l v) = length v.
Proof. revert v. induction l; intros v; cbn; auto. rewrite IHl. apply pcell_len. Qed.

Lemma update_in {A} (l : list A) i a b : In b (update l i a) -> b = a \/ In b l.
Proof.
  revert i. induction l as [|c l IH]; intros [|i]; cbn; auto.
  - intros [<-|H]; auto.
  - intros [<-|H]; auto. apply IH in H as [->|H]; auto.
Qed.
Lemma update_nodup {A} (l : list A) i a : NoDup l -> ~ In a l -> NoDup (update l i a).
Proof.
  intros ND. revert i. induction ND as [|b l Hb ND IH]; intros [|i] Ha; cbn; try constructor; cbn in Ha; auto.
  intros Hin. apply update_in in Hin as [->|Hin]; auto.
Qed.

Lemma psem_cell n k rs vs env i j : length vs = (n * n)%nat -> (i < n)%nat -> (j < n)%nat -> (k < n)%nat ->
  pholds env rs vs -> NoDup rs ->
  psem (fw_cell n k rs (i, j)) env (fun rs' env' => pholds env' rs' (pcell n k vs (i, j)) /\ NoDup rs').
Proof.
  intros L Hi Hj Hk H ND. unfold fw_cell. pose proof (pholds_len _ _ _ H) as Lr.
  destruct (pholds_nth _ _ _ _ _ H (nth_gat (0, 0) n vs i j L Hi Hj)) as (a1 & A1 & E1).
  destruct (pholds_nth _ _ _ _ _ H (nth_gat (0, 0) n vs i k L Hi Hk)) as (a2 & A2 & E2).
  destruct (pholds_nth _ _ _ _ _ H (nth_gat (0, 0) n vs k j L Hk Hj)) as (a3 & A3 & E3).
  apply psem_bind, (psem_get _ _ _ _ _ A1). intros _.
  apply psem_bind, (psem_get _ _ _ _ _ A2). intros _.
  apply psem_bind, (psem_get _ _ _ _ _ A3). intros _.
  apply psem_bind. eapply (psem_bin BAdd); [cbn; tauto|eassumption..|]. intros _.
  apply psem_bind. eapply (psem_bin BMin); [cbn; tauto|apply pget_ext; eassumption|apply pget_last|]. intros _.
  apply psem_set; [rewrite Lr, L; now apply idx_lt|]. cbn [pcell pbin]. split.
  - apply pholds_update; [|apply pget_last]. do 2 apply pholds_ext. exact H.
  - apply update_nodup; auto. intros Hin. pose proof (pholds_lt _ _ _ H) as Hlt. rewrite Forall_forall in Hlt.
    apply Hlt in Hin. rewrite app_length in Hin. lia.
Qed.

Lemma psem_step n k rs vs env : length vs = (n * n)%nat -> (k < n)%nat -> pholds env rs vs -> NoDup rs ->
  psem (fw_step n k rs) env (fun rs' env' => pholds env' rs' (pstep n k vs) /\ NoDup rs').
Proof.
  intros L Hk H ND. unfold fw_step, pstep.
  apply (psem_for (fw_cell n k) (fun done rs env => pholds env rs (fold_left (pcell n k) done vs) /\ NoDup rs)); [auto|].
  intros done [i j] rest rs1 env1 E [H1 H2].
  assert (In (i, j) (list_prod (seq 0 n) (seq 0 n))) as Hin by (rewrite E; apply in_or_app; cbn; tauto).
  apply cells_in in Hin as [Hi Hj]. rewrite fold_left_app. cbn [fold_left].
  apply psem_cell; auto. rewrite pfold_len. auto.
Qed.

Lemma pmin_left a b : fst a <= fst b -> pmin a b = a.
Proof. intros H. unfold pmin. destruct (Rlt_dec (fst b) (fst a)); [lra|auto]. Qed.

Lemma pstep_spec n k v : length v = (n * n)%nat -> (k < n)%nat -> 0 <= fst (pat n v k k) ->
  forall i j, (i < n)%nat -> (j < n)%nat ->
  pat n (pstep n k v) i j = pmin (pat n v i j) (padd (pat n v i k) (pat n v k j)).
Proof.
  intros L Hk Hd. unfold pstep.
  set (m := fun i j => pmin (pat n v i j) (padd (pat n v i k) (pat n v k j))).
  assert (forall j, m k j = pat n v k j) as Mk.
  { intros j. apply pmin_left. cbn. lra. }
  assert (forall i, m i k = pat n v i k) as Mc.
  { intros i. apply pmin_left. cbn. lra. }
  assert (forall done rest, list_prod (seq 0 n) (seq 0 n) = done ++ rest ->
    let u := fold_left (pcell n k) done v in
    forall i j, (i < n)%nat -> (j < n)%nat ->
      (In (i, j) done -> pat n u i j = m i j) /\ (~ In (i, j) done -> pat n u i j = pat n v i j)) as G.
  { induction done as [|[p q] done IH] using rev_ind; intros rest E u i j Hi Hj.
    { split; [intros []|reflexivity]. }
    unfold u. rewrite fold_left_app. cbn [fold_left pcell].
    rewrite <- app_assoc in E. specialize (IH _ E). set (u' := fold_left (pcell n k) done v) in *. cbn zeta in IH.
    assert (In (p, q) (list_prod (seq 0 n) (seq 0 n))) as Hin by (rewrite E; apply in_or_app; cbn; tauto).
    apply cells_in in Hin as [Hp Hq].
    assert (length u' = (n * n)%nat) as Lu by (unfold u'; rewrite pfold_len; auto).
    assert (forall i, (i < n)%nat -> pat n u' i k = pat n v i k) as Cu.
    { intros i0 H0. destruct (IH i0 k H0 Hk) as [I1 I2].
      destruct (in_dec pair_dec (i0, k) done); [rewrite I1, Mc; auto|auto]. }
    assert (forall j, (j < n)%nat -> pat n u' k j = pat n v k j) as Ru.
    { intros j0 H0. destruct (IH k j0 Hk H0) as [I1 I2].
      destruct (in_dec pair_dec (k, j0) done); [rewrite I1, Mk; auto|auto]. }
    assert (~ In (p, q) done) as Hn.
    { intros Hin. assert (NoDup (list_prod (seq 0 n) (seq 0 n))) as ND.
      { apply NoDup_prod; apply seq_NoDup. }
      rewrite E in ND. apply NoDup_remove_2 in ND. apply ND. apply in_or_app. auto. }
    rewrite Cu, Ru by auto. destruct (IH p q Hp Hq) as [_ Ipq]. rewrite (Ipq Hn).
    match goal with |- context [pat n (update u' (p * n + q) ?a) i j] =>
      assert (pat n (update u' (p * n + q) a) i j = if (i =? p)%nat && (j =? q)%nat then a else pat n u' i j) as ->
        by (apply gat_update; auto) end.
    destruct ((i =? p)%nat && (j =? q)%nat) eqn:Eq.
    - apply andb_true_iff in Eq as [E1 E2]. apply Nat.eqb_eq in E1, E2. subst.
      split; [reflexivity|]. intros Hc. exfalso. apply Hc. apply in_or_app. cbn. tauto.
    - destruct (IH i j Hi Hj) as [I1 I2]. rewrite in_app_iff. cbn. split.
      + intros [H|[H|[]]]; [apply I1; auto|]. injection H as -> ->. rewrite !Nat.eqb_refl in Eq. discriminate.
      + intros H. apply I2. tauto. }
  intros i j Hi Hj. destruct (G (list_prod (seq 0 n) (seq 0 n)) [] (eq_sym (app_nil_r _)) i j Hi Hj) as [H _].
  apply H. now apply cells_in.
Qed.

Lemma quiet_step n k : quiet (F := R) (b_body (n * n) (fw_step n k)).
Proof. apply quiet_body. intros x. apply quiet_for. intros s [i j]. unfold fw_cell. b_quiet. Qed.

(** Derivatives of the entries after a step, given entries [D] and derivatives [E]. *)
Definition sel (D : nat -> nat -> R) (k : nat) (E : nat -> nat -> R) (i j : nat) : R :=
  if Rlt_dec (D i k + D k j) (D i j) then E i k + E k j else E i j.

Theorem step_pairs n k x v : length x = (n * n)%nat -> length v = (n * n)%nat -> (k < n)%nat -> 0 <= at_ n x k k ->
  exists ys, pair_eval right_if_positive (fw_step_fn n k) x v = Ok ys /\ length ys = (n * n)%nat /\
    NoDup (rets (b_body (n * n) (fw_step (F := R) n k))) /\
    forall i j, (i < n)%nat -> (j < n)%nat -> at_ n (map snd ys) i j = sel (at_ n x) k (at_ n v) i j.
Proof.
  intros Lx Lv Hk Hd. set (c := combine x v).
  assert (length c = (n * n)%nat) as Lc by (unfold c; rewrite combine_length; lia).
  exists (pstep n k c).
  destruct (pbody_value (n * n) (fw_step n k) (n * n) x v (pstep n k c) (@NoDup nat)) as (E & ND & _); auto.
  { apply psem_step; auto; [|apply seq_NoDup]. fold c. rewrite <- Lc at 1. apply pseq_holds. }
  split; [exact E|]. split; [unfold pstep; rewrite pfold_len; auto|]. split; [exact ND|].
  intros i j Hi Hj. rewrite <- pat_snd, pstep_spec; auto; unfold c; rewrite !pat_combine; auto.
  unfold pmin, padd, sel. cbn [fst snd]. destruct (Rlt_dec _ _); reflexivity.
Qed.

(** ** The sum *)
Definition pform (D E : nat -> nat -> R) (l : list (nat * nat)) : R :=
  fold_left (fun r uv => r + (E (fst uv) (snd uv) * D (fst uv) (snd uv) + D (fst uv) (snd uv) * E (fst uv) (snd uv))) l 0.

Theorem badness_pairs n exits x v : length x = (n * n)%nat -> length v = (n * n)%nat -> Forall (fun u => (u < n)%nat) exits ->
  exists s, pair_eval right_if_positive (fw_badness_fn Rops n exits) x v = Ok [(s, pform (at_ n x) (at_ n v) (list_prod exits exits))] /\
    NoDup (rets (b_body (n * n) (fw_badness Rops n exits))).
Proof.
  intros Lx Lv He. set (c := combine x v).
  assert (length c = (n * n)%nat) as Lc by (unfold c; rewrite combine_length; lia).
  exists (sumsq (at_ n x) (list_prod exits exits)).
  match goal with |- pair_eval _ _ _ _ = Ok ?ys /\ _ =>
    destruct (pbody_value (n * n) (fw_badness Rops n exits) 1 x v ys (@NoDup nat)) as (E & ND & _); auto end.
  fold c. unfold fw_badness. apply psem_bind, psem_const. intros _. apply psem_bind. eapply psem_conseq.
  - apply (psem_for _ (fun done r env => (exists e, env = c ++ e) /\
       nth_error env r = Some (sumsq (at_ n x) done, pform (at_ n x) (at_ n v) done))).
    + split; [eauto|]. apply pget_last.
    + intros done [u w] rest r env E [(e & ->) H].
      assert (In (u, w) (list_prod exits exits)) as Hin by (rewrite E; apply in_or_app; cbn; auto).
      apply in_prod_iff in Hin as [Hu Hw]. rewrite Forall_forall in He. apply He in Hu, Hw.
      assert (nth_error c (u * n + w) = Some (at_ n x u w, at_ n v u w)) as Hv.
      { rewrite <- (pat_combine n x v) by auto. now apply nth_gat. }
      unfold fw_get_edge. cbn [fst snd]. apply psem_bind.
      apply (psem_get _ _ (u * n + w)%nat).
      { rewrite (nth_error_nth' _ 0%nat) by (rewrite seq_length; now apply idx_lt).
        rewrite seq_nth by now apply idx_lt. reflexivity. }
      intros _. apply psem_bind. eapply (psem_bin BMul); [cbn; tauto|pext|pext|]. intros _.
      eapply (psem_bin BAdd); [cbn; tauto|pext|pext|].
      split; [rewrite <- !app_assoc; eauto|].
      rewrite pget_last. unfold sumsq, pform. rewrite !fold_left_app. reflexivity.
  - intros r ext [_ H] _. apply psem_ret. split; [constructor; [exact H|constructor]|].
    constructor; [intros []|constructor].
Qed.

Lemma quiet_badness n exits : quiet (b_body (n * n) (fw_badness Rops n exits)).
Proof.
  apply quiet_body. intros x. unfold fw_badness. apply quiet_bind; [apply quiet_const|]. intro.
  apply quiet_bind; [apply quiet_for; intros|intro; apply quiet_ret]. unfold fw_get_edge. b_quiet.
Qed.
