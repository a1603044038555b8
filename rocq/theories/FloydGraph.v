(** The first stage of the shortest-path example on pairs, and where its outputs repeat a variable. *)
From Coq Require Import Reals Lra List Arith ZArith NArith Bool Lia.
From Verif Require Import Base Float Operation Tape AContext Methods Function Spec TapeFacts
  RealInst Param FunctionFacts StraightSpec StraightMain TapeShape MethodSpec Build BuildFacts PairBuild Programs FloydSpec FloydFacts FloydMain FloydPair.
Import ListNotations.
Open Scope R_scope.

Definition pshare (q : R * R) (top : bool) : R * R :=
  let tb := pmin (pmax q (1 / 100, 0)) (99 / 100, 0) in if top then tb else pbin BSub (1, 0) tb.
Definition ptime (q : R * R) (top : bool) : R * R := pbin BAdd (1, 0) (pbin BDiv (1, 0) (pshare q top)).

Lemma pmax_fst a b : fst (pmax a b) = Rmax (fst a) (fst b).
Proof.
  unfold pmax. destruct (Rlt_dec (fst b) (fst a)); [rewrite Rmax_left by lra|rewrite Rmax_right by lra]; auto.
Qed.
Lemma pmin_fst a b : fst (pmin a b) = Rmin (fst a) (fst b).
Proof.
  unfold pmin. destruct (Rlt_dec (fst b) (fst a)); [rewrite Rmin_right by lra|rewrite Rmin_left by lra]; auto.
Qed.
Lemma pshare_fst q top : fst (pshare q top) = share (fst q) top.
Proof.
  unfold pshare, share. destruct top; cbn [pbin fst]; rewrite pmin_fst, pmax_fst; reflexivity.
Qed.
Lemma ptime_fst q top : fst (ptime q top) = 1 + 1 / share (fst q) top.
Proof. unfold ptime. cbn [pbin fst]. now rewrite pshare_fst. Qed.

Definition plight_ok (env : list (R * R)) (l : nat * nat) (p : R * R) : Prop :=
  nth_error env (fst l) = Some (pshare p true) /\ nth_error env (snd l) = Some (pshare p false).
Definition plights_ok (env : list (R * R)) (ls : list (nat * nat)) (ps : list (R * R)) : Prop := Forall2 (plight_ok env) ls ps.
Lemma plights_ext env ext ls ps : plights_ok env ls ps -> plights_ok (env ++ ext) ls ps.
Proof. intros H. eapply Forall2_impl; [|exact H]. intros l p [H1 H2]. split; now apply pget_ext. Qed.

Lemma psem_light q p env : nth_error env q = Some p ->
  psem (new_traffic_light Rops q) env (fun l env' => plight_ok env' l p).
Proof.
  intros Hq. unfold new_traffic_light.
  apply psem_bind, psem_const. intros _.
  apply psem_bind. eapply (psem_bin BMax); [cbn; tauto|pext|pext|]. intros _.
  apply psem_bind, psem_const. intros _.
  apply psem_bind. eapply (psem_bin BMin); [cbn; tauto|pext|pext|]. intros _.
  apply psem_bind, psem_const. intros _.
  apply psem_bind. eapply (psem_bin BSub); [cbn; tauto|pext|pext|]. intros _.
  apply psem_ret. split; cbn [fst snd].
  - do 2 apply pget_ext. apply pget_last.
  - apply pget_last.
Qed.

Lemma psem_lights x : psem (b_for (fun ls q => l <b new_traffic_light Rops q ;; b_ret (ls ++ [l])) (seq 0 (length x)) []) x
  (fun ls env => plights_ok env ls x).
Proof.
  eapply psem_conseq.
  - apply (psem_for _ (fun done ls env => (exists e, env = x ++ e) /\ plights_ok env ls (firstn (length done) x))).
    + split; [exists []; now rewrite app_nil_r|]. constructor.
    + intros done a rest ls env E [(e & ->) H].
      assert (a = length done /\ (length done < length x)%nat) as [-> Hl].
      { assert (nth_error (seq 0 (length x)) (length done) = Some a) as En.
        { rewrite E, nth_error_app2, Nat.sub_diag; auto. }
        assert (length done < length x)%nat as Hl.
        { rewrite <- (seq_length (length x) 0), E, app_length. cbn. lia. }
        split; [|auto]. apply (nth_error_nth _ _ 0%nat) in En. rewrite seq_nth in En by auto. cbn in En. auto. }
      destruct (nth_error x (length done)) as [p|] eqn:Ep; [|apply nth_error_None in Ep; lia].
      apply psem_bind. eapply psem_conseq; [apply psem_light, pget_ext, Ep|].
      intros l ext Hlo _. apply psem_ret. split; [exists (e ++ ext); now rewrite app_assoc|].
      rewrite app_length. cbn [length]. rewrite Nat.add_1_r.
      assert (firstn (S (length done)) x = firstn (length done) x ++ [p]) as ->.
      { clear -Ep. revert x Ep. induction (length done) as [|k IH]; intros [|b x] E; try discriminate; cbn in *.
        - injection E as ->. reflexivity.
        - rewrite <- IH by auto. reflexivity. }
      apply Forall2_app; [now apply plights_ext|]. constructor; [exact Hlo|constructor].
  - intros ls ext [_ H]. rewrite seq_length, firstn_all in H. exact H.
Qed.

(** The matrix of pairs: as in the specification, with derivatives. *)
Fixpoint pstreet (inf : R) (last_first : list (nat * nat * (R * R))) (i j : nat) : R * R :=
  match last_first with
  | [] => if Nat.eqb i j then (0, 0) else (inf, 0)
  | (u, v, w) :: l =>
      if (Nat.eqb i u && Nat.eqb j v) || (Nat.eqb i v && Nat.eqb j u) then w else pstreet inf l i j
  end.
Definition pstreets (ps : list (R * R)) (edges : list edge) : list (nat * nat * (R * R)) :=
  rev (map (fun e : edge => let '(u, v, (l, top)) := e in (u, v, ptime (nth l ps (0, 0)) top)) edges).

(** What the registers returned satisfy: both directions of a street are the same variable; others
    are different variables or do not depend on the inputs. *)
Record graph_ok (n : nat) (inf : R) (ps : list (R * R)) (done : list edge) (env : list (R * R)) (rs : list nat) (vs : list (R * R)) : Prop := {
  go_len : length vs = (n * n)%nat;
  go_holds : pholds env rs vs;
  go_sym : forall i j, (i < n)%nat -> (j < n)%nat -> rat n rs i j = rat n rs j i;
  go_sep : forall i j i' j', (i < n)%nat -> (j < n)%nat -> (i' < n)%nat -> (j' < n)%nat -> rat n rs i j = rat n rs i' j' ->
     (i = i' /\ j = j') \/ (i = j' /\ j = i') \/ snd (pat n vs i j) = 0;
  go_val : forall i j, (i < n)%nat -> (j < n)%nat -> pat n vs i j = pstreet inf (pstreets ps done) i j
}.

Lemma rat_update n rs i j i' j' a : length rs = (n * n)%nat -> (i < n)%nat -> (j < n)%nat -> (j' < n)%nat ->
  rat n (update rs (i * n + j) a) i' j' = if (i' =? i)%nat && (j' =? j)%nat then a else rat n rs i' j'.
Proof. apply gat_update. Qed.
Lemma pat_update n vs i j i' j' a : length vs = (n * n)%nat -> (i < n)%nat -> (j < n)%nat -> (j' < n)%nat ->
  pat n (update vs (i * n + j) a) i' j' = if (i' =? i)%nat && (j' =? j)%nat then a else pat n vs i' j'.
Proof. apply gat_update. Qed.

Ltac eqbs := repeat match goal with
  | |- context [Nat.eqb ?a ?b] => destruct (Nat.eqb_spec a b); cbn [andb orb]
  | H : context [Nat.eqb ?a ?b] |- _ => destruct (Nat.eqb_spec a b); cbn [andb orb] in H
  end.

Lemma psem_init n inf ps env : psem (fw_init Rops n inf) env (fun rs env' => exists vs, graph_ok n inf ps [] env' rs vs).
Proof.
  unfold fw_init. apply psem_bind, psem_const. intros _. eapply psem_conseq.
  - apply (psem_for _ (fun done rs env => exists vs, length vs = (n * n)%nat /\ pholds env rs vs /\
      (forall i j, (i < n)%nat -> (j < n)%nat -> rat n rs i j = rat n rs j i) /\
      (forall i j, (i < n)%nat -> (j < n)%nat ->
         pat n vs i j = if (i =? j)%nat && existsb (Nat.eqb i) done then (0, 0) else (inf, 0)))).
    + exists (repeat (inf, 0) (n * n)). split; [apply repeat_length|]. split.
      { assert (forall m (e : list (R * R)) a v, nth_error e a = Some v -> pholds e (repeat a m) (repeat v m)) as G.
        { clear. induction m; cbn; intros; constructor; eauto. apply IHm; auto. }
        apply G, pget_last. }
      split; [intros i j Hi Hj; unfold rat, gat; rewrite !(nth_indep _ 0%nat (length env)) by (rewrite repeat_length; now apply idx_lt); now rewrite !nth_repeat|].
      intros i j Hi Hj. cbn [existsb]. rewrite andb_false_r. unfold pat, gat.
      rewrite (nth_indep _ (0, 0) (inf, 0)) by (rewrite repeat_length; now apply idx_lt). apply nth_repeat.
    + intros done i rest rs env1 E (vs & L & H & HS & HV).
      assert (i < n)%nat as Hi.
      { assert (In i (seq 0 n)) as Hin by (rewrite E; apply in_or_app; cbn; auto). apply in_seq in Hin. lia. }
      pose proof (pholds_len _ _ _ H) as Lr.
      apply psem_bind, psem_const. intros _. apply psem_set.
      { rewrite Lr, L. now apply idx_lt. }
      exists (update vs (i * n + i) (f_zero Rops, 0)). split; [now rewrite update_length|].
      split; [apply pholds_update; [now apply pholds_ext|apply pget_last]|]. split.
      * intros a b Ha Hb. rewrite !rat_update by (auto; congruence). rewrite HS by auto.
        rewrite (andb_comm (a =? i)%nat). reflexivity.
      * intros a b Ha Hb. rewrite pat_update by auto. rewrite HV by auto. rewrite existsb_app. cbn [existsb]. rewrite orb_false_r.
        destruct (Nat.eqb_spec a i) as [->|Ha'], (Nat.eqb_spec b i) as [->|Hb']; cbn [andb].
        -- rewrite Nat.eqb_refl. cbn. now rewrite orb_true_r.
        -- destruct (Nat.eqb_spec i b); [congruence|reflexivity].
        -- destruct (Nat.eqb_spec a i); [congruence|reflexivity].
        -- now rewrite orb_false_r.
  - intros rs ext (vs & L & H & HS & HV). exists vs. constructor; auto.
    + intros i j i' j' Hi Hj _ _ _. right. right. rewrite HV by auto. destruct ((i =? j)%nat && _); reflexivity.
    + intros i j Hi Hj. rewrite HV by auto. cbn [pstreets map rev pstreet].
      assert (existsb (Nat.eqb i) (seq 0 n) = true) as ->.
      { apply existsb_exists. exists i. split; [apply in_seq; lia|apply Nat.eqb_refl]. }
      rewrite andb_true_r. reflexivity.
Qed.

Lemma psem_edge n inf ps ls done rs vs env e : street_ok n (length ps) e -> fst (fst e) <> snd (fst e) ->
  plights_ok env ls ps -> graph_ok n inf ps done env rs vs ->
  psem (fw_edge Rops n ls rs e) env (fun rs' env' => exists vs', graph_ok n inf ps (done ++ [e]) env' rs' vs').
Proof.
  destruct e as [[u v] [l top]]. cbn [fst snd]. intros (Hu & Hv & Hl) Huv HL [L H HS HP HV]. cbn [fw_edge].
  assert (exists tl, nth_error ls l = Some tl /\ plight_ok env tl (nth l ps (0, 0))) as (tl & El & Hlo).
  { clear -HL Hl. revert l Hl. induction HL as [|a p ls ps Ha HL IH]; intros [|l] Hl; cbn in *; try lia; eauto.
    apply IH. lia. }
  rewrite El. destruct tl as [tb lr], Hlo as [Ht Hr]. cbn [fst snd] in Ht, Hr.
  assert (nth_error env (if top then tb else lr) = Some (pshare (nth l ps (0, 0)) top)) as Hs by (destruct top; auto).
  apply psem_bind, psem_const. intros _.
  apply psem_bind. eapply (psem_bin BDiv); [cbn; tauto|pext|pext|]. intros _.
  apply psem_bind, psem_const. intros _.
  apply psem_bind. eapply (psem_bin BAdd); [cbn; tauto|pext|pext|]. intros _.
  pose proof (pholds_len _ _ _ H) as Lr. assert (length rs = (n * n)%nat) as Lrs by congruence.
  unfold fw_set_edge. apply psem_bind, psem_set.
  { rewrite Lrs. now apply idx_lt. }
  intros _. apply psem_set.
  { rewrite update_length, Lrs. now apply idx_lt. }
  match goal with |- exists vs', graph_ok _ _ _ _ ?e (update (update _ _ ?r) _ _) _ =>
    set (env' := e); set (reg := r) end.
  set (w := ptime (nth l ps (0, 0)) top).
  exists (update (update vs (u * n + v) w) (v * n + u) w).
  assert (Forall (fun r => (r < reg)%nat) rs) as Hfresh.
  { pose proof (pholds_lt _ _ _ H) as Hlt. eapply Forall_impl; [|exact Hlt]. intros r Hr0. unfold reg. rewrite !app_length. cbn beta in Hr0. lia. }
  assert (forall i j, (i < n)%nat -> (j < n)%nat -> (rat n rs i j < reg)%nat) as Hlt.
  { intros i j Hi Hj. rewrite Forall_forall in Hfresh. apply Hfresh. unfold rat, gat. apply nth_In. rewrite Lrs. now apply idx_lt. }
  assert (forall i j, (i < n)%nat -> (j < n)%nat -> rat n (update (update rs (u * n + v) reg) (v * n + u) reg) i j =
     if ((i =? u) && (j =? v) || (i =? v) && (j =? u))%nat then reg else rat n rs i j) as HR'.
  { intros i j Hi Hj. rewrite rat_update by (rewrite ?update_length; auto). rewrite rat_update by auto.
    destruct (i =? u)%nat, (j =? v)%nat, (i =? v)%nat, (j =? u)%nat; reflexivity. }
  assert (forall i j, (i < n)%nat -> (j < n)%nat -> pat n (update (update vs (u * n + v) w) (v * n + u) w) i j =
     if ((i =? u) && (j =? v) || (i =? v) && (j =? u))%nat then w else pat n vs i j) as HV'.
  { intros i j Hi Hj. rewrite pat_update by (rewrite ?update_length; auto). rewrite pat_update by auto.
    destruct (i =? u)%nat, (j =? v)%nat, (i =? v)%nat, (j =? u)%nat; reflexivity. }
  constructor.
  - rewrite !update_length. auto.
  - apply pholds_update; [apply pholds_update|]; try apply pget_last. do 4 apply pholds_ext. exact H.
  - intros i j Hi Hj. rewrite !HR' by auto. rewrite HS by auto.
    destruct (i =? u)%nat, (j =? v)%nat, (i =? v)%nat, (j =? u)%nat; reflexivity.
  - intros i j i' j' Hi Hj Hi' Hj'. rewrite !HR', HV' by auto.
    pose proof (Hlt i j Hi Hj) as L1. pose proof (Hlt i' j' Hi' Hj') as L2.
    destruct ((i =? u) && (j =? v) || (i =? v) && (j =? u))%nat eqn:C1;
    destruct ((i' =? u) && (j' =? v) || (i' =? v) && (j' =? u))%nat eqn:C2; intros E; try lia; auto.
    apply orb_true_iff in C1, C2. rewrite !andb_true_iff, !Nat.eqb_eq in C1, C2. lia.
  - intros i j Hi Hj. rewrite HV' by auto. rewrite HV by auto. unfold pstreets. rewrite map_app, rev_app_distr. cbn [map rev app pstreet].
    reflexivity.
Qed.

Lemma psem_edges n inf ps ls rs env edges : Forall (street_ok n (length ps)) edges ->
  Forall (fun e : edge => fst (fst e) <> snd (fst e)) edges ->
  plights_ok env ls ps -> (exists vs, graph_ok n inf ps [] env rs vs) ->
  psem (b_for (fw_edge Rops n ls) edges rs) env (fun rs' env' => exists vs', graph_ok n inf ps edges env' rs' vs').
Proof.
  intros He Hd HL H. eapply psem_conseq.
  - apply (psem_for _ (fun done rs env => plights_ok env ls ps /\ exists vs, graph_ok n inf ps done env rs vs)).
    + split; auto.
    + intros done e rest rs1 env1 E [H1 (vs & H2)].
      assert (In e edges) as Hin by (rewrite E; apply in_or_app; cbn; auto). rewrite Forall_forall in He, Hd.
      eapply psem_conseq; [apply (psem_edge n inf ps ls done rs1 vs env1 e); auto|].
      intros rs2 ext2 H3. split; [now apply plights_ext|exact H3].
  - intros rs2 ext2 [_ H2]. exact H2.
Qed.

Definition fw_graph_body (n nlights : nat) (inf : R) (edges : list edge) : prog R :=
  b_body nlights (fun x =>
    lights <b b_for (fun ls q => l <b new_traffic_light Rops q ;; b_ret (ls ++ [l])) x [] ;;
    dm <b fw_init Rops n inf ;;
    b_for (fw_edge Rops n lights) edges dm).

Lemma quiet_graph n nl inf edges : quiet (fw_graph_body n nl inf edges).
Proof.
  apply quiet_body. intros x.
  apply quiet_bind; [apply quiet_for; intros; apply quiet_bind; [|intros; apply quiet_ret]|].
  { unfold new_traffic_light. b_quiet. }
  intros ls. apply quiet_bind.
  { unfold fw_init. apply quiet_bind; [apply quiet_const|]. intro. apply quiet_for. intros.
    apply quiet_bind; [apply quiet_const|intro; apply quiet_set]. }
  intros rs. apply quiet_for. intros s [[u v] [l top]]. cbn [fw_edge].
  destruct (nth_error ls l) as [[tb lr]|]; [|apply quiet_abort]. unfold fw_set_edge. b_quiet.
Qed.

Theorem graph_pairs n nl inf edges params v : length params = nl -> length v = nl -> Forall (street_ok n nl) edges ->
  Forall (fun e : edge => fst (fst e) <> snd (fst e)) edges ->
  exists ys, pair_eval right_if_positive (fw_graph Rops n nl inf edges) params v = Ok ys /\ length ys = (n * n)%nat /\
    (forall i j, (i < n)%nat -> (j < n)%nat -> pat n ys i j = pstreet inf (pstreets (combine params v) edges) i j) /\
    let rs := rets (fw_graph_body n nl inf edges) in
    length rs = (n * n)%nat /\
    (forall i j, (i < n)%nat -> (j < n)%nat -> rat n rs i j = rat n rs j i) /\
    (forall i j i' j', (i < n)%nat -> (j < n)%nat -> (i' < n)%nat -> (j' < n)%nat -> rat n rs i j = rat n rs i' j' ->
       (i = i' /\ j = j') \/ (i = j' /\ j = i') \/ snd (pat n ys i j) = 0).
Proof.
  intros Lp Lv He Hd. set (c := combine params v).
  assert (length c = nl) as Lc by (unfold c; rewrite combine_length; lia).
  set (m := fun x =>
    lights <b b_for (fun ls q => l <b new_traffic_light Rops q ;; b_ret (ls ++ [l])) x [] ;;
    dm <b fw_init Rops n inf ;; b_for (fw_edge Rops n lights) edges dm).
  assert (psem (m (seq 0 nl)) c (fun rs env => exists vs, graph_ok n inf c edges env rs vs)) as G.
  { unfold m. apply psem_bind. rewrite <- Lc at 1. eapply psem_conseq; [apply psem_lights|]. intros ls e1 HL _.
    apply psem_bind. eapply psem_conseq; [apply (psem_init n inf c)|]. intros rs e2 Hi _.
    apply psem_edges; auto; [rewrite Lc; auto|now apply plights_ext]. }
  destruct G as (rs & ext & (vs & [G1 G2 G3 G4 G5]) & E).
  destruct (pbody_value nl m (n * n) params v vs (fun o => o = rs)) as (E1 & E2 & E3); auto.
  { exists rs, ext. split; [split; [exact G2|reflexivity]|exact E]. }
  exists vs. split; [exact E1|]. split; [auto|]. split; [auto|].
  assert (rets (fw_graph_body n nl inf edges) = rs) as -> by exact E2.
  split; [rewrite (pholds_len _ _ _ G2); auto|]. auto.
Qed.
