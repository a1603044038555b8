(** The abs-normal tape as a function: replaying it evaluates the smooth part G of the
    decomposition  F(x) = y  iff  (z, y) = G(x, |z|). *)
From Coq Require Import List Arith ZArith Bool Lia Sorted.
From Verif Require Import Base Float Operation Tape Spec TapeFacts ReplayFacts AbsNormal AbsNormalFacts SweepFacts.
Import ListNotations.

Section Smooth.
Context {F : Type} (Fo : Fops F) (t : tape F) (W : wf_tape t).

Lemma seeded_app_iff ids1 ids2 (x1 x2 arr : list F) : length x1 = length ids1 ->
  (seeded (ids1 ++ ids2) (x1 ++ x2) arr <-> seeded ids1 x1 arr /\ seeded ids2 x2 arr).
Proof.
  intros L. unfold seeded. split.
  - intros H. split; intros k i Hk.
    + assert (k < length ids1) by (apply nth_error_Some; congruence).
      destruct (H k i) as (a & A & B); [rewrite nth_error_app1; auto|].
      rewrite nth_error_app1 in A by lia. eauto.
    + destruct (H (length ids1 + k) i) as (a & A & B).
      { rewrite nth_error_app2 by lia. replace (length ids1 + k - length ids1) with k by lia. auto. }
      rewrite nth_error_app2 in A by lia. replace (length ids1 + k - length x1) with k in A by lia. eauto.
  - intros [H1 H2] k i Hk. destruct (lt_dec k (length ids1)).
    + rewrite nth_error_app1 in Hk by auto. destruct (H1 k i Hk) as (a & A & B).
      exists a. rewrite nth_error_app1 by lia. auto.
    + rewrite nth_error_app2 in Hk by lia. destruct (H2 _ i Hk) as (a & A & B).
      exists a. rewrite nth_error_app2 by lia. rewrite L. auto.
Qed.

Context (args : list nat) (EA : abs_args t = Ok args).
Notation an := (mk_sub t (t_indeps t ++ abs_ids t) (args ++ t_deps t)).

Lemma abs_filter o : In o (t_ops t) -> opcode o = Abs ->
  exists k i, nth_error (abs_ids t) k = Some (vid o) /\ nth_error args k = Some i /\ arg1 o = Some i.
Proof.
  intros Ho HA. assert (In o (filter is_abs (t_ops t))) as Hf.
  { apply filter_In. split; auto. apply is_abs_iff; auto. }
  apply In_nth_error in Hf as [k Hk].
  destruct (abs_nth t W args k o EA Hk) as (_ & _ & A & i & B & C & _). eauto.
Qed.

Lemma abs_value o arr : opcode o = Abs -> arg2 o = None ->
  (value_eq Fo arr o <-> exists i a, arg1 o = Some i /\ nth_error arr i = Some a /\
                                     nth_error arr (vid o) = Some (f_abs Fo a)).
Proof.
  intros HA H2. unfold value_eq. rewrite HA, H2. split.
  - intros (i & a & r & E1 & E2 & E3 & [= <-]). eauto.
  - intros (i & a & E1 & E2 & E3). exists i, a, (f_abs Fo a). auto.
Qed.

Lemma values_split x arr z :
  length x = num_indeps t -> gather args arr = Ok z ->
  (values_at Fo t x arr <-> values_at Fo an (x ++ map (f_abs Fo) z) arr).
Proof.
  intros L G. assert (LZ : length z = length args) by (eapply gather_length; eauto).
  assert (GZ : forall k i, nth_error args k = Some i ->
    exists a, nth_error z k = Some a /\ nth_error arr i = Some a).
  { intros k i Hk. pose proof (gather_nth args arr z k i G Hk) as H.
    destruct (nth_error z k) as [a|] eqn:E; [exists a; split; congruence|].
    apply nth_error_None in E. assert (k < length args) by (apply nth_error_Some; congruence). lia. }
  split; intros [V1 V2 V3 V4]; constructor; cbn in *; auto.
  - apply seeded_app_iff; [exact L|]. split; [auto|]. intros k id Hk.
    assert (exists o, nth_error (filter is_abs (t_ops t)) k = Some o /\ vid o = id) as (o & Ho & <-).
    { unfold abs_ids in Hk. rewrite nth_error_map in Hk.
      destruct (nth_error (filter is_abs (t_ops t)) k) as [o|]; [|discriminate].
      injection Hk as <-. eauto. }
    destruct (abs_nth t W args k o EA Ho) as (Io & Ao & _ & i & Hi & A1 & _).
    destruct (abs_op_wf t W o Io Ao) as (_ & _ & A2).
    destruct (GZ k i Hi) as (a & Ha & Hb).
    pose proof (V3 o Io) as HV. apply abs_value in HV; [|apply is_abs_iff; auto|auto].
    destruct HV as (i' & a' & E1 & E2 & E3). assert (i' = i) as -> by congruence.
    exists (f_abs Fo a). rewrite nth_error_map, Ha. split; [auto|]. congruence.
  - intros o Ho. apply in_map_iff in Ho as (o' & <- & Ho'). unfold deabs.
    destruct (is_abs o'); [exact I|auto].
  - intros k Hk Hi Ho. apply V4; auto.
    + intros H. apply Hi, in_or_app; auto.
    + intros o Io Vo. destruct (is_abs o) eqn:Ao.
      * exfalso. apply Hi. apply in_or_app; right. rewrite <- Vo. unfold abs_ids. apply in_map.
        apply filter_In; auto.
      * apply (Ho o); auto. apply in_map_iff. exists o. unfold deabs. rewrite Ao. auto.
  - apply seeded_app_iff in V2; [tauto|exact L].
  - intros o Io. destruct (is_abs o) eqn:Ao.
    + destruct (abs_op_wf t W o Io Ao) as (_ & _ & A2). pose proof Ao as Aoc. apply is_abs_iff in Aoc.
      apply abs_value; auto.
      destruct (abs_filter o Io Aoc) as (k & i & K1 & K2 & A1).
      destruct (GZ k i K2) as (a & Ha & Hb). exists i, a. split; [auto|]. split; [auto|].
      apply seeded_app_iff in V2 as [_ V2]; [|exact L].
      destruct (V2 k _ K1) as (b & B1 & B2). rewrite nth_error_map, Ha in B1. cbn in B1. congruence.
    + apply V3. apply in_map_iff. exists o. unfold deabs. rewrite Ao. auto.
  - intros k Hk Hi Ho. apply V4; auto.
    + intros H. apply in_app_or in H as [H|H]; [auto|].
      apply abs_ids_in in H as (o & Io & Ao & Vo). apply is_abs_iff in Ao.
      destruct (Ho o Io Vo); congruence.
    + intros o Io Vo. apply in_map_iff in Io as (o' & <- & Io). unfold deabs in *.
      destruct (is_abs o') eqn:Ao; [auto|]. auto.
Qed.

Lemma gather_app {A} ids1 ids2 (arr : list A) :
  gather (ids1 ++ ids2) arr = (a <- gather ids1 arr ;; b <- gather ids2 arr ;; Ok (a ++ b)).
Proof.
  unfold gather. induction ids1 as [|i ids1 IH]; cbn.
  - destruct (mapM (get arr) ids2); auto.
  - rewrite IH. destruct (get arr i); cbn; auto. destruct (mapM (get arr) ids1); cbn; auto.
    destruct (mapM (get arr) ids2); auto.
Qed.

End Smooth.

Section Main.
Context {F : Type} (Fo : Fops F).

Lemma an_shape (t : tape F) a : wf_tape t -> an_new t = Ok a ->
  exists args, abs_args t = Ok args /\ length args = num_abs t /\
    a = mkAN t (t_indeps t ++ abs_ids t) (args ++ t_deps t) (num_indeps t) (num_deps t) (num_abs t) /\
    an_tape a = mk_sub t (t_indeps t ++ abs_ids t) (args ++ t_deps t) /\ wf_tape (an_tape a).
Proof.
  intros W E. destruct (abs_args_ok t W) as (args & EA & LA). exists args.
  split; [auto|]. split; [auto|].
  unfold an_new in E. rewrite EA in E. cbn in E. injection E as <-.
  split; [auto|]. split; [auto|]. apply (sub_of_wf t W). apply sub_all; auto.
Qed.

(** [zero_order] on an AbsNormalTape succeeds exactly for n + s numbers. *)
Theorem an_zero_order_total (t : tape F) a xw : wf_tape t -> an_new t = Ok a ->
  (length xw = num_indeps t + num_abs t -> exists a', an_zero_order Fo a xw = Ok a') /\
  (length xw <> num_indeps t + num_abs t -> an_zero_order Fo a xw = Panic PAssert).
Proof.
  intros W E. destruct (an_shape t a W E) as (args & EA & LA & -> & ET & WT).
  assert (num_indeps (an_tape (mkAN t (t_indeps t ++ abs_ids t) (args ++ t_deps t) (num_indeps t)
            (num_deps t) (num_abs t))) = num_indeps t + num_abs t) as EN.
  { unfold num_indeps at 1. cbn. rewrite app_length, (abs_ids_length t). auto. }
  unfold an_zero_order. split; intros L.
  - destruct (zero_sweep_values Fo _ xw WT) as (t' & -> & _); [congruence|]. cbn. eauto.
  - unfold tape_zero_order. rewrite EN. destruct (Nat.eqb_spec (length xw) (num_indeps t + num_abs t)); [contradiction|].
    auto.
Qed.

(** The decomposition: y = F(x) iff G(x, |z|) = (z, y) for some z; then z are the arguments of
    the absolute values, and all intermediate values agree. *)
Theorem smooth_decomposition (t : tape F) a x y : wf_tape t -> an_new t = Ok a ->
  length x = num_indeps t ->
  ((exists t', tape_zero_order Fo t x = Ok t' /\ tape_y t' = Ok y) <->
   (exists z a', an_zero_order Fo a (x ++ map (f_abs Fo) z) = Ok a' /\ an_z a' = Ok z /\ an_y a' = Ok y)).
Proof.
  intros W E L. destruct (an_shape t a W E) as (args & EA & LA & -> & ET & WT).
  rewrite ET in WT.
  assert (HA : forall v : list F, abs_args (mkTape (t_indeps t) (t_deps t) (t_ops t) v) = Ok args) by (intros; exact EA).
  assert (HAL : length args = length (abs_ids t)) by (rewrite (abs_ids_length t); auto).
  split.
  - intros (t' & E1 & E2).
    destruct (zero_sweep_values Fo t x W L) as (t2 & E1' & A1 & A2 & A3 & V). rewrite E1 in E1'.
    injection E1' as <-.
    assert (exists z, gather args (t_vals t') = Ok z) as [z Ez].
    { apply gather_ok. intros i Hi. rewrite (va_len _ _ _ _ V). eapply abs_args_range; eauto. }
    assert (length z = length args) as LZ by (eapply gather_length; eauto).
    pose proof (proj1 (values_split Fo t W args EA x (t_vals t') z L Ez) V) as V2.
    destruct (zero_sweep_values Fo _ (x ++ map (f_abs Fo) z) WT) as (t3 & E3 & B1 & B2 & B3 & V3).
    { unfold num_indeps. cbn. rewrite !app_length, map_length. unfold num_indeps in L. lia. }
    pose proof (values_at_unique Fo _ _ _ _ WT V2 V3) as EV.
    eexists z, _. unfold an_zero_order. cbn [an_inner an_indeps an_deps an_n an_m an_s].
    replace (an_tape _) with (mk_sub t (t_indeps t ++ abs_ids t) (args ++ t_deps t)) by reflexivity.
    rewrite E3. cbn [bind]. split; [reflexivity|]. unfold an_z, an_y. cbn [an_inner].
    rewrite HA. cbn. rewrite <- EV. split; [auto|]. unfold tape_y in E2. rewrite A2 in E2. auto.
  - intros (z & a' & E1 & E2 & E3).
    unfold an_zero_order in E1. cbn [an_inner an_indeps an_deps an_n an_m an_s] in E1.
    replace (an_tape _) with (mk_sub t (t_indeps t ++ abs_ids t) (args ++ t_deps t)) in E1 by reflexivity.
    apply bind_ok in E1 as (t3 & E1 & [= <-]).
    unfold an_z in E2. cbn [an_inner] in E2. rewrite HA in E2. cbn in E2.
    unfold an_y in E3. cbn in E3.
    destruct (zero_sweep_values Fo _ (x ++ map (f_abs Fo) z) WT) as (t4 & E4 & B1 & B2 & B3 & V3).
    { unfold num_indeps. cbn. rewrite !app_length, map_length. apply gather_length in E2.
      unfold num_indeps in L. lia. }
    rewrite E1 in E4. injection E4 as <-.
    pose proof (proj2 (values_split Fo t W args EA x (t_vals t3) z L E2) V3) as V.
    destruct (zero_sweep_values Fo t x W L) as (t2 & E1' & A1 & A2 & A3 & V2).
    exists t2. split; [auto|]. unfold tape_y. rewrite A2.
    rewrite (values_at_unique Fo t x _ _ W V2 V). auto.
Qed.

(** What x(), y(), z() and the outputs of the tape are after a replay. *)
Theorem an_reads (t : tape F) a x w a' : wf_tape t -> an_new t = Ok a ->
  length x = num_indeps t -> length w = num_abs t ->
  an_zero_order Fo a (x ++ w) = Ok a' ->
  an_x a' = Ok x /\
  exists z y, an_z a' = Ok z /\ an_y a' = Ok y /\ length z = num_abs t /\ length y = num_deps t /\
    tape_y (an_tape a') = Ok (z ++ y).
Proof.
  intros W E Lx Lw H. destruct (an_shape t a W E) as (args & EA & LA & -> & ET & WT).
  assert (HA : forall v : list F, abs_args (mkTape (t_indeps t) (t_deps t) (t_ops t) v) = Ok args) by (intros; exact EA).
  rewrite ET in WT. unfold an_zero_order in H. cbn [an_inner an_indeps an_deps an_n an_m an_s] in H.
  replace (an_tape _) with (mk_sub t (t_indeps t ++ abs_ids t) (args ++ t_deps t)) in H by reflexivity.
  apply bind_ok in H as (t3 & E1 & [= <-]).
  destruct (zero_sweep_values Fo _ (x ++ w) WT) as (t4 & E4 & B1 & B2 & B3 & V).
  { unfold num_indeps. cbn. rewrite !app_length. rewrite (abs_ids_length t). unfold num_indeps in Lx. lia. }
  rewrite E1 in E4. injection E4 as <-.
  pose proof (va_seed _ _ _ _ V) as VS. cbn in VS.
  apply seeded_app_iff in VS as [VS _]; [|exact Lx].
  assert (LV : length (t_vals t3) = length (t_vals t)) by apply (va_len _ _ _ _ V).
  split; [unfold an_x; cbn; apply gather_seeded; auto|].
  assert (exists z, gather args (t_vals t3) = Ok z) as [z Ez].
  { apply gather_ok. intros i Hi. rewrite LV. eapply abs_args_range; eauto. }
  assert (exists y, gather (t_deps t) (t_vals t3) = Ok y) as [y Ey].
  { apply gather_ok. intros i Hi. rewrite LV. apply (wf_dep_range _ W); auto. }
  exists z, y. unfold an_z, an_y. cbn [an_inner]. rewrite HA. cbn.
  split; [auto|]. split; [auto|]. split; [apply gather_length in Ez; lia|].
  split; [apply gather_length in Ey; auto|].
  unfold tape_y. change (gather (args ++ t_deps t) (t_vals t3) = Ok (z ++ y)).
  rewrite gather_app, Ez, Ey. auto.
Qed.

(** The four sub-tapes cannot be replayed. *)
Theorem sub_tapes_read_only (t : tape F) a s x : wf_tape t -> an_new t = Ok a ->
  In s [z_tape a; l_tape a; j_tape a; y_tape a] ->
  exists p, sub_zero_order Fo s x = Panic p /\ (length x = num_indeps s -> p = PValuesMut) /\
            (length x <> num_indeps s -> p = PAssert).
Proof.
  intros W E Hs. destruct (abs_args_ok t W) as (args & EA & LA).
  destruct (sub_tapes t a args E EA) as (E1 & E2 & E3 & E4 & _).
  assert (wf_tape s) as WS.
  { apply (sub_of_wf t W). destruct Hs as [<-|[<-|[<-|[<-|[]]]]]; rewrite ?E1, ?E2, ?E3, ?E4.
    - apply sub_z; auto. - apply sub_l; auto. - apply sub_j; auto. - apply sub_y; auto. }
  unfold sub_zero_order.
  destruct (Nat.eq_dec (length x) (num_indeps s)) as [L|L].
  - destruct (zero_sweep_values Fo s x WS L) as (t' & -> & _). cbn. eexists. split; [reflexivity|].
    split; auto. contradiction.
  - exists PAssert. unfold tape_zero_order. destruct (Nat.eqb_spec (length x) (num_indeps s)); [contradiction|].
    split; [auto|]. split; auto. contradiction.
Qed.

End Main.
