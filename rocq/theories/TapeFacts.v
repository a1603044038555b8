(** Facts about tapes: sweeps of a well formed tape never panic and compute the unique solution
    of the tape's equations. *)
From Coq Require Import List Arith ZArith Bool Lia Sorted.
From Verif Require Import Base Float Operation Tape Spec.
Import ListNotations.

Lemma opcode_eqb_eq a b : opcode_eqb a b = true <-> a = b.
Proof. destruct a, b; cbn; split; congruence. Qed.

Lemma is_nop_iff o : is_nop o = true <-> opcode o = Nop.
Proof. apply opcode_eqb_eq. Qed.

Lemma is_abs_iff o : is_abs o = true <-> opcode o = Abs.
Proof. apply opcode_eqb_eq. Qed.

Lemma in_def_ids ops k :
  In k (def_ids ops) <-> exists o, In o ops /\ opcode o <> Nop /\ vid o = k.
Proof.
  unfold def_ids. rewrite in_map_iff. split.
  - intros (o & <- & H). apply filter_In in H as [H1 H2]. exists o; repeat split; auto.
    intros E. apply is_nop_iff in E. rewrite E in H2; discriminate.
  - intros (o & H1 & H2 & <-). exists o; split; auto. apply filter_In; split; auto.
    destruct (is_nop o) eqn:E; auto. apply is_nop_iff in E; contradiction.
Qed.

Lemma def_ids_app a b : def_ids (a ++ b) = def_ids a ++ def_ids b.
Proof. unfold def_ids. rewrite filter_app, map_app; auto. Qed.

Lemma def_ids_cons_nop o ops : opcode o = Nop -> def_ids (o :: ops) = def_ids ops.
Proof. intros E. unfold def_ids; cbn. apply is_nop_iff in E. rewrite E; auto. Qed.

Lemma def_ids_cons o ops : opcode o <> Nop -> def_ids (o :: ops) = vid o :: def_ids ops.
Proof.
  intros E. unfold def_ids; cbn. destruct (is_nop o) eqn:N; auto.
  apply is_nop_iff in N; contradiction.
Qed.

Lemma sorted_tail o ops :
  StronglySorted lt (def_ids (o :: ops)) -> StronglySorted lt (def_ids ops).
Proof.
  intros H. destruct (opcode_eqb (opcode o) Nop) eqn:E.
  - apply opcode_eqb_eq in E. rewrite def_ids_cons_nop in H; auto.
  - rewrite def_ids_cons in H by (intros E'; apply opcode_eqb_eq in E'; congruence).
    apply StronglySorted_inv in H; tauto.
Qed.

Lemma sorted_head o ops k :
  StronglySorted lt (def_ids (o :: ops)) -> opcode o <> Nop -> In k (def_ids ops) -> vid o < k.
Proof.
  intros H E Hk. rewrite def_ids_cons in H by auto. apply StronglySorted_inv in H as [_ H].
  rewrite Forall_forall in H; auto.
Qed.

(** Two operations of a sorted tape that define the same id are the same. *)
Lemma sorted_inj ops o o' :
  StronglySorted lt (def_ids ops) -> In o ops -> In o' ops ->
  opcode o <> Nop -> opcode o' <> Nop -> vid o = vid o' -> o = o'.
Proof.
  induction ops as [|a ops IH]; intros HS Ho Ho' N N' E; [destruct Ho|].
  destruct Ho as [->|Ho], Ho' as [->|Ho']; auto.
  - exfalso. assert (vid o < vid o').
    { eapply sorted_head; eauto. apply in_def_ids; eauto. } lia.
  - exfalso. assert (vid o' < vid o).
    { eapply sorted_head; eauto. apply in_def_ids; eauto. } lia.
  - apply IH; auto. eapply sorted_tail; eauto.
Qed.

Lemma sorted_NoDup (l : list nat) : StronglySorted lt l -> NoDup l.
Proof.
  induction 1 as [|a l HS IH HF]; constructor; auto.
  intros H. rewrite Forall_forall in HF. specialize (HF _ H). lia.
Qed.

(** ** Sweeps that assign each id once *)
Section Sweep.
Context {A : Type}.
(** [rhs o arr = None]: the operation writes nothing. *)
Context (rhs : operation -> list A -> option (res A)).
Context (N : nat).

Definition sweep_step (arr : list A) (o : operation) : res (list A) :=
  match rhs o arr with
  | None => Ok arr
  | Some r => v <- r ;; set arr (vid o) v
  end.

Hypothesis H_nop : forall o arr, opcode o = Nop -> rhs o arr = None.
Hypothesis H_loc : forall o arr arr', wf_op N o -> length arr = N -> length arr' = N ->
  (forall k, k < vid o -> nth_error arr k = nth_error arr' k) -> rhs o arr = rhs o arr'.
Hypothesis H_tot : forall o arr r, wf_op N o -> length arr = N -> rhs o arr = Some r ->
  vid o < N /\ exists v, r = Ok v.

Definition sweep_post (ops : list operation) (arr0 arr : list A) : Prop :=
  length arr = N /\
  (forall o r, In o ops -> rhs o arr = Some r -> r = get arr (vid o)) /\
  (forall k, (forall o, In o ops -> rhs o arr <> None -> vid o <> k) ->
             nth_error arr k = nth_error arr0 k).

Lemma sweep_ok ops : forall arr0,
  length arr0 = N -> (forall o, In o ops -> wf_op N o) -> StronglySorted lt (def_ids ops) ->
  exists arr, foldM sweep_step ops arr0 = Ok arr /\ sweep_post ops arr0 arr.
Proof.
  induction ops as [|o ops IH]; intros arr0 HL HW HS.
  - exists arr0. split; [reflexivity|]. split; [auto|]. split; [intros o r []|auto].
  - cbn [foldM]. unfold sweep_step at 1.
    assert (wf_op N o) as Wo by (apply HW; left; auto).
    destruct (rhs o arr0) as [r|] eqn:E.
    + destruct (H_tot _ _ _ Wo HL E) as [Hv [v ->]]. cbn [bind].
      rewrite set_lt by lia. cbn [bind].
      assert (opcode o <> Nop) as NN by (intros N0; rewrite H_nop in E; auto; discriminate).
      destruct (IH (update arr0 (vid o) v)) as (arr & Hf & HL' & Hop & Hk).
      { rewrite update_length; auto. }
      { intros; apply HW; right; auto. }
      { eapply sorted_tail; eauto. }
      exists arr. split; [exact Hf|].
      assert (forall k, k <= vid o -> nth_error arr k = nth_error (update arr0 (vid o) v) k) as Hlow.
      { intros k Hkv. apply Hk. intros o' Ho' Hr Ev.
        assert (opcode o' <> Nop) as N' by (intros N0; apply Hr, H_nop; auto).
        assert (vid o < vid o').
        { eapply sorted_head; eauto. apply in_def_ids; eauto. } lia. }
      assert (rhs o arr = Some (Ok v)) as Er.
      { rewrite <- E. symmetry. apply H_loc; auto.
        intros k Hkv. rewrite Hlow by lia. rewrite nth_error_update_neq by lia. auto. }
      split; [auto|]. split.
      * intros o' r' [<-|Ho'] Hr'.
        -- rewrite Er in Hr'. injection Hr' as <-. symmetry. apply get_ok.
           rewrite Hlow by lia. apply nth_error_update_eq. lia.
        -- apply Hop; auto.
      * intros k Hk'. rewrite Hk.
        -- apply nth_error_update_neq. apply Hk'; [left; auto|]. rewrite Er; discriminate.
        -- intros o' Ho'. apply Hk'; right; auto.
    + cbn [bind].
      destruct (IH arr0) as (arr & Hf & HL' & Hop & Hk); auto.
      { intros; apply HW; right; auto. }
      { eapply sorted_tail; eauto. }
      exists arr. split; [exact Hf|]. split; [auto|].
      assert (rhs o arr = None) as En.
      { destruct (opcode_eqb (opcode o) Nop) eqn:EN.
        - apply opcode_eqb_eq in EN. auto.
        - rewrite <- E. symmetry. apply H_loc; auto.
          intros k Hkv. symmetry. apply Hk. intros o' Ho' Hr Ev.
          assert (opcode o' <> Nop) as N' by (intros N0; apply Hr, H_nop; auto).
          assert (vid o < vid o').
          { eapply sorted_head; eauto.
            - intros N0; apply opcode_eqb_eq in N0; congruence.
            - apply in_def_ids; eauto. } lia. }
      split.
      * intros o' r' [<-|Ho'] Hr'; [congruence | auto].
      * intros k Hk'. apply Hk. intros o' Ho'. apply Hk'; right; auto.
Qed.

End Sweep.

(** ** Scatter and gather *)
Lemma scatter_ok {A} ids (x arr : list A) :
  length x = length ids -> (forall i, In i ids -> i < length arr) -> NoDup ids ->
  exists arr', scatter ids x arr = Ok arr' /\ length arr' = length arr /\
    seeded ids x arr' /\ (forall k, ~ In k ids -> nth_error arr' k = nth_error arr k).
Proof.
  revert x arr; induction ids as [|i ids IH]; intros x arr HL HR HN.
  - destruct x; [|discriminate]. exists arr. repeat split; auto. intros k i; destruct k; discriminate.
  - destruct x as [|a x]; [discriminate|]. cbn [scatter].
    rewrite set_lt by (apply HR; left; auto). cbn [bind].
    inversion HN; subst.
    destruct (IH x (update arr i a)) as (arr' & E & HL' & HS & HK); auto.
    { intros j Hj. rewrite update_length. apply HR; right; auto. }
    exists arr'. split; [exact E|]. rewrite update_length in HL'. split; [exact HL'|]. split.
    + intros [|k] j; cbn.
      * intros [= <-]. exists a; split; auto. rewrite HK by auto.
        apply nth_error_update_eq. apply HR; left; auto.
      * intros Hj. apply HS; auto.
    + intros k Hk. rewrite HK by (intros H; apply Hk; right; auto).
      apply nth_error_update_neq. intros ->; apply Hk; left; auto.
Qed.

(** Without [NoDup], scattering still succeeds. *)
Lemma scatter_total {A} ids (x arr : list A) :
  length ids <= length x -> (forall i, In i ids -> i < length arr) ->
  exists arr', scatter ids x arr = Ok arr' /\ length arr' = length arr.
Proof.
  revert x arr; induction ids as [|i ids IH]; intros x arr HL HR.
  - exists arr; auto.
  - destruct x as [|a x]; [cbn in HL; lia|]. cbn [scatter].
    rewrite set_lt by (apply HR; left; auto). cbn [bind].
    destruct (IH x (update arr i a)) as (arr' & E & HL').
    { cbn in HL; lia. }
    { intros j Hj. rewrite update_length. apply HR; right; auto. }
    exists arr'. rewrite update_length in HL'. auto.
Qed.

Lemma gather_ok {A} ids (arr : list A) :
  (forall i, In i ids -> i < length arr) -> exists y, gather ids arr = Ok y.
Proof. intros H. apply mapM_total. intros i Hi. apply get_lt; auto. Qed.

Lemma gather_nth {A} ids (arr y : list A) k i :
  gather ids arr = Ok y -> nth_error ids k = Some i -> nth_error y k = nth_error arr i.
Proof.
  intros H Hk. destruct (mapM_ok_nth _ _ _ _ _ H Hk) as (b & Hb & ->).
  apply get_ok in Hb. auto.
Qed.

Lemma gather_length {A} ids (arr y : list A) : gather ids arr = Ok y -> length y = length ids.
Proof. apply mapM_ok_length. Qed.

Lemma gather_ext {A} ids (arr arr' : list A) :
  (forall i, In i ids -> nth_error arr i = nth_error arr' i) -> gather ids arr = gather ids arr'.
Proof. intros H. apply mapM_ext. intros i Hi. unfold get. rewrite H; auto. Qed.

Section Facts.
Context {F : Type} (Fo : Fops F).

(** ** Zero order *)
Definition zrhs (o : operation) (arr : list F) : option (res F) :=
  match opcode o with
  | Nop | Const => None
  | oc => Some (i1 <- unwrap (arg1 o) ;; x1 <- get arr i1 ;; x2 <- optM (get arr) (arg2 o) ;;
                zero_order_value Fo oc x1 x2)
  end.

Lemma bind_assoc {A B C} (m : res A) (f : A -> res B) (g : B -> res C) :
  bind (bind m f) g = bind m (fun a => bind (f a) g).
Proof. destruct m; reflexivity. Qed.

Lemma op_zero_order_step o arr : op_zero_order Fo o arr = sweep_step zrhs arr o.
Proof.
  unfold op_zero_order, sweep_step, zrhs.
  destruct (opcode o); try reflexivity; rewrite !bind_assoc;
    (destruct (unwrap (arg1 o)); [|reflexivity]); cbn [bind]; rewrite !bind_assoc;
    (destruct (get arr a); [|reflexivity]); cbn [bind]; rewrite !bind_assoc; reflexivity.
Qed.

Lemma zero_order_value_total oc a b :
  unary_oc oc = true \/ (binary_oc oc = true /\ b <> None) ->
  exists r, zero_order_value Fo oc a b = Ok r.
Proof.
  intros [H|[H Hb]]; destruct oc; cbn in H; try discriminate; cbn; eauto;
    destruct b; try congruence; cbn; eauto.
Qed.

Lemma first_order_value_total oc a b d e :
  unary_oc oc = true \/ (binary_oc oc = true /\ b <> None /\ e <> None) ->
  exists r, first_order_value Fo oc a b d e = Ok r.
Proof.
  intros [H|[H [Hb He]]]; destruct oc; cbn in H; try discriminate; cbn; eauto;
    destruct b, e; try congruence; cbn; eauto.
Qed.

Lemma wf_op_args N o :
  wf_op N o -> opcode o <> Nop -> opcode o <> Const ->
  vid o < N /\
  exists i, arg1 o = Some i /\ i < vid o /\
  ((unary_oc (opcode o) = true /\ binary_oc (opcode o) = false /\ arg2 o = None) \/
   (binary_oc (opcode o) = true /\ unary_oc (opcode o) = false /\
    exists j, arg2 o = Some j /\ j < vid o)).
Proof.
  unfold wf_op. intros H NN NC.
  destruct (opcode o); try congruence; cbn in *;
    destruct H as (Hv & (i & E1 & Hi) & H2); split; auto; exists i; repeat split; auto.
Qed.

Lemma nth_get {A} (l : list A) i a : nth_error l i = Some a -> get l i = Ok a.
Proof. apply get_ok. Qed.

Lemma get_nth_eq {A} (l l' : list A) k : nth_error l k = nth_error l' k -> get l k = get l' k.
Proof. unfold get; intros ->; auto. Qed.

Lemma zrhs_loc N o arr arr' :
  wf_op N o -> (forall k, k < vid o -> nth_error arr k = nth_error arr' k) ->
  zrhs o arr = zrhs o arr'.
Proof.
  intros W H. unfold zrhs.
  destruct (opcode o) eqn:E; auto; f_equal;
    (destruct (wf_op_args N o W) as (Hv & i & -> & Hi & H2); [congruence|congruence|]);
    cbn; rewrite (get_nth_eq arr arr' i) by auto;
    (destruct H2 as [(U & B & ->)|(B & U & j & -> & Hj)]; cbn;
      [reflexivity | rewrite (get_nth_eq arr arr' j) by auto; reflexivity]).
Qed.

Lemma zrhs_tot N o arr r :
  wf_op N o -> length arr = N -> zrhs o arr = Some r -> vid o < N /\ exists v, r = Ok v.
Proof.
  intros W HL E. unfold zrhs in E.
  assert (opcode o <> Nop /\ opcode o <> Const) as [NN NC]
    by (destruct (opcode o); split; congruence).
  destruct (wf_op_args N o W NN NC) as (Hv & i & E1 & Hi & H2).
  split; auto.
  assert (r = (i1 <- unwrap (arg1 o);; x1 <- get arr i1;; x2 <- optM (get arr) (arg2 o);;
               zero_order_value Fo (opcode o) x1 x2)) as ->.
  { destruct (opcode o); try congruence. }
  rewrite E1. cbn. destruct (get_lt arr i) as [a Ha]; [lia|]. rewrite Ha; cbn.
  destruct H2 as [(U & B & E2)|(B & U & j & E2 & Hj)]; rewrite E2; cbn.
  - apply zero_order_value_total; auto.
  - destruct (get_lt arr j) as [b Hb]; [lia|]. rewrite Hb; cbn.
    apply zero_order_value_total; right; split; auto; discriminate.
Qed.

Lemma zrhs_nop o arr : opcode o = Nop -> zrhs o arr = None.
Proof. unfold zrhs; intros ->; reflexivity. Qed.

Lemma foldM_ext {A B} (f g : B -> A -> res B) l acc :
  (forall b a, f b a = g b a) -> foldM f l acc = foldM g l acc.
Proof.
  intros H; revert acc; induction l as [|a l IH]; intros acc; cbn; auto.
  rewrite H. destruct (g acc a); cbn; auto.
Qed.

(** From the sweep equation to [value_eq]. *)
Lemma zrhs_value_eq N o arr :
  wf_op N o -> (forall r, zrhs o arr = Some r -> r = get arr (vid o)) -> length arr = N ->
  value_eq Fo arr o.
Proof.
  intros W H HL. unfold value_eq.
  destruct (opcode_eqb (opcode o) Nop) eqn:E1; [apply opcode_eqb_eq in E1; rewrite E1; auto|].
  destruct (opcode_eqb (opcode o) Const) eqn:E2; [apply opcode_eqb_eq in E2; rewrite E2; auto|].
  assert (opcode o <> Nop) as NN by (intros E; apply opcode_eqb_eq in E; congruence).
  assert (opcode o <> Const) as NC by (intros E; apply opcode_eqb_eq in E; congruence).
  destruct (wf_op_args N o W NN NC) as (Hv & i & Ei & Hi & H2).
  assert (zrhs o arr = Some (i1 <- unwrap (arg1 o);; x1 <- get arr i1;;
      x2 <- optM (get arr) (arg2 o);; zero_order_value Fo (opcode o) x1 x2)) as Ez.
  { unfold zrhs. destruct (opcode o); congruence. }
  destruct (zrhs_tot N o arr _ W HL Ez) as [_ [v Ev]].
  pose proof (H _ Ez) as Hr. rewrite Ev in Hr. symmetry in Hr.
  assert (exists i a r, arg1 o = Some i /\ nth_error arr i = Some a /\
    nth_error arr (vid o) = Some r /\
    match arg2 o with
    | None => zero_order_value Fo (opcode o) a None = Ok r
    | Some j => exists b, nth_error arr j = Some b /\ zero_order_value Fo (opcode o) a (Some b) = Ok r
    end) as Goal.
  { rewrite Ei in Ev. cbn in Ev. destruct (get_lt arr i) as [a Ha]; [lia|].
    rewrite Ha in Ev; cbn in Ev. exists i, a, v. apply get_ok in Ha, Hr.
    repeat split; auto.
    destruct H2 as [(U & B & E')|(B & U & j & E' & Hj)]; rewrite E' in *; cbn in Ev; auto.
    destruct (get_lt arr j) as [b Hb]; [lia|]. rewrite Hb in Ev; cbn in Ev.
    exists b. apply get_ok in Hb; auto. }
  destruct (opcode o); try congruence; exact Goal.
Qed.

Theorem zero_sweep_values t x :
  wf_tape t -> length x = num_indeps t ->
  exists t', tape_zero_order Fo t x = Ok t' /\ t_indeps t' = t_indeps t /\
    t_deps t' = t_deps t /\ t_ops t' = t_ops t /\ values_at Fo t x (t_vals t').
Proof.
  intros W HL. unfold tape_zero_order, num_indeps in *. rewrite HL, Nat.eqb_refl. cbn.
  destruct (scatter_ok (t_indeps t) x (t_vals t) HL (wf_indep_range _ W) (wf_indep_nodup _ W))
    as (arr0 & -> & HL0 & HS & HK). cbn.
  unfold zero_sweep.
  rewrite (foldM_ext _ (sweep_step zrhs)) by (intros; apply op_zero_order_step).
  destruct (sweep_ok zrhs (length (t_vals t)) zrhs_nop) with (ops := t_ops t) (arr0 := arr0)
    as (arr & -> & HLa & Hop & Hk); auto.
  { intros; eapply zrhs_loc; eauto. }
  { intros; eapply zrhs_tot; eauto. }
  { apply (wf_ops _ W). }
  { apply (wf_sorted _ W). }
  cbn. eexists; split; [reflexivity|]. cbn. repeat split; auto.
  - intros k i Hi. destruct (HS k i Hi) as (a & Ha & Hb). exists a; split; auto.
    rewrite Hk; auto. intros o Ho Hr E.
    apply (wf_indep_def _ W i); [eapply nth_error_In; eauto|].
    apply in_def_ids. exists o; repeat split; auto. intros N0. apply Hr, zrhs_nop; auto.
  - intros o Ho. eapply zrhs_value_eq; eauto. apply (wf_ops _ W); auto.
  - intros k Hk1 Hk2 Hk3. rewrite Hk; [apply HK; auto|].
    intros o Ho Hr E. destruct (Hk3 o Ho E) as [E'|E']; apply Hr; unfold zrhs; rewrite E'; auto.
Qed.

Lemma values_at_unique t x arr arr' :
  wf_tape t -> values_at Fo t x arr -> values_at Fo t x arr' -> arr = arr'.
Proof.
  intros W [L1 S1 O1 K1] [L2 S2 O2 K2].
  apply list_ext; [congruence|]. rewrite L1.
  intros k; induction k as [k IH] using (well_founded_induction lt_wf); intros Hk.
  destruct (in_dec Nat.eq_dec k (t_indeps t)) as [Hi|Hi].
  { apply In_nth_error in Hi as [j Hj].
    destruct (S1 _ _ Hj) as (a & Ha & ->), (S2 _ _ Hj) as (b & Hb & ->). congruence. }
  destruct (in_dec Nat.eq_dec k (def_ids (t_ops t))) as [Hd|Hd].
  - apply in_def_ids in Hd as (o & Ho & NN & Ek).
    destruct (opcode_eqb (opcode o) Const) eqn:EC.
    + apply opcode_eqb_eq in EC. rewrite K1, K2; auto.
      * intros o' Ho' E'. destruct (opcode_eqb (opcode o') Nop) eqn:E1;
          [apply opcode_eqb_eq in E1; auto|].
        left. rewrite <- (sorted_inj _ o o' (wf_sorted _ W)); auto; try congruence.
        intros E2; apply opcode_eqb_eq in E2; congruence.
      * intros o' Ho' E'. destruct (opcode_eqb (opcode o') Nop) eqn:E1;
          [apply opcode_eqb_eq in E1; auto|].
        left. rewrite <- (sorted_inj _ o o' (wf_sorted _ W)); auto; try congruence.
        intros E2; apply opcode_eqb_eq in E2; congruence.
    + assert (opcode o <> Const) as NC by (intros E; apply opcode_eqb_eq in E; congruence).
      pose proof (wf_ops _ W _ Ho) as Wo.
      destruct (wf_op_args _ _ Wo NN NC) as (Hv & i & Ei & Hi' & H2).
      pose proof (O1 _ Ho) as V1. pose proof (O2 _ Ho) as V2.
      assert (forall A, value_eq Fo A o -> exists i a r, arg1 o = Some i /\ nth_error A i = Some a /\
        nth_error A (vid o) = Some r /\
        match arg2 o with
        | None => zero_order_value Fo (opcode o) a None = Ok r
        | Some j => exists b, nth_error A j = Some b /\
                    zero_order_value Fo (opcode o) a (Some b) = Ok r
        end) as X.
      { unfold value_eq. intros A. destruct (opcode o); try congruence; auto. }
      apply X in V1, V2. clear X.
      destruct V1 as (i1 & a1 & r1 & A1 & B1 & C1 & D1).
      destruct V2 as (i2 & a2 & r2 & A2 & B2 & C2 & D2).
      assert (i1 = i) by congruence. assert (i2 = i) by congruence. subst i1 i2 k.
      rewrite (IH i) in B1 by lia. assert (a1 = a2) by congruence. subst a2.
      destruct H2 as [(U & B & E')|(B & U & j & E' & Hj)]; rewrite E' in *.
      * congruence.
      * destruct D1 as (b1 & E1 & D1), D2 as (b2 & E2 & D2).
        rewrite (IH j) in E1 by lia. congruence.
  - rewrite K1, K2; auto; intros o Ho E; right;
      destruct (opcode_eqb (opcode o) Nop) eqn:E1; try (apply opcode_eqb_eq in E1; auto; fail);
      exfalso; apply Hd, in_def_ids; exists o; repeat split; auto;
      intros E2; apply opcode_eqb_eq in E2; congruence.
Qed.

(** ** First order *)
Definition frhs (v : list F) (o : operation) (dv : list F) : option (res F) :=
  match opcode o with
  | Nop => None
  | Const => Some (Ok (f_zero Fo))
  | oc => Some (i1 <- unwrap (arg1 o) ;; x1 <- get v i1 ;; x2 <- optM (get v) (arg2 o) ;;
                d1 <- get dv i1 ;; d2 <- optM (get dv) (arg2 o) ;;
                first_order_value Fo oc x1 x2 d1 d2)
  end.

Lemma op_first_order_step v o dv : op_first_order Fo o v dv = sweep_step (frhs v) dv o.
Proof.
  unfold op_first_order, sweep_step, frhs.
  destruct (opcode o); try reflexivity; rewrite !bind_assoc;
    (destruct (unwrap (arg1 o)); [|reflexivity]); cbn [bind]; rewrite !bind_assoc;
    (destruct (get v a); [|reflexivity]); cbn [bind]; rewrite !bind_assoc;
    (destruct (optM (get v) (arg2 o)); [|reflexivity]); cbn [bind]; rewrite !bind_assoc;
    (destruct (get dv a); [|reflexivity]); cbn [bind]; rewrite !bind_assoc; reflexivity.
Qed.

Lemma frhs_loc v N o arr arr' :
  wf_op N o -> (forall k, k < vid o -> nth_error arr k = nth_error arr' k) ->
  frhs v o arr = frhs v o arr'.
Proof.
  intros W H. unfold frhs.
  destruct (opcode o) eqn:E; auto; f_equal;
    (destruct (wf_op_args N o W) as (Hv & i & -> & Hi & H2); [congruence|congruence|]);
    cbn; rewrite (get_nth_eq arr arr' i) by auto;
    (destruct H2 as [(U & B & ->)|(B & U & j & -> & Hj)]; cbn;
      [reflexivity | rewrite (get_nth_eq arr arr' j) by auto; reflexivity]).
Qed.

Lemma frhs_tot v N o arr r :
  wf_op N o -> length arr = N -> length v = N -> frhs v o arr = Some r ->
  vid o < N /\ exists x, r = Ok x.
Proof.
  intros W HL HLv E. unfold frhs in E.
  assert (opcode o <> Nop) as NN by (destruct (opcode o); congruence).
  destruct (opcode_eqb (opcode o) Const) eqn:EC.
  { apply opcode_eqb_eq in EC. rewrite EC in E. unfold wf_op in W. rewrite EC in W.
    split; auto. injection E as <-. eauto. }
  assert (opcode o <> Const) as NC by (intros E'; apply opcode_eqb_eq in E'; congruence).
  destruct (wf_op_args N o W NN NC) as (Hv & i & E1 & Hi & H2).
  split; auto.
  assert (r = (i1 <- unwrap (arg1 o) ;; x1 <- get v i1 ;; x2 <- optM (get v) (arg2 o) ;;
                d1 <- get arr i1 ;; d2 <- optM (get arr) (arg2 o) ;;
                first_order_value Fo (opcode o) x1 x2 d1 d2)) as ->.
  { destruct (opcode o); try congruence. }
  rewrite E1. cbn. destruct (get_lt v i) as [a Ha]; [lia|]. rewrite Ha; cbn.
  destruct (get_lt arr i) as [d Hd]; [lia|].
  destruct H2 as [(U & B & E2)|(B & U & j & E2 & Hj)]; rewrite E2; cbn; rewrite ?Hd; cbn.
  - apply first_order_value_total; auto.
  - destruct (get_lt v j) as [b Hb]; [lia|]. rewrite Hb; cbn. rewrite ?Hd; cbn.
    destruct (get_lt arr j) as [e He]; [lia|]. rewrite He; cbn.
    apply first_order_value_total; right; repeat split; auto; discriminate.
Qed.

Lemma frhs_nop v o arr : opcode o = Nop -> frhs v o arr = None.
Proof. unfold frhs; intros ->; reflexivity. Qed.

Lemma frhs_tangent_eq N v o arr :
  wf_op N o -> (forall r, frhs v o arr = Some r -> r = get arr (vid o)) -> length arr = N ->
  length v = N -> tangent_eq Fo v arr o.
Proof.
  intros W H HL HLv. unfold tangent_eq.
  destruct (opcode_eqb (opcode o) Nop) eqn:E1; [apply opcode_eqb_eq in E1; rewrite E1; auto|].
  destruct (opcode_eqb (opcode o) Const) eqn:E2.
  { apply opcode_eqb_eq in E2; rewrite E2. apply get_ok. symmetry. apply H.
    unfold frhs; rewrite E2; auto. }
  assert (opcode o <> Nop) as NN by (intros E; apply opcode_eqb_eq in E; congruence).
  assert (opcode o <> Const) as NC by (intros E; apply opcode_eqb_eq in E; congruence).
  destruct (wf_op_args N o W NN NC) as (Hv & i & Ei & Hi & H2).
  assert (frhs v o arr = Some (i1 <- unwrap (arg1 o) ;; x1 <- get v i1 ;;
     x2 <- optM (get v) (arg2 o) ;; d1 <- get arr i1 ;; d2 <- optM (get arr) (arg2 o) ;;
     first_order_value Fo (opcode o) x1 x2 d1 d2)) as Ez.
  { unfold frhs. destruct (opcode o); congruence. }
  destruct (frhs_tot v N o arr _ W HL HLv Ez) as [_ [r Ev]].
  pose proof (H _ Ez) as Hr. rewrite Ev in Hr. symmetry in Hr.
  assert (exists i a d r, arg1 o = Some i /\ nth_error v i = Some a /\ nth_error arr i = Some d /\
        nth_error arr (vid o) = Some r /\
        match arg2 o with
        | None => first_order_value Fo (opcode o) a None d None = Ok r
        | Some j => exists b e, nth_error v j = Some b /\ nth_error arr j = Some e /\
                    first_order_value Fo (opcode o) a (Some b) d (Some e) = Ok r
        end) as Goal.
  { rewrite Ei in Ev. cbn in Ev.
    destruct (get_lt v i) as [a Ha]; [lia|]. rewrite Ha in Ev; cbn in Ev.
    destruct (get_lt arr i) as [d Hd]; [lia|].
    exists i, a, d, r. pose proof Hd as Hd'. apply get_ok in Ha, Hr, Hd'.
    repeat split; auto.
    destruct H2 as [(U & B & E')|(B & U & j & E' & Hj)]; rewrite E' in *; cbn in Ev;
      rewrite Hd in Ev; cbn in Ev; auto.
    destruct (get_lt v j) as [b Hb]; [lia|]. rewrite Hb in Ev; cbn in Ev.
    rewrite ?Hd in Ev; cbn in Ev.
    destruct (get_lt arr j) as [e He]; [lia|]. rewrite He in Ev; cbn in Ev.
    exists b, e. apply get_ok in Hb, He; auto. }
  destruct (opcode o); try congruence; exact Goal.
Qed.

Theorem forward_tangents t dx :
  wf_tape t -> length dx = num_indeps t ->
  exists darr dy, tangents_at Fo t dx darr /\ tape_forward Fo t dx = Ok dy /\
    gather (t_deps t) darr = Ok dy.
Proof.
  intros W HL. unfold tape_forward, num_indeps in *.
  destruct (scatter_ok (t_indeps t) dx (repeat (f_zero Fo) (length (t_vals t))) HL)
    as (arr0 & -> & HL0 & HS & HK).
  { intros i Hi. rewrite repeat_length. apply (wf_indep_range _ W); auto. }
  { apply (wf_indep_nodup _ W). }
  cbn. unfold forward_sweep. rewrite repeat_length in HL0.
  rewrite (foldM_ext _ (sweep_step (frhs (t_vals t)))) by (intros; apply op_first_order_step).
  destruct (sweep_ok (frhs (t_vals t)) (length (t_vals t)) (frhs_nop _)) with (ops := t_ops t)
    (arr0 := arr0) as (arr & -> & HLa & Hop & Hk); auto.
  { intros; eapply frhs_loc; eauto. }
  { intros o arr r Wo Ho Er; apply (frhs_tot (t_vals t) _ o arr r); auto. }
  { apply (wf_ops _ W). }
  { apply (wf_sorted _ W). }
  cbn. destruct (gather_ok (t_deps t) arr) as [dy Hdy].
  { rewrite HLa. apply (wf_dep_range _ W). }
  exists arr, dy. split; [|auto]. constructor; auto.
  - intros k i Hi. destruct (HS k i Hi) as (a & Ha & Hb). exists a; split; auto.
    rewrite Hk; auto. intros o Ho Hr E.
    apply (wf_indep_def _ W i); [eapply nth_error_In; eauto|].
    apply in_def_ids. exists o; repeat split; auto. intros N0. apply Hr, frhs_nop; auto.
  - intros o Ho. eapply frhs_tangent_eq; eauto. apply (wf_ops _ W); auto.
  - intros k Hk1 Hk2 Hk3. rewrite Hk.
    + rewrite HK; auto. rewrite nth_error_repeat; auto.
    + intros o Ho Hr E. apply Hk3, in_def_ids. exists o; repeat split; auto.
      intros N0. apply Hr, frhs_nop; auto.
Qed.

Lemma tangent_eq_inv v A o :
  tangent_eq Fo v A o -> opcode o <> Nop -> opcode o <> Const ->
  exists i a d r, arg1 o = Some i /\ nth_error v i = Some a /\ nth_error A i = Some d /\
        nth_error A (vid o) = Some r /\
        match arg2 o with
        | None => first_order_value Fo (opcode o) a None d None = Ok r
        | Some j => exists b e, nth_error v j = Some b /\ nth_error A j = Some e /\
                    first_order_value Fo (opcode o) a (Some b) d (Some e) = Ok r
        end.
Proof. unfold tangent_eq. destruct (opcode o); try congruence; auto. Qed.

Lemma tangents_at_unique t dx arr arr' :
  wf_tape t -> tangents_at Fo t dx arr -> tangents_at Fo t dx arr' -> arr = arr'.
Proof.
  intros W [L1 S1 O1 K1] [L2 S2 O2 K2].
  apply list_ext; [congruence|]. rewrite L1.
  intros k; induction k as [k IH] using (well_founded_induction lt_wf); intros Hk.
  destruct (in_dec Nat.eq_dec k (t_indeps t)) as [Hi|Hi].
  { apply In_nth_error in Hi as [j Hj].
    destruct (S1 _ _ Hj) as (a & Ha & ->), (S2 _ _ Hj) as (b & Hb & ->). congruence. }
  destruct (in_dec Nat.eq_dec k (def_ids (t_ops t))) as [Hd|Hd].
  - apply in_def_ids in Hd as (o & Ho & NN & Ek).
    pose proof (O1 _ Ho) as V1. pose proof (O2 _ Ho) as V2.
    destruct (opcode_eqb (opcode o) Const) eqn:EC.
    + apply opcode_eqb_eq in EC. unfold tangent_eq in V1, V2. rewrite EC in V1, V2. congruence.
    + assert (opcode o <> Const) as NC by (intros E; apply opcode_eqb_eq in E; congruence).
      pose proof (wf_ops _ W _ Ho) as Wo.
      destruct (wf_op_args _ _ Wo NN NC) as (Hv & i & Ei & Hi' & H2).
      apply tangent_eq_inv in V1, V2; auto.
      destruct V1 as (i1 & a1 & d1 & r1 & A1 & A1' & B1 & C1 & D1).
      destruct V2 as (i2 & a2 & d2 & r2 & A2 & A2' & B2 & C2 & D2).
      assert (i1 = i) by congruence. assert (i2 = i) by congruence. subst i1 i2 k.
      assert (a1 = a2) by congruence. subst a2.
      rewrite (IH i) in B1 by lia. assert (d1 = d2) by congruence. subst d2.
      destruct H2 as [(U & B & E')|(B & U & j & E' & Hj)]; rewrite E' in *.
      * congruence.
      * destruct D1 as (b1 & e1 & F1 & E1 & D1), D2 as (b2 & e2 & F2 & E2 & D2).
        rewrite (IH j) in E1 by lia. congruence.
  - rewrite K1, K2; auto.
Qed.

End Facts.
