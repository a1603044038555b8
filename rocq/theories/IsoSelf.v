(** One thread's own steps, seen through what it keeps to itself. *)
From Coq Require Import List Arith ZArith Bool Lia.
From Verif Require Import Base Float Operation Tape AContext Spec Param Api Ffi Concurrent ConcSpec ConcInv
  Client IsoFacts IsoOthers.
Import ListNotations.

Section Self.
Context {S F : Type} (So : Fops S) (tof : S -> option F) (i n : nat).
Notation code := (code S F). Notation sys := (sys S F).

(** The ids the thread has drawn, their registry entries, its contexts, its references. *)
Record view : Type := mkView {
  v_id : nat -> bool;
  v_map : nat -> option nat;
  v_arc : nat -> option (arc F);
  v_refs : list nat
}.

Definition set_varc (V : view) (a : nat) (r : arc F) : view :=
  mkView (v_id V) (v_map V) (upd (v_arc V) a (Some r)) (v_refs V).
Definition set_vmap (V : view) (c : nat) (o : option nat) : view :=
  mkView (v_id V) (upd (v_map V) c o) (v_arc V) (v_refs V).
Definition set_vrefs (V : view) (l : list nat) : view := mkView (v_id V) (v_map V) (v_arc V) l.

(** Whatever numbers the thread draws, the code ends with a result (and a view) in [Q]. *)
Fixpoint lwp (Q : view -> ret S F -> Prop) (V : view) (c : code) : Prop :=
  match c with
  | Ret r => Q V r
  | Fetch k => forall c, v_id V c = false ->
      lwp Q (mkView (upd (v_id V) c true) (upd (v_map V) c None) (v_arc V) (v_refs V)) (k c)
  | Alloc c k => v_id V c = true /\ forall a, v_arc V a = None -> ~ In a (v_refs V) ->
      lwp Q (mkView (v_id V) (v_map V) (upd (v_arc V) a (Some (mkArc c (mkInner [] [] [] []) None false)))
               (a :: v_refs V)) (k a)
  | MLock k | MUnlock k => lwp Q V k
  | MInsert c a k => v_id V c = true /\ v_arc V a <> None /\ lwp Q (set_vmap V c (Some a)) k
  | MGet c k => v_id V c = true /\ lwp Q V (k (v_map V c))
  | MRemove a k => exists r, v_arc V a = Some r /\ v_id V (a_cid r) = true /\ lwp Q (set_vmap V (a_cid r) None) k
  | Upgrade a k => v_arc V a <> None /\
      if has a (v_refs V) then lwp Q (set_vrefs V (a :: v_refs V)) (k true) else lwp Q V (k false)
  | Decr a k => v_arc V a <> None /\
      lwp Q (set_vrefs V (remove1 a (v_refs V))) (k (negb (has a (remove1 a (v_refs V)))))
  | Lock a k => exists r, v_arc V a = Some r /\ a_lock r = None /\
      lwp Q (set_varc V a (mkArc (a_cid r) (a_inner r) (Some i) (a_poison r))) (k (a_poison r))
  | Access a f k => exists r, v_arc V a = Some r /\
      lwp Q (set_varc V a (mkArc (a_cid r) (f (a_cid r) (a_inner r)) (a_lock r) (a_poison r)))
        (k (a_cid r) (a_inner r))
  | Unlock a p k => exists r, v_arc V a = Some r /\
      lwp Q (set_varc V a (mkArc (a_cid r) (a_inner r) None (a_poison r || p))) k
  end.

Lemma lwp_bind m : forall Q V k, lwp (fun V' r => lwp Q V' (k r)) V m -> lwp Q V (cbind m k).
Proof.
  induction m as [r|f IH|c f IH|f IH|c a f IH|c f IH|a f IH|f IH|a f IH|a f IH|a f IH|a g f IH|a p f IH];
    intros Q V k; cbn.
  - auto.
  - intros H c Hc. apply IH. auto.
  - intros [H1 H2]. split; auto.
  - auto.
  - intros (H1 & H2 & H3). auto.
  - intros (H1 & H2). auto.
  - intros (r & H1 & H2 & H3). exists r. auto.
  - auto.
  - intros [H1 H2]. split; auto. destruct (has a (v_refs V)); auto.
  - intros [H1 H2]. split; auto.
  - intros (r & H1 & H2 & H3). exists r. auto.
  - intros (r & H1 & H2). exists r. auto.
  - intros (r & H1 & H2). exists r. auto.
Qed.

Lemma lwp_crit {B} Q V a r (body : nat -> inner F -> res (B * inner F)) (k : res B -> code) :
  v_arc V a = Some r -> a_lock r = None ->
  (forall V', v_id V' = v_id V -> v_map V' = v_map V -> v_refs V' = v_refs V ->
     (forall b, b <> a -> v_arc V' b = v_arc V b) ->
     match a_poison r, body (a_cid r) (a_inner r) with
     | true, _ => v_arc V' a = Some r -> lwp Q V' (k (Panic PUnwrap))
     | false, Ok (b, j) => v_arc V' a = Some (mkArc (a_cid r) j None false) -> lwp Q V' (k (Ok b))
     | false, Panic p => v_arc V' a = Some (mkArc (a_cid r) (a_inner r) None true) -> lwp Q V' (k (Panic p))
     end) ->
  lwp Q V (crit a body k).
Proof.
  intros Ha Hl H. cbn. exists r. split; [auto|]. split; [auto|].
  destruct r as [c j l p]. cbn in *. subst l. destruct p; cbn.
  - eexists. split; [apply upd_eq|]. cbn. apply H; cbn; auto.
    + intros b Hb. rewrite !upd_ne; auto.
    + apply upd_eq.
  - eexists. split; [apply upd_eq|]. cbn.
    destruct (body c j) as [[b j']|p]; cbn; (eexists; split; [apply upd_eq|]); cbn; apply H; cbn; auto;
      try apply upd_eq; intros d Hd; rewrite !upd_ne; auto.
Qed.

Definition vI (V : view) (c : nat) : Prop := v_id V c = true.
Definition vA (V : view) (a : nat) : Prop := v_arc V a <> None.

Record mine (Q : view -> ret S F -> Prop) (base : list nat) (V : view) (g : sys) : Prop := {
  m_others : others (eq i) (vI V) (vA V) g;
  m_map : forall c, v_id V c = true -> g_map g c = v_map V c;
  m_arc : forall a r, v_arc V a = Some r -> g_arc g a = Some r;
  m_refs : t_refs (g_thr g i) = v_refs V ++ base;
  m_own : forall a, In a (v_refs V) -> vA V a;
  m_base : forall a, In a base -> QA (vA V) g a;
  m_ids : forall c, v_id V c = true -> n <= c;
  m_n : n <= g_next g;
  m_code : forall c, t_code (g_thr g i) = Some c -> lwp Q V c
}.

Lemma mine_frame Q base V g g' : mine Q base V g -> others (eq i) (vI V) (vA V) g' -> frame (eq i) (vI V) (vA V) g g' ->
  g_next g <= g_next g' -> g_anext g <= g_anext g' -> mine Q base V g'.
Proof.
  intros [MO MM MA MR MW MB MI MN MC] O [FM FA FT] L0 L. specialize (FT i eq_refl). constructor; auto.
  - intros c Hc. rewrite FM; auto.
  - intros a r Ha. rewrite FA; auto. unfold vA. congruence.
  - rewrite FT; auto.
  - intros a Ha. destruct (MB a Ha). split; auto. lia.
  - lia.
  - intros c. rewrite FT. auto.
Qed.

(** The invariant of the others when the thread itself moves and acquires things. *)
Lemma others_self (I A I' A' : nat -> Prop) (g g' : sys) :
  others (eq i) I A g -> g_next g <= g_next g' -> g_anext g <= g_anext g' -> g_n g' = g_n g ->
  (forall l, l <> i -> g_thr g' l = g_thr g l) -> (forall x, In x (g_vars g') -> In x (g_vars g) \/ af_only (PI I' g') x) ->
  (forall c, I' c -> I c \/ (g_next g <= c < g_next g')) ->
  (forall a, A' a -> A a \/ (g_anext g <= a < g_anext g')) ->
  (forall a r, g_arc g' a = Some r -> (exists r0, g_arc g a = Some r0 /\ a_cid r0 = a_cid r /\ (A a -> A' a)) \/
     (A' a /\ a < g_anext g' /\ a_cid r < g_next g')) ->
  (forall c a, g_map g' c = Some a -> (g_map g c = Some a /\ (I c -> I' c)) \/ (I' c /\ c < g_next g')) ->
  others (eq i) I' A' g'.
Proof.
  intros [OT OR OV OA OM OI OAA ON] L1 L2 L3 HT HV HI HA Harc Hmap.
  assert (sub (PI I g) (PI I' g')) as SP.
  { intros c [H1 H2]. split; [lia|]. intros H. destruct (HI c H); [auto|lia]. }
  assert (sub (QA A g) (QA A' g')) as SQ.
  { intros c [H1 H2]. split; [lia|]. intros H. destruct (HA c H); [auto|lia]. }
  constructor.
  - intros j c Hj Hc. rewrite HT in Hc by auto. eapply only_mono; eauto.
  - intros j a Hj Ha. rewrite HT in Ha by auto. eauto.
  - intros x Hx. destruct (HV x Hx); auto. eapply af_only_mono; eauto.
  - intros a r Hr. destruct (Harc a r Hr) as [(r0 & H0 & <- & Ha)|(Ha & H1 & H2)].
    + destruct (OA a r0 H0) as (H1 & H2 & H3). split; [lia|]. split; [lia|]. intros Hn Hi.
      destruct (HI _ Hi); [|lia]. apply H3; auto.
    + split; [auto|]. split; [auto|]. intros; contradiction.
  - intros c a Hm. destruct (Hmap c a Hm) as [[H0 Hi]|[Hi Hc]].
    + destruct (OM c a H0) as [H1 H2]. split; [lia|]. intros Hn. apply SQ. auto.
    + split; [auto|]. intros; contradiction.
  - intros c Hc. destruct (HI c Hc) as [H|H]; [specialize (OI c H); lia|lia].
  - intros a Ha. destruct (HA a Ha) as [H|H]; [specialize (OAA a H); lia|lia].
  - intros j <-. specialize (ON i eq_refl). lia.
Qed.

Lemma remove1_app a l b : ~ In a b -> remove1 a (l ++ b) = remove1 a l ++ b.
Proof.
  intros H. induction l as [|x l IH]; cbn.
  - induction b as [|x b IH]; cbn; auto. destruct (Nat.eqb_spec a x) as [->|Hne].
    + exfalso. apply H. left; auto.
    + rewrite IH; auto. intros H1. apply H. right; auto.
  - destruct (a =? x); auto. rewrite IH. auto.
Qed.

(** Of my contexts I am the only owner. *)
Lemma owned_mine Q base V g refs : mine Q base V g -> forall a, vA V a ->
  forall g1 : sys, g_n g1 = g_n g -> (forall l, l <> i -> t_refs (g_thr g1 l) = t_refs (g_thr g l)) ->
  t_refs (g_thr g1 i) = refs ++ base -> owned g1 a = has a refs.
Proof.
  intros M a Ha g1 En Hl Er. destruct M as [MO MM MA MR MW MB MI MN MC].
  apply eq_true_iff_eq. rewrite has_in. unfold owned. rewrite existsb_exists. split.
  - intros (l & Hl1 & H). apply existsb_exists in H as (b & Hb & E). apply Nat.eqb_eq in E. subst b.
    destruct (Nat.eq_dec l i) as [->|Hne].
    + rewrite Er in Hb. apply in_app_or in Hb as [Hb|Hb]; auto. destruct (MB a Hb). contradiction.
    + rewrite Hl in Hb by auto. destruct (o_refs _ _ _ g MO l a) as [_ H]; auto. contradiction.
  - intros H. exists i. split.
    + apply in_seq. rewrite En. pose proof (o_n _ _ _ g MO i eq_refl). lia.
    + apply existsb_exists. exists a. rewrite Nat.eqb_refl. split; auto. rewrite Er. apply in_or_app; auto.
Qed.

Lemma vA_upd V a r b : vA (set_varc V a r) b <-> b = a \/ vA V b.
Proof.
  unfold vA, set_varc; cbn. unfold upd. destruct (Nat.eqb_spec b a) as [->|Hne].
  - split; [auto|discriminate].
  - split; [auto|]. intros [H|H]; [contradiction|auto].
Qed.

Ltac thr := let l := fresh in intros l ?; cbn; rewrite ?(upd_ne _ _ l) by auto; auto.

(** A context of mine changes contents. *)
Lemma mine_arc Q base V g a r r' k :
  mine Q base V g -> v_arc V a = Some r -> a_cid r' = a_cid r -> lwp Q (set_varc V a r') k ->
  mine Q base (set_varc V a r') (set_thr (set_arc g a r') i (mkThread (t_refs (g_thr g i)) (Some k))).
Proof.
  intros M Ha Hc HW. pose proof M as [MO MM MA MR MW MB MI MN MC].
  assert (vA V a) as HaA by (unfold vA; congruence).
  constructor; cbn; auto.
  - eapply others_self; [exact MO|cbn; auto..]; try lia.
    + thr.
    + intros b Hb. apply vA_upd in Hb as [->|Hb]; auto.
    + intros b r0. unfold upd. destruct (Nat.eqb_spec b a) as [->|Hne].
      * intros [= <-]. left. exists r. rewrite vA_upd. auto.
      * intros H. left. exists r0. rewrite vA_upd. auto.
  - intros b r0. unfold upd. destruct (Nat.eqb_spec b a) as [->|Hne]; auto.
  - rewrite upd_eq. auto.
  - intros b Hb. apply vA_upd. auto.
  - intros b Hb. destruct (MB b Hb) as [H1 H2]. split; [auto|]. rewrite vA_upd. intros [->|H]; auto.
  - intros c. rewrite upd_eq. cbn. intros [= <-]; auto.
Qed.

(** Only the code, or also the registry's lock, changes. *)
Lemma mine_plain Q base V g (g' : sys) k :
  mine Q base V g -> g_next g' = g_next g -> g_anext g' = g_anext g -> g_n g' = g_n g -> g_map g' = g_map g ->
  g_arc g' = g_arc g -> g_vars g' = g_vars g -> g_thr g' = upd (g_thr g) i (mkThread (t_refs (g_thr g i)) (Some k)) ->
  lwp Q V k -> mine Q base V g'.
Proof.
  intros M E1 E2 E3 E4 E5 E6 E7 HW. pose proof M as [MO MM MA MR MW MB MI MN MC].
  constructor; rewrite ?E4, ?E5, ?E7; auto.
  - eapply others_self; [exact MO|rewrite ?E1, ?E2, ?E3, ?E4, ?E5, ?E6, ?E7; auto..]; try lia.
    + thr.
    + intros a r Hr. left; eauto.
  - rewrite upd_eq. auto.
  - intros b Hb. destruct (MB b Hb). split; auto. rewrite E2; auto.
  - lia.
  - intros c. rewrite upd_eq. cbn. intros [= <-]; auto.
Qed.

Lemma mine_map Q base V g c o k :
  mine Q base V g -> v_id V c = true -> lwp Q (set_vmap V c o) k -> (forall a, o = Some a -> vA V a) ->
  mine Q base (set_vmap V c o) (set_thr (set_map g c o) i (mkThread (t_refs (g_thr g i)) (Some k))).
Proof.
  intros M Hc HW Ho. pose proof M as [MO MM MA MR MW MB MI MN MC].
  constructor; cbn; auto.
  - eapply others_self; [exact MO|cbn; auto..]; try lia.
    + thr.
    + intros a r Hr. left; eauto.
    + intros d a. unfold upd. destruct (Nat.eqb_spec d c) as [->|Hne]; auto.
      intros H. right. split; [exact Hc|]. apply (o_I _ _ _ g MO). exact Hc.
  - intros d Hd. unfold upd. destruct (d =? c); auto.
  - rewrite upd_eq. auto.
  - intros d. rewrite upd_eq. cbn. intros [= <-]; auto.
Qed.

Theorem self_step Q base V g g' : mine Q base V g -> (forall V r, Q V r -> forall x, r <> RVar x) ->
  micro g i = Some g' -> exists V', mine Q base V' g'.
Proof.
  intros M NV HE. pose proof M as [MO MM MA MR MW MB MI MN MC]. unfold micro in HE.
  destruct (t_code (g_thr g i)) as [c|] eqn:Ec; [|discriminate].
  specialize (MC c eq_refl).
  destruct c as [r|k|c k|k|c a k|c k|a k|k|a k|a k|a k|a f k|a p k]; cbn in MC.
  - injection HE as <-. exists V. specialize (NV V r MC). constructor; cbn; auto.
    + eapply others_self; [exact MO|cbn; auto..]; try lia.
      * thr.
      * intros x Hx. destruct r as [|y|t|p]; auto. destruct (NV y eq_refl).
      * intros a r0 Hr. left; eauto.
    + rewrite upd_eq. auto.
    + intros c. rewrite upd_eq. discriminate.
  - injection HE as <-.
    assert (v_id V (g_next g) = false) as Hf.
    { destruct (v_id V (g_next g)) eqn:E; auto. apply (o_I _ _ _ g MO) in E. lia. }
    eexists. constructor; cycle 8.
    { intros c. cbn. rewrite upd_eq. cbn. intros [= <-]. apply MC; auto. }
    + eapply others_self; [exact MO|cbn; auto..]; try lia.
      * thr.
      * unfold vI; cbn. intros c. unfold upd. destruct (Nat.eqb_spec c (g_next g)) as [->|Hne]; auto.
        intros _. right. lia.
      * intros a r Hr. left; eauto.
      * intros c a Hm. left. split; auto. unfold vI; cbn. unfold upd. destruct (c =? g_next g); auto.
    + cbn. intros c. unfold upd. destruct (Nat.eqb_spec c (g_next g)) as [->|Hne]; auto.
      intros _. destruct (g_map g (g_next g)) as [a|] eqn:Em; auto. apply (o_map _ _ _ g MO) in Em as [? _]. lia.
    + cbn. auto.
    + cbn. rewrite upd_eq. auto.
    + cbn. auto.
    + cbn. intros a Ha. destruct (MB a Ha). split; auto.
    + cbn. intros c. unfold upd. destruct (Nat.eqb_spec c (g_next g)) as [->|Hne]; auto.
    + cbn. lia.
  - destruct MC as [Hc MC]. injection HE as <-.
    assert (v_arc V (g_anext g) = None) as Hf.
    { destruct (v_arc V (g_anext g)) as [r|] eqn:E; auto. assert (vA V (g_anext g)) as H by (unfold vA; congruence).
      apply (o_A _ _ _ g MO) in H. lia. }
    assert (~ In (g_anext g) (v_refs V)) as Hr by (intros H; apply MW in H; contradiction).
    eexists. constructor; cycle 8.
    { intros d. cbn. rewrite upd_eq. cbn. intros [= <-]. apply MC; auto. }
    + eapply others_self; [exact MO|cbn; auto..]; try lia.
      * thr.
      * unfold vA; cbn. intros a. unfold upd. destruct (Nat.eqb_spec a (g_anext g)) as [->|Hne]; auto.
        intros _. right. lia.
      * intros a r. unfold vA; cbn. unfold upd. destruct (Nat.eqb_spec a (g_anext g)) as [->|Hne].
        -- intros [= <-]. right. split; [discriminate|]. split; [lia|]. cbn. apply (o_I _ _ _ g MO). exact Hc.
        -- intros H. left. eauto.
    + cbn. auto.
    + cbn. intros a r. unfold upd. destruct (a =? g_anext g); auto.
    + cbn. rewrite upd_eq. cbn. rewrite MR. auto.
    + cbn. unfold vA; cbn. intros a. unfold upd. destruct (Nat.eqb_spec a (g_anext g)) as [->|Hne]; [discriminate|].
      intros [H|H]; [congruence|]. apply MW in H. exact H.
    + cbn. intros a Ha. destruct (MB a Ha) as [H1 H2]. split; [cbn; lia|]. unfold vA in *; cbn. unfold upd.
      destruct (Nat.eqb_spec a (g_anext g)) as [->|Hne]; auto. lia.
    + cbn. auto.
    + cbn. auto.
  - destruct (g_mlock g); [discriminate|]. injection HE as <-. exists V.
    eapply mine_plain; eauto; reflexivity.
  - destruct MC as (H1 & H2 & H3). injection HE as <-. eexists. eapply mine_map; eauto. intros b [= <-]; auto.
  - destruct MC as (H1 & H2). injection HE as <-. exists V. rewrite MM by auto.
    eapply mine_plain; eauto; reflexivity.
  - destruct MC as (r & H1 & H2 & H3). rewrite (MA a r H1) in HE. injection HE as <-.
    eexists. eapply mine_map; eauto. discriminate.
  - injection HE as <-. exists V. eapply mine_plain; eauto; reflexivity.
  - destruct MC as [H1 H2].
    rewrite (owned_mine Q base V g (v_refs V) M a H1 g eq_refl (fun _ _ => eq_refl) MR) in HE.
    destruct (has a (v_refs V)) eqn:Eh; injection HE as <-.
    + eexists. constructor; cycle 8.
      { intros d. cbn. rewrite upd_eq. cbn. intros [= <-]. exact H2. }
      * eapply others_self; [exact MO|cbn; auto..]; try lia; [thr|]. intros b r Hr. left; eauto.
      * cbn. auto.
      * cbn. auto.
      * cbn. rewrite upd_eq. cbn. rewrite MR. auto.
      * cbn. intros b [<-|Hb]; auto. apply MW; auto.
      * cbn. auto.
      * cbn. auto.
      * cbn. auto.
    + exists V. eapply mine_plain; eauto; reflexivity.
  - destruct MC as [H1 H2]. injection HE as <-.
    assert (~ In a base) as Hb by (intros H; apply MB in H as [_ H]; auto).
    assert (remove1 a (t_refs (g_thr g i)) = remove1 a (v_refs V) ++ base) as Hr.
    { rewrite MR. apply remove1_app; auto. }
    rewrite Hr.
    erewrite (owned_mine Q base V g (remove1 a (v_refs V)) M a H1 (set_thr g i (mkThread (remove1 a (v_refs V) ++ base) None))).
    + eexists. constructor; cycle 8.
      { intros d. cbn. rewrite upd_eq. cbn. intros [= <-]. exact H2. }
      * eapply others_self; [exact MO|cbn; auto..]; try lia; [|intros b r Hr1; left; eauto].
        intros l Hl. rewrite !upd_ne; auto.
      * cbn. auto.
      * cbn. auto.
      * cbn. rewrite upd_eq. auto.
      * cbn. intros b Hb1. apply in_remove1 in Hb1. apply MW in Hb1. auto.
      * cbn. auto.
      * cbn. auto.
      * cbn. auto.
    + reflexivity.
    + intros l Hl. cbn. rewrite upd_ne; auto.
    + cbn. rewrite upd_eq. auto.
  - destruct MC as (r & H1 & H2 & H3). rewrite (MA a r H1), H2 in HE. injection HE as <-.
    eexists. eapply (mine_arc Q base V g a r); eauto.
  - destruct MC as (r & H1 & H2). rewrite (MA a r H1) in HE. injection HE as <-.
    eexists. eapply (mine_arc Q base V g a r); eauto.
  - destruct MC as (r & H1 & H2). rewrite (MA a r H1) in HE. injection HE as <-.
    eexists. eapply (mine_arc Q base V g a r); eauto.
Qed.

End Self.
