(** Optimality of the checkpointing strategies among all ways to visit the states with limited
    memory (machine [reverses] of CheckSpec.v).  A plan is a set of positions to be held, with the
    cost of finishing from there by strategies; every move of the machine lowers the cost of the
    best plan, including the cost of getting to hold its positions, by at most what it costs. *)
From Coq Require Import List Arith Bool Lia.
From Verif Require Import Base Checkpoint CheckSpec CheckFacts.
Import ListNotations.

Lemma strategy_more c r a : strategy c r a -> strategy (S c) r a.
Proof.
  induction 1 as [c|c r k a b Hk Ha IHa Hb IHb]; [constructor|]. apply split; auto.
Qed.

(** [plan m Q r b]: the positions Q (increasing) are held and m more states fit in; b forward calls
    finish the job segment by segment, the last segment first. *)
Inductive plan : nat -> list nat -> nat -> nat -> Prop :=
| plan_last m q r b : q < r -> strategy m (r - q) b -> plan m [q] r b
| plan_cons m q q' Q r b1 b2 : q < q' -> strategy (S m) (q' - q) b1 -> plan m (q' :: Q) r b2 ->
    plan (S m) (q :: q' :: Q) r (b1 + b2).

Lemma plan_more m Q r b : plan m Q r b -> plan (S m) Q r b.
Proof.
  induction 1; constructor; auto using strategy_more.
Qed.
Lemma plan_len m Q r b : plan m Q r b -> length Q <= S m.
Proof. induction 1; cbn [length] in *; lia. Qed.
Lemma plan_lt m Q r b : plan m Q r b -> forall q, In q Q -> q < r.
Proof.
  induction 1 as [m q r b H HS|m q q' Q r b1 b2 H HS HP IH]; intros x [<-|Hx]; auto; try easy.
  specialize (IH q' (or_introl eq_refl)). lia.
Qed.
Lemma plan_gt m q Q r b : plan m (q :: Q) r b -> forall x, In x Q -> q < x.
Proof.
  remember (q :: Q) as L eqn:EL. intros HP. revert q Q EL.
  induction HP as [m q0 r b H HS|m q0 q' Q0 r b1 b2 H HS HP IH]; intros q Q [= <- <-] x Hx; [destruct Hx|].
  destruct Hx as [<-|Hx]; auto. specialize (IH q' Q0 eq_refl x Hx). lia.
Qed.

(** Room left: the last state can be planned to be held. *)
Lemma plan_snoc m Q r b : plan m Q r b -> length Q <= m -> plan m (Q ++ [r]) (S r) b.
Proof.
  induction 1 as [m q r b H HS|m q q' Q r b1 b2 H HS HP IH]; intros HL.
  - destruct m as [|m]; [cbn in HL; lia|]. cbn [app].
    replace b with (b + 0) by lia. apply plan_cons; auto.
    constructor; [lia|]. replace (S r - r) with 1 by lia. constructor.
  - cbn [app]. apply plan_cons; auto. apply IH. cbn [length] in *. lia.
Qed.

(** A position can be given up; it then has to be reached from its predecessor. *)
Lemma plan_merge l1 : forall m q1 q l2 r b, plan m (l1 ++ q1 :: q :: l2) r b ->
  plan m (l1 ++ q1 :: l2) r (b + (q - q1)) /\ q1 < q.
Proof.
  induction l1 as [|x l1 IH]; intros m q1 q l2 r b HP; cbn [app] in *.
  - inversion HP as [|m' ? ? ? ? b1 b2 Hlt HS HP2]; subst. split; [|auto].
    inversion HP2 as [? ? ? b' Hq HS2|m'' ? q' Q' ? b3 b4 Hq HS2 HP3]; subst.
    + constructor; [lia|].
      replace (b1 + b2 + (q - q1)) with ((q - q1) + b2 + b1) by lia. apply split; [lia| |auto].
      replace (r - q1 - (q - q1)) with (r - q) by lia. auto.
    + replace (b1 + (b3 + b4) + (q - q1)) with (((q - q1) + b3 + b1) + b4) by lia.
      apply plan_cons; [lia| |apply plan_more; auto].
      apply split; [lia| |auto]. replace (q' - q1 - (q - q1)) with (q' - q) by lia. auto.
  - destruct l1 as [|y l1]; cbn [app] in *;
      inversion HP as [|m' ? ? ? ? b1 b2 Hlt HS HP2]; subst.
    + destruct (IH _ _ _ _ _ _ HP2) as [H1 H2]. split; auto. cbn [app] in H1.
      rewrite <- Nat.add_assoc. apply plan_cons; auto.
    + destruct (IH _ _ _ _ _ _ HP2) as [H1 H2]. split; auto.
      rewrite <- Nat.add_assoc. apply plan_cons; auto.
Qed.

(** ** The steps needed to come to hold Q when S is held *)
Definition need (S Q : list nat) (i : nat) : bool :=
  existsb (fun q => (i <? q) && forallb (fun s => (q <? s) || (s <=? i)) S) Q.
Lemma need_spec S Q i : need S Q i = true <->
  exists q, In q Q /\ i < q /\ forall s, In s S -> s <= q -> s <= i.
Proof.
  unfold need. rewrite existsb_exists. split.
  - intros (q & Hq & H). exists q. apply andb_true_iff in H. destruct H as [H1 H2].
    apply Nat.ltb_lt in H1. split; auto. split; auto. intros s Hs Hle.
    rewrite forallb_forall in H2. specialize (H2 s Hs). apply orb_true_iff in H2.
    destruct H2 as [H2|H2]; [apply Nat.ltb_lt in H2; lia|apply Nat.leb_le in H2; lia].
  - intros (q & Hq & H1 & H2). exists q. split; auto. apply andb_true_iff.
    split; [apply Nat.ltb_lt; auto|]. apply forallb_forall. intros s Hs. apply orb_true_iff.
    destruct (Nat.ltb_spec q s); [auto|]. right. apply Nat.leb_le. auto.
Qed.
Definition cost (S Q : list nat) (r : nat) : nat := length (filter (need S Q) (seq 0 r)).

Lemma cost_incl S Q r S' Q' r' D :
  NoDup D -> (forall i, In i D -> i < r' /\ need S' Q' i = true /\ ~ (need S Q i = true /\ i < r)) ->
  (forall i, i < r -> need S Q i = true -> i < r' /\ need S' Q' i = true) ->
  cost S Q r + length D <= cost S' Q' r'.
Proof.
  intros ND HD HI. unfold cost. rewrite <- app_length. apply NoDup_incl_length.
  - 
    assert (forall (l1 l2 : list nat), NoDup l1 -> NoDup l2 -> (forall x, In x l1 -> ~ In x l2) -> NoDup (l1 ++ l2)) as NA.
    { clear. induction l1 as [|x l1 IH]; intros l2 N1 N2 H; cbn; auto. inversion N1; subst.
      constructor; [rewrite in_app_iff; intros [Hx|Hx]; [auto|eapply H; [left; reflexivity|auto]]|].
      apply IH; auto. intros y Hy. apply H. right; auto. }
    apply NA; auto using NoDup_filter, seq_NoDup.
    intros x Hx Hd. apply filter_In in Hx. destruct Hx as [Hx Hn]. apply in_seq in Hx.
    apply (HD x Hd). split; auto. lia.
  - intros x Hx. apply filter_In. apply in_app_iff in Hx. destruct Hx as [Hx|Hx].
    + apply filter_In in Hx. destruct Hx as [Hx Hn]. apply in_seq in Hx.
      destruct (HI x) as [H1 H2]; auto; [lia|]. split; auto. apply in_seq. lia.
    + destruct (HD x Hx) as (H1 & H2 & _). split; auto. apply in_seq. lia.
Qed.

(** ** The pair whose upper position can be given up *)
Definition bad (S : list nat) (p : nat * nat) : Prop := exists s, In s S /\ fst p < s <= snd p.
Lemma bad_dec S p : {bad S p} + {~ bad S p}.
Proof.
  destruct (existsb (fun s => (fst p <? s) && (s <=? snd p)) S) eqn:E.
  - left. apply existsb_exists in E. destruct E as (s & Hs & E). apply andb_true_iff in E.
    destruct E as [E1 E2]. apply Nat.ltb_lt in E1. apply Nat.leb_le in E2. exists s. auto.
  - right. intros (s & Hs & E1 & E2). assert (existsb (fun s => (fst p <? s) && (s <=? snd p)) S = true) as E'; [|congruence].
    apply existsb_exists. exists s. split; auto. apply andb_true_iff.
    split; [apply Nat.ltb_lt; auto|apply Nat.leb_le; auto].
Qed.

Inductive all_bad (S : list nat) : list nat -> Prop :=
| ab_one q : all_bad S [q]
| ab_cons q q' Q : bad S (q, q') -> all_bad S (q' :: Q) -> all_bad S (q :: q' :: Q).

(** Either all consecutive pairs contain something held, or there is a last pair that does not. *)
Lemma last_good S Q : Q <> [] -> all_bad S Q \/
  exists l1 q1 q l2, Q = l1 ++ q1 :: q :: l2 /\ ~ bad S (q1, q) /\ all_bad S (q :: l2).
Proof.
  induction Q as [|q Q IH]; intros HQ; [congruence|]. destruct Q as [|q' Q]; [left; constructor|].
  destruct IH as [IH|(l1 & q1 & q2 & l2 & E & H1 & H2)]; [discriminate| |].
  - destruct (bad_dec S (q, q')) as [Hb|Hb]; [left; constructor; auto|].
    right. exists [], q, q', Q. auto.
  - right. exists (q :: l1), q1, q2, l2. rewrite E. auto.
Qed.

(** One held state per pair. *)
Lemma all_bad_count S : forall Q q, all_bad S (q :: Q) ->
  exists W, length W = length Q /\ NoDup W /\ incl W S /\
    forall w, In w W -> q < w /\ exists x, In x Q /\ w <= x.
Proof.
  induction Q as [|q' Q IH]; intros q HB.
  - exists []. split; auto. split; [constructor|]. split; intros x [].
  - inversion HB as [|? ? ? (s & Hs & H1 & H2) HB']; subst. cbn [fst snd] in *.
    destruct (IH q' HB') as (W & HL & ND & HI & HW).
    exists (s :: W). split; [cbn; lia|]. split.
    + constructor; auto. intros Hw. destruct (HW s Hw). lia.
    + split; [intros x [<-|Hx]; auto|]. intros w [<-|Hw].
      * split; auto. exists q'. split; [left; auto|auto].
      * destruct (HW w Hw) as (H3 & x & Hx & H4). split; [lia|]. exists x. split; [right; auto|auto].
Qed.

Lemma plan_inner l1 : forall m q1 q l2 r b, plan m (l1 ++ q1 :: q :: l2) r b ->
  (forall x, In x l1 -> x < q1) /\ (forall x, In x l2 -> q < x) /\ q1 < q.
Proof.
  induction l1 as [|x l1 IH]; intros m q1 q l2 r b HP; cbn [app] in *.
  - split; [intros x []|]. inversion HP as [|m' ? ? ? ? b1 b2 Hlt HS HP2]; subst. split; auto.
    intros x Hx. eapply plan_gt; eauto.
  - assert (forall y, In y (l1 ++ q1 :: q :: l2) -> x < y) as HX by (intros y Hy; eapply plan_gt; eauto).
    destruct l1 as [|y l1]; cbn [app] in *; inversion HP as [|m' ? ? ? ? b1 b2 Hlt HS HP2]; subst.
    + destruct (IH _ _ _ _ _ _ HP2) as (H1 & H2 & H3). split; [|auto].
      intros z [<-|[]]. apply HX. left; auto.
    + destruct (IH _ _ _ _ _ _ HP2) as (H1 & H2 & H3). split; [|auto].
      intros z [<-|Hz]; auto. apply HX. right. apply in_or_app. right. left. auto.
Qed.

Lemma all_bad_next S q q' Q : all_bad S (q :: q' :: Q) -> exists s, In s S /\ q < s <= q'.
Proof. inversion 1; subst. auto. Qed.

(** ** The moves *)
Definition good_plan (m : nat) (S : list nat) (r a : nat) : Prop :=
  In 0 S /\ exists Q b, plan m (0 :: Q) r b /\ cost S (0 :: Q) r + b <= a.

Lemma good_visit m S r a : length S <= m + 1 -> In r S ->
  r = 0 \/ good_plan m S r a -> good_plan m S (Datatypes.S r) a.
Proof.
  intros HS Hr [->|(H0 & Q & b & HP & HC)].
  - split; auto. exists [], 0. split; [constructor; [lia|constructor]|].
    unfold cost. cbn [seq filter]. replace (need S [0] 0) with false; [cbn; lia|].
    symmetry. apply not_true_is_false. intros H. apply need_spec in H.
    destruct H as (q & [<-|[]] & H & _). lia.
  - split; auto.
    (* steps to hold Q extended by the state held anyway *)
    assert (forall L D, NoDup D -> (forall x, In x L -> x < r) -> incl L (0 :: Q) ->
      (forall i, In i D -> i < r /\ need S (0 :: Q) i = true /\ need S L i = false) ->
      cost S (L ++ [r]) (Datatypes.S r) + length D <= cost S (0 :: Q) r) as HX.
    { intros L D ND HL HI HD. apply cost_incl; auto.
      - intros i Hi. destruct (HD i Hi) as (H1 & H2 & H3). split; auto. split; auto.
        intros [H4 H5]. apply need_spec in H4. destruct H4 as (q & Hq & Hiq & Hs).
        apply in_app_iff in Hq. destruct Hq as [Hq|[<-|[]]].
        + assert (need S L i = true) by (apply need_spec; eauto). congruence.
        + specialize (Hs r Hr). lia.
      - intros i Hi H4. apply need_spec in H4. destruct H4 as (q & Hq & Hiq & Hs).
        apply in_app_iff in Hq. destruct Hq as [Hq|[<-|[]]].
        + split; [specialize (HL q Hq); lia|]. apply need_spec. exists q. auto.
        + specialize (Hs r Hr). lia. }
    pose proof (plan_lt _ _ _ _ HP) as Hlt.
    destruct (le_lt_dec (length (0 :: Q)) m) as [Hm|Hm].
    + exists (Q ++ [r]), b. split; [apply (plan_snoc m (0 :: Q)); auto|].
      specialize (HX (0 :: Q) []). cbn [length] in HX.
      assert (cost S ((0 :: Q) ++ [r]) (Datatypes.S r) + 0 <= cost S (0 :: Q) r) as H.
      { apply HX; auto using NoDup_nil, incl_refl. intros i []. }
      cbn [app] in H. lia.
    + (* no room: give up the last position not held whose predecessor is planned *)
      destruct (last_good S (0 :: Q)) as [HB|(l1 & q1 & q & l2 & E & HG & HB)]; [discriminate| |].
      { exfalso. destruct (all_bad_count S Q 0 HB) as (W & HL & ND & HI & HW).
        assert (length (0 :: r :: W) <= length S) as H.
        { apply NoDup_incl_length.
          - constructor.
            + intros [H|H]; [|destruct (HW 0 H); lia]. subst r. specialize (Hlt 0 (or_introl eq_refl)). lia.
            + constructor; auto. intros H. destruct (HW r H) as (_ & x & Hx & Hle).
              specialize (Hlt x (or_intror Hx)). lia.
          - intros x [<-|[<-|Hx]]; auto. }
        cbn [length] in *. lia. }
      rewrite E in *. destruct (plan_merge l1 _ _ _ _ _ _ HP) as [HP' Hq].
      destruct (plan_inner l1 _ _ _ _ _ _ HP) as (HI1 & HI2 & _).
      assert (length (l1 ++ q1 :: l2) <= m) as HL.
      { pose proof (plan_len _ _ _ _ HP) as H. rewrite app_length in *. cbn [length] in *. lia. }
      apply plan_snoc in HP'; auto.
      assert (exists Q', (l1 ++ q1 :: l2) ++ [r] = 0 :: Q') as (Q' & EQ).
      { destruct l1; cbn [app] in *; injection E as -> _; eauto. }
      exists Q', (b + (q - q1)). rewrite <- EQ. split; [exact HP'|].
      specialize (HX (l1 ++ q1 :: l2) (seq q1 (q - q1)) (seq_NoDup _ _)).
      rewrite seq_length in HX.
      assert (cost S ((l1 ++ q1 :: l2) ++ [r]) (Datatypes.S r) + (q - q1) <= cost S (l1 ++ q1 :: q :: l2) r); [|lia].
      apply HX.
      * intros x Hx. apply Hlt. apply in_app_iff. apply in_app_iff in Hx. cbn [In] in *. tauto.
      * intros x Hx. apply in_app_iff. apply in_app_iff in Hx. cbn [In] in *. tauto.
      * intros i Hi. apply in_seq in Hi. split.
        { assert (q < r) by (apply Hlt; apply in_app_iff; cbn [In]; tauto). lia. }
        split.
        { apply need_spec. exists q. split; [apply in_app_iff; cbn [In]; tauto|]. split; [lia|].
          intros s Hs Hle. destruct (le_lt_dec s q1); [lia|]. exfalso. apply HG. exists s. cbn. auto. }
        { apply not_true_is_false. intros H. apply need_spec in H. destruct H as (x & Hx & Hix & Hs).
          apply in_app_iff in Hx. destruct Hx as [Hx|[<-|Hx]]; [specialize (HI1 x Hx); lia|lia|].
          destruct l2 as [|q2 l2]; [destruct Hx|]. destruct (all_bad_next _ _ _ _ HB) as (s & Hs1 & H1 & H2).
          assert (q2 <= x) as Hx2.
          { destruct Hx as [<-|Hx]; [lia|].
            assert (plan m ((l1 ++ [q1]) ++ q :: q2 :: l2) r b) as HP2 by (rewrite <- app_assoc; exact HP).
            destruct (plan_inner (l1 ++ [q1]) _ _ _ _ _ _ HP2) as (_ & H3 & _). specialize (H3 x Hx). lia. }
          specialize (Hs s Hs1). lia. }
Qed.

Lemma good_sub m S S' r a : incl S' S -> good_plan m S' r a -> good_plan m S r a.
Proof.
  intros HI (H0 & Q & b & HP & HC). split; auto. exists Q, b. split; auto.
  pose proof (cost_incl S (0 :: Q) r S' (0 :: Q) r []) as H. cbn [length] in H.
  enough (cost S (0 :: Q) r + 0 <= cost S' (0 :: Q) r) by lia. apply H; [constructor|intros i []|].
  intros i Hi Hn. split; auto. apply need_spec in Hn. destruct Hn as (q & Hq & H1 & H2).
  apply need_spec. exists q. auto.
Qed.

Lemma good_forward m l1 i l2 r a :
  good_plan m (l1 ++ S i :: l2) r a -> good_plan m (l1 ++ i :: l2) r (S a).
Proof.
  intros (H0 & Q & b & HP & HC). split.
  { apply in_app_iff in H0. apply in_app_iff. destruct H0 as [H|[H|H]]; [auto|discriminate|right; right; auto]. }
  exists Q, b. split; auto.
  assert (cost (l1 ++ i :: l2) (0 :: Q) r <= 1 + cost (l1 ++ S i :: l2) (0 :: Q) r); [|lia].
  unfold cost. change (1 + ?x) with (length [i] + x). rewrite <- app_length.
  apply NoDup_incl_length; [apply NoDup_filter, seq_NoDup|].
  intros j Hj. apply filter_In in Hj. destruct Hj as [Hj Hn].
  destruct (Nat.eq_dec i j) as [->|Hne]; [left; auto|right]. apply filter_In. split; auto.
  apply need_spec in Hn. destruct Hn as (q & Hq & H1 & H2). apply need_spec. exists q.
  split; auto. split; auto. intros s Hs Hle. apply in_app_iff in Hs.
  destruct Hs as [Hs|[<-|Hs]].
  - apply H2; auto. apply in_app_iff. auto.
  - assert (i <= j); [|lia]. apply H2; [apply in_app_iff; cbn; auto|lia].
  - apply H2; auto. apply in_app_iff. cbn. auto.
Qed.

Theorem reverses_good c st a : reverses c st a -> length (fst st) <= c ->
  snd st = 0 \/ good_plan (c - 1) (fst st) (snd st) a.
Proof.
  induction 1 as [held|l1 i l2 r a HL H IH|l1 i l2 r a H IH|l1 i l2 r a H IH|held r a Hr H IH];
    cbn [fst snd] in *; intros HLen.
  - auto.
  - destruct IH as [IH|IH]; auto. right. eapply good_sub; [|exact IH].
    intros x [<-|Hx]; auto. apply in_app_iff. cbn. auto.
  - rewrite app_length in *. cbn [length] in *. destruct IH as [IH|IH]; auto; [lia|].
    right. eapply good_sub; [|exact IH].
    intros x Hx. apply in_app_iff in Hx. apply in_app_iff. cbn. tauto.
  - rewrite app_length in *. cbn [length] in *. destruct IH as [IH|IH]; auto.
    right. apply good_forward; auto.
  - right. specialize (IH HLen). apply good_visit; auto.
    destruct held; [destruct Hr|cbn [length] in *; lia].
Qed.

(** Starting with the first state only, the plan is a strategy. *)
Lemma plan_strategy m q Q r b : plan m (q :: Q) r b -> strategy m (r - q) (b + (last (q :: Q) 0 - q)) /\ q <= last (q :: Q) 0.
Proof.
  remember (q :: Q) as L eqn:EL. intros HP. revert q Q EL.
  induction HP as [m q0 r b H HS|m q0 q' Q0 r b1 b2 H HS HP IH]; intros q Q [= <- <-].
  - cbn [last]. rewrite Nat.sub_diag, Nat.add_0_r. auto.
  - destruct (IH q' Q0 eq_refl) as [H1 H2].
    change (last (q0 :: q' :: Q0) 0) with (last (q' :: Q0) 0). split; [|lia].
    pose proof (plan_lt _ _ _ _ HP q' (or_introl eq_refl)).
    replace (b1 + b2 + (last (q' :: Q0) 0 - q0)) with ((q' - q0) + (b2 + (last (q' :: Q0) 0 - q')) + b1) by lia.
    apply split; [lia| |auto]. replace (r - q0 - (q' - q0)) with (r - q') by lia. auto.
Qed.

Theorem reverses_lower c n a : 1 <= c -> reverses c ([0], n + 1) a ->
  exists a0, strategy (c - 1) (n + 1) a0 /\ a0 <= a.
Proof.
  intros Hc H. destruct (reverses_good _ _ _ H Hc) as [H0|(_ & Q & b & HP & HC)]; cbn [fst snd] in *; [lia|].
  destruct (plan_strategy _ _ _ _ _ HP) as [HS _]. rewrite Nat.sub_0_r in *.
  eexists. split; [exact HS|].
  assert (last (0 :: Q) 0 <= cost [0] (0 :: Q) (n + 1)); [|lia].
  assert (In (last (0 :: Q) 0) (0 :: Q)) as HI.
  { assert (forall q, In (last (q :: Q) 0) (q :: Q)) as H'; [|apply H'].
    clear. induction Q as [|x Q IH]; intros q; [left; auto|].
    right. change (In (last (x :: Q) 0) (x :: Q)). apply IH. }
  pose proof (plan_lt _ _ _ _ HP _ HI) as HL.
  rewrite <- (seq_length (last (0 :: Q) 0) 0) at 1. apply NoDup_incl_length; [apply seq_NoDup|].
  intros i Hi. apply in_seq in Hi. apply filter_In. split; [apply in_seq; lia|].
  apply need_spec. exists (last (0 :: Q) 0). split; auto. split; [lia|]. intros s [<-|[]] _. lia.
Qed.

(** ** Conversely every strategy is a way the machine can work. *)
Lemma forward_many c : forall k i l r a, reverses c (i + k :: l, r) a -> reverses c (i :: l, r) (k + a).
Proof.
  induction k as [|k IH]; intros i l r a H; cbn [Nat.add].
  - rewrite Nat.add_0_r in H. exact H.
  - apply (r_forward c [] i l). cbn [app]. apply IH. rewrite Nat.add_succ_comm. exact H.
Qed.
Lemma strategy_runs m r a : strategy m r a -> forall c i l a2, length l + 1 + m <= c ->
  reverses c (l, i) a2 -> reverses c (i :: l, i + r) (a + a2).
Proof.
  induction 1 as [m|m r k a b Hk Ha IHa Hb IHb]; intros c i l a2 HL H.
  - replace (i + 1) with (S i) by lia. apply r_visit; [left; auto|]. apply (r_forget c [] i l). exact H.
  - apply (r_copy c [] i l); [cbn [length app]; lia|]. cbn [app].
    replace (k + a + b + a2) with (k + (a + (b + a2))) by lia. apply forward_many.
    replace (i + r) with (i + k + (r - k)) by lia. apply IHa; [cbn [length]; lia|].
    apply IHb; [lia|exact H].
Qed.
Theorem strategy_reverses c n a : 1 <= c -> strategy (c - 1) (n + 1) a -> reverses c ([0], n + 1) a.
Proof.
  intros Hc H. replace a with (a + 0) by lia. apply (strategy_runs _ _ _ H c 0 [] 0); [cbn; lia|constructor].
Qed.
