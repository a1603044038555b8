(** What the threads outside a set [mi] can do to the contexts [I] (ids), [A] (addresses) they have
    never heard of: nothing. *)
From Coq Require Import List Arith ZArith Bool Lia.
From Verif Require Import Base Float Operation Tape AContext Spec Param Api Ffi Concurrent ConcSpec ConcInv
  Client IsoFacts.
Import ListNotations.

Section Others.
Context {S F : Type} (So : Fops S) (tof : S -> option F).
Notation code := (code S F). Notation sys := (sys S F).
Context (mi I A : nat -> Prop).

Definition PI (g : sys) (c : nat) : Prop := c < g_next g /\ ~ I c.
Definition QA (g : sys) (a : nat) : Prop := a < g_anext g /\ ~ A a.

Record others (g : sys) : Prop := {
  o_thr : forall j c, ~ mi j -> t_code (g_thr g j) = Some c -> only (PI g) (QA g) c;
  o_refs : forall j a, ~ mi j -> In a (t_refs (g_thr g j)) -> QA g a;
  o_vars : forall x, In x (g_vars g) -> af_only (PI g) x;
  o_arc : forall a r, g_arc g a = Some r -> a < g_anext g /\ a_cid r < g_next g /\ (~ A a -> ~ I (a_cid r));
  o_map : forall c a, g_map g c = Some a -> c < g_next g /\ (~ I c -> QA g a);
  o_I : forall c, I c -> c < g_next g;
  o_A : forall a, A a -> a < g_anext g;
  o_n : forall j, mi j -> j < g_n g
}.

(** Nothing of mine has changed. *)
Record frame (g g' : sys) : Prop := {
  f_map : forall c, I c -> g_map g' c = g_map g c;
  f_arc : forall a, A a -> g_arc g' a = g_arc g a;
  f_thr : forall j, mi j -> g_thr g' j = g_thr g j
}.

Lemma others_by g g' j :
  others g -> g_next g <= g_next g' -> g_anext g <= g_anext g' -> g_n g <= g_n g' ->
  (forall l, l <> j -> g_thr g' l = g_thr g l) ->
  (~ mi j -> forall c, t_code (g_thr g' j) = Some c -> only (PI g') (QA g') c) ->
  (~ mi j -> forall a, In a (t_refs (g_thr g' j)) -> QA g' a) ->
  (forall x, In x (g_vars g') -> In x (g_vars g) \/ af_only (PI g') x) ->
  (forall a r, g_arc g' a = Some r -> (exists r0, g_arc g a = Some r0 /\ a_cid r0 = a_cid r) \/
     (a < g_anext g' /\ a_cid r < g_next g' /\ (~ A a -> ~ I (a_cid r)))) ->
  (forall c a, g_map g' c = Some a -> g_map g c = Some a \/ (c < g_next g' /\ (~ I c -> QA g' a))) ->
  others g'.
Proof.
  intros [OT OR OV OA OM OI OAA ON] L1 L2 L3 HT HC HR HV HA HM.
  assert (sub (PI g) (PI g')) as SP by (intros c [? ?]; split; auto; lia).
  assert (sub (QA g) (QA g')) as SQ by (intros c [? ?]; split; auto; lia).
  constructor.
  - intros l c Hl Hc. destruct (Nat.eq_dec l j) as [->|Hne]; [auto|]. rewrite HT in Hc; auto.
    eapply only_mono; eauto.
  - intros l a Hl Ha. destruct (Nat.eq_dec l j) as [->|Hne]; [auto|]. rewrite HT in Ha; eauto.
  - intros x Hx. destruct (HV x Hx) as [H|H]; auto. eapply af_only_mono; eauto.
  - intros a r Hr. destruct (HA a r Hr) as [(r0 & H & <-)|H]; [|auto].
    destruct (OA a r0 H) as (? & ? & ?). split; [lia|]. split; [lia|auto].
  - intros c a Hc. destruct (HM c a Hc) as [H|H]; [|auto].
    destruct (OM c a H) as [? ?]. split; [lia|]. intros Hn. apply SQ; auto.
  - intros c Hc. specialize (OI c Hc). lia.
  - intros a Ha. specialize (OAA a Ha). lia.
  - intros l Hl. specialize (ON l Hl). lia.
Qed.

Ltac go_thr := let l := fresh in intros l ?; cbn; rewrite ?(upd_ne _ _ l) by auto; auto.

Lemma sub_PI g g' : g_next g <= g_next g' -> sub (PI g) (PI g').
Proof. intros H c [? ?]. split; auto. lia. Qed.
Lemma sub_QA g g' : g_anext g <= g_anext g' -> sub (QA g) (QA g').
Proof. intros H c [? ?]. split; auto. lia. Qed.

(** Only the code of thread [j] changes, and perhaps the registry's lock. *)
Lemma others_code g g' j c' :
  others g -> g_next g' = g_next g -> g_anext g' = g_anext g -> g_n g' = g_n g ->
  g_thr g' = upd (g_thr g) j (mkThread (t_refs (g_thr g j)) c') ->
  (forall c, c' = Some c -> only (PI g) (QA g) c) ->
  (forall x, In x (g_vars g') -> In x (g_vars g) \/ af_only (PI g) x) -> g_arc g' = g_arc g ->
  (forall c a, g_map g' c = Some a -> g_map g c = Some a \/ (c < g_next g' /\ (~ I c -> QA g' a))) ->
  others g'.
Proof.
  intros O E1 E2 E3 ET HC HV EA HM.
  assert (forall a, PI g a -> PI g' a) as SP by (unfold PI; rewrite E1; auto).
  assert (forall a, QA g a -> QA g' a) as SQ by (unfold QA; rewrite E2; auto).
  apply (others_by g g' j); auto; try lia; rewrite ?ET, ?EA.
  - intros l Hl. rewrite upd_ne; auto.
  - intros _ c. rewrite upd_eq. cbn. intros Hc. eapply only_mono; [exact SP|exact SQ|auto].
  - intros Hj a. rewrite upd_eq. cbn. intros Ha. apply SQ. eapply o_refs; eauto.
  - intros x Hx. destruct (HV x Hx); auto. right. apply (af_only_mono (PI g)); auto.
  - intros a r Hr. left. eauto.
Qed.

Lemma frame_same g g' j : ~ mi j -> (forall c, I c -> g_map g' c = g_map g c) -> (forall a, A a -> g_arc g' a = g_arc g a) ->
  (forall l, l <> j -> g_thr g' l = g_thr g l) -> frame g g'.
Proof. intros Hj H1 H2 H3. constructor; auto. intros l Hl. apply H3. congruence. Qed.

Lemma in_rem a b l : In b (remove1 a l) -> In b l.
Proof. apply in_remove1. Qed.

Lemma micro_other g j g' : others g -> ~ mi j -> j < g_n g -> micro g j = Some g' -> others g' /\ frame g g'.
Proof.
  intros O Hj Hn HE. unfold micro in HE. destruct (t_code (g_thr g j)) as [c|] eqn:Ec; [|discriminate].
  pose proof (o_thr g O j c Hj Ec) as HO.
  destruct c as [r|k|c k|k|c a k|c k|a k|k|a k|a k|a k|a f k|a p k]; cbn in HO.
  - injection HE as <-. split.
    + eapply (others_code g _ j None); eauto; try reflexivity; cbn; try discriminate.
      intros x Hx. destruct r; auto. apply in_app_or in Hx as [Hx|[<-|[]]]; auto.
    + apply (frame_same g _ j); cbn; auto. go_thr.
  - injection HE as <-. split.
    + apply (others_by g _ j); cbn; auto; try lia.
      * go_thr.
      * intros _ c. rewrite upd_eq. cbn. intros [= <-]. eapply only_mono; cycle 2; [apply HO| |apply sub_QA; cbn; lia].
        apply sub_in; [apply sub_PI; cbn; lia|]. split; [cbn; lia|]. intros H. apply (o_I g O) in H. lia.
      * intros _ a. rewrite upd_eq. cbn. intros Ha. destruct (o_refs g O j a Hj Ha). split; auto.
      * intros a r Hr. left; eauto.
    + apply (frame_same g _ j); cbn; auto. go_thr.
  - destruct HO as [[Hc Hc'] HO]. injection HE as <-.
    assert (~ A (g_anext g)) as HA by (intros H; apply (o_A g O) in H; lia).
    split.
    + apply (others_by g _ j); cbn; auto; try lia.
      * go_thr.
      * intros _ c'. rewrite upd_eq. cbn. intros [= <-]. eapply only_mono; cycle 2; [apply HO|apply sub_PI; cbn; lia|].
        apply sub_in; [apply sub_QA; cbn; lia|]. split; [cbn; lia|auto].
      * intros _ a. rewrite upd_eq. cbn. intros [<-|Ha]; [split; [cbn; lia|auto]|].
        destruct (o_refs g O j a Hj Ha). split; [cbn; lia|auto].
      * intros a r. unfold upd at 1. destruct (Nat.eqb_spec a (g_anext g)) as [->|Hne].
        -- intros [= <-]. right. cbn. split; [lia|]. split; [lia|auto].
        -- left; eauto.
    + apply (frame_same g _ j); cbn; auto; [|go_thr].
      intros a Ha. rewrite upd_ne; auto. congruence.
  - destruct (g_mlock g); [discriminate|]. injection HE as <-. split.
    + eapply (others_code g _ j (Some k)); eauto; try reflexivity; cbn; auto.
      intros ? [= <-]; auto.
    + apply (frame_same g _ j); cbn; auto. go_thr.
  - destruct HO as ([Hc Hc'] & HA & HO). injection HE as <-. split.
    + eapply (others_code g _ j (Some k)); eauto; try reflexivity; cbn; auto.
      * intros ? [= <-]; auto.
      * intros c' a'. unfold upd at 1. destruct (Nat.eqb_spec c' c) as [->|Hne]; [|auto].
        intros [= <-]. auto.
    + apply (frame_same g _ j); cbn; auto; [|go_thr]. intros c' H. rewrite upd_ne; auto. congruence.
  - destruct HO as ([Hc Hc'] & H0 & H1). injection HE as <-. split.
    + eapply (others_code g _ j (Some (k (g_map g c)))); eauto; try reflexivity; cbn; auto.
      intros ? [= <-]. destruct (g_map g c) as [a|] eqn:Em; auto.
      eapply only_mono; cycle 2; [apply H1|apply sub_refl|]. apply sub_in; [apply sub_refl|].
      apply (o_map g O c a Em). auto.
    + apply (frame_same g _ j); cbn; auto. go_thr.
  - destruct HO as [[Ha Ha'] HO]. destruct (g_arc g a) as [r|] eqn:Er; [|discriminate]. injection HE as <-.
    destruct (o_arc g O a r Er) as (_ & Hc & Hi). split.
    + eapply (others_code g _ j (Some k)); eauto; try reflexivity; cbn; auto.
      * intros ? [= <-]; auto.
      * intros c' a'. unfold upd at 1. destruct (Nat.eqb_spec c' (a_cid r)) as [->|Hne]; [discriminate|auto].
    + apply (frame_same g _ j); cbn; auto; [|go_thr]. intros c' H. rewrite upd_ne; auto.
      intros ->. apply Hi; auto.
  - injection HE as <-. split.
    + eapply (others_code g _ j (Some k)); eauto; try reflexivity; cbn; auto.
      intros ? [= <-]; auto.
    + apply (frame_same g _ j); cbn; auto. go_thr.
  - destruct HO as [Ha HO]. destruct (owned g a); injection HE as <-.
    + split.
      * apply (others_by g _ j); cbn; auto; try lia.
        -- go_thr.
        -- intros _ c. rewrite upd_eq. cbn. intros [= <-]. apply HO.
        -- intros _ b. rewrite upd_eq. cbn. intros [<-|Hb]; auto. apply (o_refs g O j b Hj Hb).
        -- intros b r Hr. left; eauto.
      * apply (frame_same g _ j); cbn; auto. go_thr.
    + split.
      * eapply (others_code g _ j (Some (k false))); eauto; try reflexivity; cbn; auto.
        intros ? [= <-]; auto.
      * apply (frame_same g _ j); cbn; auto. go_thr.
  - destruct HO as [Ha HO]. injection HE as <-. split.
    + apply (others_by g _ j); cbn; auto; try lia.
      * intros l Hl. rewrite !upd_ne; auto.
      * intros _ c. rewrite upd_eq. cbn. intros [= <-]. apply HO.
      * intros _ b. rewrite upd_eq. cbn. intros Hb. apply in_remove1 in Hb. apply (o_refs g O j b Hj Hb).
      * intros b r Hr. left; eauto.
    + apply (frame_same g _ j); cbn; auto. intros l Hl. rewrite !upd_ne; auto.
  - destruct HO as [Ha HO]. destruct (g_arc g a) as [r|] eqn:Er; [|discriminate].
    destruct (a_lock r); [discriminate|]. injection HE as <-. split.
    + apply (others_by g _ j); cbn; auto; try lia.
      * go_thr.
      * intros _ c. rewrite upd_eq. cbn. intros [= <-]. apply HO.
      * intros _ b. rewrite upd_eq. cbn. intros Hb. apply (o_refs g O j b Hj Hb).
      * intros b r'. unfold upd at 1. destruct (Nat.eqb_spec b a) as [->|Hne]; [|eauto].
        intros [= <-]. left. exists r. auto.
    + apply (frame_same g _ j); cbn; auto; [|go_thr]. intros b Hb. rewrite upd_ne; auto.
      intros ->. apply Ha; auto.
  - destruct HO as [Ha HO]. destruct (g_arc g a) as [r|] eqn:Er; [|discriminate]. injection HE as <-.
    destruct (o_arc g O a r Er) as (_ & Hc & Hi). split.
    + apply (others_by g _ j); cbn; auto; try lia.
      * go_thr.
      * intros _ c. rewrite upd_eq. cbn. intros [= <-]. eapply only_mono; cycle 2; [apply HO| |apply sub_refl].
        apply sub_in; [apply sub_refl|]. split; [auto|]. apply Hi. apply Ha.
      * intros _ b. rewrite upd_eq. cbn. intros Hb. apply (o_refs g O j b Hj Hb).
      * intros b r'. unfold upd at 1. destruct (Nat.eqb_spec b a) as [->|Hne]; [|eauto].
        intros [= <-]. left. exists r. auto.
    + apply (frame_same g _ j); cbn; auto; [|go_thr]. intros b Hb. rewrite upd_ne; auto.
      intros ->. apply Ha; auto.
  - destruct HO as [Ha HO]. destruct (g_arc g a) as [r|] eqn:Er; [|discriminate]. injection HE as <-. split.
    + apply (others_by g _ j); cbn; auto; try lia.
      * go_thr.
      * intros _ c. rewrite upd_eq. cbn. intros [= <-]. apply HO.
      * intros _ b. rewrite upd_eq. cbn. intros Hb. apply (o_refs g O j b Hj Hb).
      * intros b r'. unfold upd at 1. destruct (Nat.eqb_spec b a) as [->|Hne]; [|eauto].
        intros [= <-]. left. exists r. auto.
    + apply (frame_same g _ j); cbn; auto; [|go_thr]. intros b Hb. rewrite upd_ne; auto.
      intros ->. apply Ha; auto.
Qed.

Lemma begin_other g j c g' : others g -> ~ mi j -> only (PI g) (QA g) c -> begin g j c = Some g' ->
  others g' /\ frame g g'.
Proof.
  intros O Hj HO. unfold begin. destruct (t_code (g_thr g j)); [discriminate|]. intros [= <-]. split.
  - eapply (others_code g _ j (Some c)); eauto; try reflexivity; cbn; auto. intros ? [= <-]; auto.
  - apply (frame_same g _ j); cbn; auto. go_thr.
Qed.

Lemma add_var_other g x : others g -> af_only (PI g) x -> others (add_var g x) /\ frame g (add_var g x).
Proof.
  intros O Hx. split; [|constructor; auto].
  destruct O. constructor; auto. cbn. intros y Hy. apply in_app_or in Hy as [Hy|[<-|[]]]; auto.
Qed.

Lemma step_other_frame g j m g' : others g -> ~ mi j -> (forall a l, m = DoSend a l -> ~ mi l) ->
  (forall c, m = DoLookup c -> PI g c) -> Concurrent.step So tof g j m = Some g' -> others g' /\ frame g g'.
Proof.
  intros O Hj HS HL. unfold Concurrent.step. destruct (Nat.ltb_spec j (g_n g)) as [Hn|]; [|discriminate].
  assert (forall k x, nth_error (g_vars g) k = Some x -> af_only (PI g) x) as HV.
  { intros k x Hk. apply nth_error_In in Hk. apply (o_vars g O x Hk). }
  assert (forall a, has a (t_refs (g_thr g j)) = true -> QA g a) as HR.
  { intros a Ha. apply has_in in Ha. apply (o_refs g O j a Hj Ha). }
  destruct m as [| |c|a|a x|a x|a|oc x y|v dv|x dv|a l|].
  - apply micro_other; auto.
  - apply begin_other; auto. apply only_new.
  - apply begin_other; auto. apply only_lookup; auto.
  - destruct (has a _) eqn:Ea; [|discriminate]. apply begin_other; auto. apply only_drop; cbn; auto.
  - destruct (nth_error (g_vars g) x) as [x'|] eqn:Ex; [|discriminate].
    destruct (has a _) eqn:Ea; [|discriminate]. apply begin_other; auto. apply only_indep; auto.
  - destruct (nth_error (g_vars g) x) as [x'|] eqn:Ex; [|discriminate].
    destruct (has a _) eqn:Ea; [|discriminate]. apply begin_other; auto. apply only_dep; auto.
  - destruct (has a _) eqn:Ea; [|discriminate]. apply begin_other; auto. apply only_tape; auto.
  - destruct (right_arity oc y); [|discriminate].
    destruct (nth_error (g_vars g) x) as [x'|] eqn:Ex; [|discriminate].
    destruct y as [y|].
    + destruct (nth_error (g_vars g) y) as [y'|] eqn:Ey; [|discriminate].
      apply begin_other; auto. apply only_from_op; eauto. intros z [= <-]; eauto.
    + apply begin_other; auto. apply only_from_op; eauto. discriminate.
  - destruct (t_code (g_thr g j)); [discriminate|]. intros [= <-]. apply add_var_other; auto. exact Logic.I.
  - destruct (t_code (g_thr g j)); [discriminate|].
    destruct (nth_error (g_vars g) x) as [x'|] eqn:Ex; [|discriminate].
    intros [= <-]. apply add_var_other; auto. apply (HV x x' Ex).
  - destruct (t_code (g_thr g j)) eqn:Ej; [discriminate|]. destruct (t_code (g_thr g l)) eqn:El; [discriminate|].
    destruct (has a _) eqn:Ea; [|discriminate]. cbn [andb].
    destruct (l <? g_n g); [|discriminate]. intros [= <-].
    specialize (HS a l eq_refl).
    set (g1 := set_thr g j (mkThread (remove1 a (t_refs (g_thr g j))) None)).
    assert (others g1 /\ frame g g1) as [O1 F1].
    { split; [|apply (frame_same g _ j); cbn; auto; go_thr].
      apply (others_by g _ j); cbn; auto; try lia.
      - go_thr.
      - intros _ c. rewrite upd_eq. discriminate.
      - intros _ b. rewrite upd_eq. cbn. intros Hb. apply in_remove1 in Hb. apply (o_refs g O j b Hj Hb).
      - intros b r Hr. left; eauto. }
    split.
    + apply (others_by g1 _ l); cbn; auto; try lia.
      * intros k Hk. rewrite upd_ne; auto.
      * intros _ c. rewrite upd_eq. discriminate.
      * intros _ b. rewrite upd_eq. cbn. intros [<-|Hb]; [exact (HR a Ea)|]. apply (o_refs g1 O1 l b HS Hb).
      * intros b r Hr. left; eauto.
    + destruct F1 as [FA FB FC]. constructor; cbn; auto.
      intros k Hk. rewrite upd_ne by congruence. apply FC; auto.
  - destruct (t_code (g_thr g j)) eqn:Ej; [discriminate|]. intros [= <-].
    assert (~ mi (g_n g)) as Hnn by (intros H; apply (o_n g O) in H; lia).
    split.
    + apply (others_by g _ (g_n g)); cbn; auto; try lia.
      * go_thr.
      * intros _ c. rewrite upd_eq. discriminate.
      * intros _ a. rewrite upd_eq. cbn. contradiction.
      * intros b r Hr. left; eauto.
    + apply (frame_same g _ (g_n g)); cbn; auto. go_thr.
Qed.

End Others.
