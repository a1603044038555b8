(** Context ids on a machine whose [usize] is bounded: facts (C100). *)
From Coq Require Import List Arith Lia Bool.
From Verif Require Import Base AContext CtxIds.
Import ListNotations.

Section Facts.
Context (W : nat).
Notation happen := (happen W). Notation r_new := (r_new W).

(** *** Every history *)
Lemma next_after es : W <> 0 -> forall g, g_next (snd (happen es g)) = (if news es =? 0 then g_next g else (g_next g + news es) mod W).
Proof.
  intros HW. induction es as [|[|a] es IH]; intros g; cbn [happen CtxIds.happen news]; [reflexivity| |].
  - destruct (r_new g) as [r g1] eqn:E. specialize (IH g1). destruct (happen es g1) as [rs g2]. cbn [snd] in *. rewrite IH.
    assert (g_next g1 = (g_next g + 1) mod W) as ->.
    { unfold CtxIds.r_new in E. destruct (g_next g <? W - 1); inversion E; reflexivity. }
    replace (news es + 1 =? 0) with false by (symmetry; apply Nat.eqb_neq; lia).
    destruct (Nat.eqb_spec (news es) 0) as [->|_]; [f_equal; lia|].
    rewrite Nat.add_mod_idemp_l by exact HW. f_equal. lia.
  - rewrite IH. unfold r_drop. destruct (g_obj g a); reflexivity.
Qed.
Lemma ids_from es : 2 <= W -> forall g, g_next g < W -> forall k r, nth_error (fst (happen es g)) k = Some r ->
  let id := (g_next g + k) mod W in if id =? W - 1 then r = None else exists a, r = Some (a, id).
Proof.
  intros HW. induction es as [|[|a] es IH]; intros g Hg k r; cbn [happen CtxIds.happen].
  - destruct k; discriminate.
  - destruct (r_new g) as [r0 g1] eqn:E. specialize (IH g1). destruct (happen es g1) as [rs g2]. cbn [fst] in *.
    destruct k as [|k]; cbn [nth_error].
    + intros E1. injection E1 as <-. cbv zeta. rewrite Nat.add_0_r, Nat.mod_small by exact Hg.
      unfold CtxIds.r_new in E. destruct (Nat.ltb_spec (g_next g) (W - 1)), (Nat.eqb_spec (g_next g) (W - 1)); try lia; inversion E; eauto.
    + intros E1. assert (g_next g1 = (g_next g + 1) mod W) as EN.
      { unfold CtxIds.r_new in E. destruct (g_next g <? W - 1); inversion E; reflexivity. }
      specialize (IH ltac:(rewrite EN; apply Nat.mod_upper_bound; lia) k r E1). cbv zeta in *. rewrite EN in IH.
      rewrite Nat.add_mod_idemp_l in IH by lia. replace (g_next g + 1 + k) with (g_next g + S k) in IH by lia. exact IH.
  - assert (g_next (r_drop a g) = g_next g) as EN by (unfold r_drop; destruct (g_obj g a); reflexivity).
    intros E. specialize (IH (r_drop a g) ltac:(rewrite EN; exact Hg) k r E). rewrite EN in IH. exact IH.
Qed.
Lemma results_length es : forall g, length (fst (happen es g)) = news es.
Proof.
  induction es as [|[|a] es IH]; intros g; cbn [happen CtxIds.happen news]; auto.
  destruct (r_new g) as [r g1]. specialize (IH g1). destruct (happen es g1). cbn in *. lia.
Qed.

Record wfreg (g : registry) : Prop := {
  wf_map : forall id a, g_map g id = Some a -> g_obj g a = Some id;
  wf_free : forall a id, g_obj g a = Some id -> a < g_free g
}.
Lemma wf_new g r g' : wfreg g -> r_new g = (r, g') -> wfreg g'.
Proof.
  intros [H1 H2]. unfold CtxIds.r_new. destruct (g_next g <? W - 1); intros E; inversion E; subst; clear E; constructor; cbn; auto.
  - intros id a. unfold put. destruct (Nat.eqb_spec id (g_next g)) as [->|N].
    + intros E. injection E as <-. rewrite Nat.eqb_refl. reflexivity.
    + intros E. apply H1 in E. destruct (Nat.eqb_spec a (g_free g)) as [->|_]; auto. apply H2 in E. lia.
  - intros a id. unfold put. destruct (Nat.eqb_spec a (g_free g)) as [->|_]; [lia|]. intros E. apply H2 in E. lia.
Qed.
Lemma wf_drop g a : wfreg g -> wfreg (r_drop a g).
Proof.
  intros H. unfold r_drop. destruct (g_obj g a) as [id|] eqn:E; auto. destruct H as [H1 H2]. constructor; cbn; unfold put.
  - intros id' b. destruct (Nat.eqb_spec id' id) as [->|N]; [discriminate|]. intros E'. apply H1 in E'.
    destruct (Nat.eqb_spec b a) as [->|_]; congruence.
  - intros b id'. destruct (b =? a); [discriminate|apply H2].
Qed.
Lemma wf_happen es : forall g, wfreg g -> wfreg (snd (happen es g)).
Proof.
  induction es as [|[|a] es IH]; intros g H; cbn [happen CtxIds.happen]; auto.
  - destruct (r_new g) as [r g1] eqn:E. specialize (IH g1 (wf_new _ _ _ H E)). destruct (happen es g1). exact IH.
  - apply IH, wf_drop, H.
Qed.
Lemma wf0 : wfreg reg0. Proof. constructor; cbn; discriminate. Qed.

Theorem ids_exact es k r : 2 <= W -> nth_error (fst (happen es reg0)) k = Some r ->
  let id := (k + 1) mod W in if id =? W - 1 then r = None else exists a, r = Some (a, id).
Proof. intros HW E. pose proof (ids_from es HW reg0 HW k r E) as H. cbn [reg0 g_next] in H. rewrite (Nat.add_comm 1) in H. exact H. Qed.
Theorem lookup_sound es id a : r_lookup id (snd (happen es reg0)) = Some a -> g_obj (snd (happen es reg0)) a = Some id.
Proof.
  pose proof (wf_happen es reg0 wf0) as [H _]. unfold r_lookup. destruct (g_map _ id) as [b|] eqn:E; [|discriminate].
  apply H in E. rewrite E. congruence.
Qed.

(** *** Before the counter reaches the last word *)
Record early (n : nat) (g : registry) : Prop := {
  e_next : g_next g = n + 1;
  e_free : g_free g = n;
  e_obj : forall a id, g_obj g a = Some id -> id = a + 1 /\ a < n;
  e_map : forall id, g_map g id = match id with 0 => None | S a => match g_obj g a with Some _ => Some a | None => None end end
}.
Lemma early0 : early 0 reg0.
Proof. constructor; cbn; auto; try discriminate. intros []; reflexivity. Qed.
Lemma new_early n g : early n g -> n < W - 2 -> exists g', r_new g = (Some (n, n + 1), g') /\ early (n + 1) g'.
Proof.
  intros [E1 E2 E3 E4] L. unfold CtxIds.r_new. rewrite E1, E2. destruct (Nat.ltb_spec (n + 1) (W - 1)); [|lia].
  eexists. split; [reflexivity|]. constructor; cbn; auto.
  - apply Nat.mod_small. lia.
  - intros a id. unfold put. destruct (Nat.eqb_spec a n) as [->|N]; [intros E; injection E as <-; lia|]. intros E. apply E3 in E. lia.
  - intros id. unfold put. rewrite E4. destruct id as [|a]; [destruct (Nat.eqb_spec 0 (n + 1)); auto; lia|].
    destruct (Nat.eqb_spec (S a) (n + 1)), (Nat.eqb_spec a n); try lia; [|reflexivity]. f_equal. lia.
Qed.
Lemma drop_early n g a : early n g -> early n (r_drop a g).
Proof.
  intros H. unfold r_drop. destruct (g_obj g a) as [id|] eqn:E; auto. destruct H as [E1 E2 E3 E4].
  destruct (E3 _ _ E) as [-> L]. constructor; cbn; auto; unfold put.
  - intros b id. destruct (b =? a); [discriminate|]. apply E3.
  - intros id. rewrite E4. destruct id as [|b]; [destruct (Nat.eqb_spec 0 (a + 1)); auto|].
    destruct (Nat.eqb_spec (S b) (a + 1)), (Nat.eqb_spec b a); try lia; reflexivity.
Qed.
Lemma happen_early es : forall n g, early n g -> n + news es <= W - 2 ->
  fst (happen es g) = map (fun k => Some (k, k + 1)) (seq n (news es)) /\ early (n + news es) (snd (happen es g)).
Proof.
  induction es as [|[|a] es IH]; intros n g H L; cbn [happen CtxIds.happen news] in *.
  - rewrite Nat.add_0_r. auto.
  - destruct (new_early n g H ltac:(lia)) as (g1 & -> & H1). specialize (IH _ _ H1 ltac:(lia)).
    destruct (happen es g1) as [rs g2]. cbn [fst snd] in *. destruct IH as [-> IH].
    replace (n + (news es + 1)) with (n + 1 + news es) by lia. split; auto.
    rewrite (Nat.add_comm (news es) 1). cbn. rewrite (Nat.add_comm n 1). reflexivity.
  - apply IH; auto using drop_early.
Qed.
Lemma early_found n g : early n g -> all_found g /\ ids_unique g.
Proof.
  intros [E1 E2 E3 E4]. split.
  - intros a id E. unfold r_lookup. rewrite E4. destruct (E3 _ _ E) as [-> _]. rewrite Nat.add_1_r. rewrite E, E. reflexivity.
  - intros a b id Ea Eb. apply E3 in Ea, Eb. lia.
Qed.
Theorem before_overflow es : news es <= W - 2 ->
  fst (happen es reg0) = map (fun k => Some (k, k + 1)) (seq 0 (news es)) /\
  all_found (snd (happen es reg0)) /\ ids_unique (snd (happen es reg0)).
Proof. intros L. destruct (happen_early es 0 reg0 early0 L) as [E H]. split; auto. eapply early_found; eauto. Qed.

(** *** The unbounded model is right until then *)
Lemma happen0_early {F : Type} es : forall n g (w : world F), early n g -> n + news es <= W - 2 ->
  w_next w = n + 1 -> (forall c, w_ctx w c = None <-> r_lookup c g = None) ->
  exists w', happen0 es w = Ok (map (fun k => k + 1) (seq n (news es)), w') /\
    w_next w' = g_next (snd (happen es g)) /\ forall c, w_ctx w' c = None <-> r_lookup c (snd (happen es g)) = None.
Proof.
  induction es as [|[|a] es IH]; intros n g w H L EN EL; cbn [happen CtxIds.happen happen0 news] in *.
  - exists w. split; auto. split; auto. rewrite EN. symmetry. apply H.
  - destruct (new_early n g H ltac:(lia)) as (g1 & EQ & H1). rewrite EQ. cbn [ctx_new].
    set (w1 := mkWorld _ _).
    assert (forall c, w_ctx w1 c = None <-> r_lookup c g1 = None) as EL1.
    { intros c. unfold w1. cbn [w_ctx]. rewrite EN. specialize (EL c). unfold r_lookup in *. rewrite (e_map _ _ H1).
      rewrite (e_map _ _ H) in EL. unfold CtxIds.r_new in EQ. rewrite (e_next _ _ H), (e_free _ _ H) in EQ.
      destruct (n + 1 <? W - 1); inversion EQ; subst g1; clear EQ. cbn [g_obj]. unfold put.
      destruct c as [|c]; [destruct (Nat.eqb_spec 0 (n + 1)); [lia|]; exact EL|].
      destruct (Nat.eqb_spec (S c) (n + 1)), (Nat.eqb_spec c n); try lia.
      - rewrite (proj2 (Nat.eqb_eq c n)) by lia. split; discriminate.
      - destruct (g_obj g c) eqn:E; [|exact EL]. rewrite (proj2 (Nat.eqb_neq c n)) by lia. rewrite E in EL |- *. exact EL. }
    destruct (IH (n + 1) g1 w1 H1 ltac:(lia)) as (w' & E' & IH1 & IH2); [unfold w1; cbn; lia|exact EL1|].
    rewrite E'. destruct (happen es g1) as [rs g2]. exists w'. split; [|split; auto].
    rewrite EN, (Nat.add_comm (news es) 1). cbn. rewrite (Nat.add_comm n 1). reflexivity.
  - set (w1 := if a + 1 <? w_next w then ctx_drop (a + 1) w else Ok (tt, w)).
    assert (exists w2, w1 = Ok (tt, w2) /\ w_next w2 = n + 1 /\ forall c, w_ctx w2 c = None <-> r_lookup c (r_drop a g) = None)
      as (w2 & -> & EN2 & EL2).
    { unfold w1. rewrite EN. pose proof (drop_early n g a H) as HD.
      assert (forall c, r_lookup c (r_drop a g) = None <-> c = a + 1 \/ r_lookup c g = None) as LD.
      { intros c. unfold r_lookup. rewrite (e_map _ _ HD), (e_map _ _ H). destruct c as [|c]; [split; auto|].
        unfold r_drop. destruct (g_obj g a) as [id|] eqn:E; cbn [g_obj].
        - unfold put. destruct (Nat.eqb_spec c a) as [->|N]; [split; auto; intros _; left; lia|].
          destruct (g_obj g c) eqn:Ec; [|split; auto]. rewrite (proj2 (Nat.eqb_neq c a)) by lia. rewrite Ec. split; [discriminate|]. intros [?|?]; [lia|discriminate].
        - destruct (g_obj g c) eqn:Ec; [|split; auto]. rewrite Ec. split; [discriminate|]. intros [K|K]; [|discriminate].
          replace c with a in Ec by lia. congruence. }
      destruct (Nat.ltb_spec (a + 1) (n + 1)) as [L1|L1].
      - eexists. split; [reflexivity|]. split; [exact EN|]. intros c. rewrite LD. cbn [upd_ctx w_ctx].
        destruct (Nat.eqb_spec c (a + 1)) as [->|N]; [split; auto|]. rewrite EL. split; auto. intros [?|?]; auto. contradiction.
      - exists w. split; auto. split; auto. intros c. rewrite LD, EL. split; auto. intros [->|?]; auto.
        unfold r_lookup. rewrite (e_map _ _ H). rewrite Nat.add_1_r. destruct (g_obj g a) eqn:E; auto. apply (e_obj _ _ H) in E. lia. }
    apply (IH n); auto using drop_early.
Qed.
Theorem unbounded_right {F : Type} es : news es <= W - 2 ->
  exists w : world F, happen0 es world0 = Ok (map (fun k => k + 1) (seq 0 (news es)), w) /\
    w_next w = g_next (snd (happen es reg0)) /\
    forall c, w_ctx w c = None <-> r_lookup c (snd (happen es reg0)) = None.
Proof.
  intros L. apply (happen0_early es 0 reg0 world0 early0 L); [reflexivity|]. intros c. split; reflexivity.
Qed.

(** *** Afterwards *)
Lemma happen_app es1 : forall es2 g, happen (es1 ++ es2) g =
  let '(r1, g1) := happen es1 g in let '(r2, g2) := happen es2 g1 in (r1 ++ r2, g2).
Proof.
  induction es1 as [|[|a] es1 IH]; intros es2 g; cbn [app happen CtxIds.happen].
  - destruct (happen es2 g). reflexivity.
  - destruct (r_new g) as [r g1]. rewrite IH. destruct (happen es1 g1) as [r1 g2]. destruct (happen es2 g2). reflexivity.
  - apply IH.
Qed.
(** only the context at 0 has an owner *)
Record alone (n : nat) (g : registry) : Prop := {
  al_next : g_next g = n + 1;
  al_free : g_free g = n;
  al_obj : forall a, g_obj g a = if a =? 0 then Some 1 else None;
  al_map : forall id, g_map g id = if id =? 1 then Some 0 else None
}.
Lemma alone_step n g : alone n g -> 1 <= n < W - 2 -> exists r g', happen [New; Drop n] g = (r, g') /\ alone (n + 1) g'.
Proof.
  intros [E1 E2 E3 E4] L. cbn [happen CtxIds.happen]. unfold CtxIds.r_new. rewrite E1, E2.
  destruct (Nat.ltb_spec (n + 1) (W - 1)); [|lia]. do 2 eexists. split; [reflexivity|].
  unfold r_drop. cbn [g_obj]. unfold put at 1. rewrite Nat.eqb_refl. constructor; cbn [g_next g_free g_obj g_map]; auto.
  - apply Nat.mod_small. lia.
  - intros a. unfold put. rewrite E3. destruct (Nat.eqb_spec a n), (Nat.eqb_spec a 0); auto; lia.
  - intros id. unfold put. rewrite E4. destruct (Nat.eqb_spec id (n + 1)), (Nat.eqb_spec id 1); auto; lia.
Qed.
Lemma alone_many k : forall n g, alone n g -> 1 <= n -> n + k <= W - 2 ->
  exists r g', happen (concat (map (fun i => [New; Drop i]) (seq n k))) g = (r, g') /\ alone (n + k) g'.
Proof.
  induction k as [|k IH]; intros n g H L1 L2.
  - exists [], g. rewrite Nat.add_0_r. auto.
  - cbn [seq map concat]. destruct (alone_step n g H ltac:(lia)) as (r1 & g1 & E1 & H1).
    replace (S n) with (n + 1) by lia.
    destruct (IH (n + 1) g1 H1 ltac:(lia) ltac:(lia)) as (r2 & g2 & E2 & H2).
    rewrite happen_app, E1, E2. do 2 eexists. split; [reflexivity|]. replace (n + S k) with (n + 1 + k) by lia. exact H2.
Qed.
Theorem after_overflow : 3 <= W ->
  let g := snd (happen (long_run W) reg0) in
  g_obj g 0 = Some 1 /\ g_obj g (W - 1) = Some 1 /\ W - 1 <> 0 /\
  r_lookup 1 g = Some (W - 1) /\ r_lookup 1 (snd (happen (long_run W ++ [Drop (W - 1)]) reg0)) = None /\
  g_obj (snd (happen (long_run W ++ [Drop (W - 1)]) reg0)) 0 = Some 1.
Proof.
  intros HW. unfold long_run.
  assert (exists r g1, happen [New] reg0 = (r, g1) /\ alone 1 g1) as (r1 & g1 & E1 & H1).
  { cbn [happen CtxIds.happen]. unfold CtxIds.r_new. cbn [reg0 g_next g_free].
    destruct (Nat.ltb_spec 1 (W - 1)); [|lia]. do 2 eexists. split; [reflexivity|].
    constructor; cbn [g_next g_free g_obj g_map]; auto.
    apply Nat.mod_small. lia. }
  destruct (alone_many (W - 3) 1 g1 H1 ltac:(lia) ltac:(lia)) as (r2 & g2 & E2 & [A1 A2 A3 A4]).
  replace (1 + (W - 3)) with (W - 2) in A1, A2 by lia.
  assert (exists r g3, happen [New; New; New] g2 = (r, g3) /\ g_obj g3 0 = Some 1 /\ g_obj g3 (W - 1) = Some 1 /\ g_map g3 1 = Some (W - 1))
    as (r3 & g3 & E3 & G1 & G2 & G3).
  { cbn [happen CtxIds.happen]. unfold CtxIds.r_new at 1. rewrite A1. destruct (Nat.ltb_spec (W - 2 + 1) (W - 1)); [lia|].
    replace (W - 2 + 1 + 1) with W by lia. rewrite Nat.mod_same by lia.
    unfold CtxIds.r_new at 1. cbn [g_next g_free g_obj g_map]. destruct (Nat.ltb_spec 0 (W - 1)); [|lia].
    cbn [Nat.add]. rewrite Nat.mod_small by lia.
    unfold CtxIds.r_new at 1. cbn [g_next g_free g_obj g_map]. destruct (Nat.ltb_spec 1 (W - 1)); [|lia].
    rewrite A2. do 2 eexists. split; [reflexivity|]. cbn [g_obj g_map]. unfold put.
    replace (W - 2 + 1) with (W - 1) by lia. rewrite !Nat.eqb_refl.
    replace (0 =? W - 1) with false by (symmetry; apply Nat.eqb_neq; lia).
    replace (0 =? W - 2) with (W - 2 =? 0) by apply Nat.eqb_sym. rewrite A3. cbn [Nat.eqb].
    split; auto. destruct (Nat.eqb_spec (W - 2) 0); [lia|reflexivity]. }
  assert (happen (New :: concat (map (fun i => [New; Drop i]) (seq 1 (W - 3))) ++ [New; New; New]) reg0 = (r1 ++ r2 ++ r3, g3)) as E.
  { change (New :: ?l) with ([New] ++ l). rewrite happen_app, E1, happen_app, E2, E3. reflexivity. }
  rewrite happen_app, E. cbn [snd happen CtxIds.happen]. unfold r_drop, r_lookup. rewrite G2, G3, G2. cbn [g_map g_obj]. unfold put.
  replace (0 =? W - 1) with false by (symmetry; apply Nat.eqb_neq; lia). cbn [Nat.eqb]. repeat split; auto. lia.
Qed.
End Facts.
