(** Concurrency: consequences of the invariant. *)
From Coq Require Import List Arith ZArith Bool Lia Sorted.
From Verif Require Import Base Float Operation Tape AContext AContextFacts Spec Ffi
  Concurrent ConcSpec ConcFacts ConcInv.
Import ListNotations.

Section Main.
Context {S F : Type} (So : Fops S) (tof : S -> option F).
Notation code := (code S F). Notation sys := (sys S F). Notation thread := (thread S F).
Notation ok := (ok So tof).
Implicit Types (g : sys).

Definition inv g : Prop := exists rho eta, cinv So tof g rho eta.

Lemma inv_step g i m g' : step So tof g i m = Some g' -> inv g -> inv g'.
Proof. intros H (rho & eta & I). eapply step_keeps; eauto. Qed.

Lemma inv_play s g g' : play So tof g s = Some g' -> inv g -> inv g'.
Proof. intros H (rho & eta & I). eapply play_inv; eauto. Qed.

Lemma play_app s1 s2 g g1 : play So tof g s1 = Some g1 -> play So tof g (s1 ++ s2) = play So tof g1 s2.
Proof.
  revert g. induction s1 as [|[i m] s1 IH]; cbn; intros g H; [congruence|].
  destruct (step So tof g i m); [auto|discriminate].
Qed.

(** ** What the code of a thread says about its locks and its role *)
Definition held_of (c : code) : held :=
  match c with
  | MInsert _ _ _ | MGet _ _ | MRemove _ _ | MUnlock _ => HMap
  | Upgrade a _ => HGot a
  | Access a _ _ | Unlock a _ _ => HCtx a
  | _ => HNone
  end.
Definition held_in g (i : nat) : held :=
  match t_code (g_thr g i) with None => HNone | Some c => held_of c end.

Lemma ok_held A r h refs c : ok A r h refs c -> h = held_of c.
Proof. destruct c; cbn; tauto. Qed.

Lemma eta_code g rho eta i : cinv So tof g rho eta -> eta i = held_in g i.
Proof.
  intros I. pose proof (iv_thr _ _ _ _ _ I i) as T. unfold thr_ok in T. unfold held_in.
  destruct (t_code (g_thr g i)); [|tauto]. destruct T as [T _]. eapply ok_held; eauto.
Qed.

Lemma alock_ctx g rho eta a r i : a_lock r = Some i -> g_arc g a = Some r -> cinv So tof g rho eta ->
  eta i = HCtx a.
Proof. intros H1 H2 I. apply (iv_alock _ _ _ _ _ I a r i); auto. Qed.

Lemma ctx_alock g rho eta a r i : cinv So tof g rho eta -> g_arc g a = Some r -> eta i = HCtx a ->
  a_lock r = Some i.
Proof. intros I H1 H2. apply (iv_alock _ _ _ _ _ I a r i); auto. Qed.

Lemma holds_held g i : inv g -> holds g i <-> held_in g i <> HNone.
Proof.
  intros (rho & eta & I). rewrite <- (eta_code _ _ _ _ I). split.
  - intros [H|(a & r & H1 & H2)].
    + apply (iv_mlock _ _ _ _ _ I) in H as [H|[a H]]; congruence.
    + eapply alock_ctx in H2; eauto. congruence.
  - intros H. destruct (eta i) as [| |a|a] eqn:E; [congruence| | |].
    + left. apply (iv_mlock _ _ _ _ _ I). left; auto.
    + left. apply (iv_mlock _ _ _ _ _ I). right; eauto.
    + right. destruct (iv_refs _ _ _ _ _ I i a) as [r Hr]; [eapply iv_ctx; eauto|]. exists a, r. split; auto.
      eapply ctx_alock; eauto.
Qed.

Lemma busy_lt g i c : inv g -> t_code (g_thr g i) = Some c -> i < g_n g.
Proof.
  intros (rho & eta & I) H. destruct (Nat.lt_ge_cases i (g_n g)); auto.
  rewrite (iv_out _ _ _ _ _ I) in H by auto. discriminate.
Qed.

Lemma step_go g i c : inv g -> t_code (g_thr g i) = Some c -> step So tof g i Go = micro g i.
Proof. intros I H. unfold step. apply busy_lt in H; auto. apply Nat.ltb_lt in H. rewrite H. auto. Qed.

(** ** Progress *)
Lemma can_step g i c : inv g -> t_code (g_thr g i) = Some c ->
  (exists g', micro g i = Some g') \/ exists j, waits_for g i j.
Proof.
  intros (rho & eta & I) Hc. destruct (get_thr _ _ _ _ _ _ _ I Hc) as [O _].
  unfold micro. rewrite Hc.
  assert (forall a, In a (t_refs (g_thr g i)) -> exists r, g_arc g a = Some r) as Hr by (intros a; eapply iv_refs; eauto).
  assert (forall a, eta i = HCtx a -> exists r, g_arc g a = Some r) as Hx.
  { intros a E. apply Hr. eapply iv_ctx; eauto. }
  destruct c as [ro|k|c k|k|c a k|c k|a k|k|a k|a k|a k|a f k|a p k]; cbn in O; try (left; eauto; fail).
  - destruct (g_mlock g) as [j|] eqn:Em; [|left; eauto]. right. exists j. left. eauto.
  - destruct O as (R & _). destruct (iv_dead _ _ _ _ _ I _ _ R) as ((r & Hd) & _). rewrite Hd. left; eauto.
  - destruct (owned g a); left; eauto.
  - destruct O as (_ & _ & Hin & _). destruct (Hr _ Hin) as [r Ea]. rewrite Ea.
    destruct (a_lock r) as [j|] eqn:El; [|left; eauto]. right. exists j. right. exists a, k, r. auto.
  - destruct O as (_ & H & _). destruct (Hx _ H) as [r Ea]. rewrite Ea. left; eauto.
  - destruct O as (_ & H & _). destruct (Hx _ H) as [r Ea]. rewrite Ea. left; eauto.
Qed.

Lemma waits_not_held g i j : inv g -> waits_for g i j -> held_in g i = HNone /\ holds g j /\ j <> i.
Proof.
  intros I W. assert (held_in g i = HNone) as H.
  { destruct W as [(k & H & _)|(a & k & r & H & _)]; unfold held_in; rewrite H; auto. }
  assert (holds g j) as Hj.
  { destruct W as [(k & _ & W)|(a & k & r & _ & W1 & W2)]; [left; auto|right; eauto]. }
  repeat split; auto. intros ->. apply holds_held in Hj; auto.
Qed.

(** A thread that holds a lock is not waiting for another. *)
Lemma holder_steps g j : inv g -> holds g j -> exists g', step So tof g j Go = Some g'.
Proof.
  intros I H. apply holds_held in H; auto. unfold held_in in H.
  destruct (t_code (g_thr g j)) as [c|] eqn:Hc; [|congruence].
  destruct (can_step _ _ _ I Hc) as [[g' E]|[l W]].
  - exists g'. erewrite step_go; eauto.
  - apply waits_not_held in W as [W _]; auto. unfold held_in in W. rewrite Hc in W. congruence.
Qed.

Theorem no_deadlock g i : inv g -> ~ idle g i ->
  (exists g', step So tof g i Go = Some g') \/
  (exists j g', j <> i /\ waits_for g i j /\ step So tof g j Go = Some g').
Proof.
  intros I H. unfold idle in H. destruct (t_code (g_thr g i)) as [c|] eqn:Hc; [|congruence].
  destruct (can_step _ _ _ I Hc) as [[g' E]|[j W]].
  - left. exists g'. erewrite step_go; eauto.
  - right. destruct (waits_not_held _ _ _ I W) as (_ & Hj & N).
    destruct (holder_steps _ _ I Hj) as [g' E]. eauto.
Qed.

(** ** Releasing *)
Definition same_locks g g' : Prop :=
  g_mlock g' = g_mlock g /\
  forall a r, g_arc g a = Some r -> exists r', g_arc g' a = Some r' /\ a_lock r' = a_lock r.
Definition others g g' (j : nat) : Prop := forall l, l <> j -> g_thr g' l = g_thr g l.

(** What a release leaves behind: thread [j] holds no lock, and the locks it did not hold are
    as before. *)
Definition released g g' (j : nat) : Prop :=
  g_mlock g' = (match g_mlock g with Some l => if l =? j then None else Some l | None => None end) /\
  forall a r, g_arc g a = Some r -> exists r', g_arc g' a = Some r' /\
    a_lock r' = (match a_lock r with Some l => if l =? j then None else Some l | None => None end).

Lemma released_same g g1 g' j : same_locks g g1 -> released g1 g' j -> released g g' j.
Proof.
  intros [M A] [M' A']. split; [rewrite M'; rewrite M; auto|]. intros a r H.
  destruct (A _ _ H) as (r1 & H1 & E1). destruct (A' _ _ H1) as (r2 & H2 & E2). exists r2. split; auto.
  rewrite E2, E1. auto.
Qed.

Lemma step_locks g j c g' : t_code (g_thr g j) = Some c -> micro g j = Some g' ->
  match c with
  | MInsert _ _ _ | MGet _ _ | MRemove _ _ | Upgrade _ _ | Access _ _ _ => same_locks g g' /\ others g g' j
  | _ => True
  end.
Proof.
  intros Hc. unfold micro. rewrite Hc. unfold same_locks, others.
  assert (forall (f : nat -> thread) t l, l <> j -> upd f j t l = f l) as Hu by (intros; apply upd_ne; auto).
  destruct c as [ro|k|c k|k|c a k|c k|a k|k|a k|a k|a k|a f k|a p k]; auto; intros E.
  - injection E as <-. cbn. repeat split; eauto.
  - injection E as <-. cbn. repeat split; eauto.
  - destruct (g_arc g a); [|discriminate]. injection E as <-. cbn. repeat split; eauto.
  - destruct (owned g a); injection E as <-; cbn; repeat split; eauto.
  - destruct (g_arc g a) as [r|] eqn:Ea; [|discriminate]. injection E as <-. cbn. repeat split; eauto.
    intros b s Hb. destruct (Nat.eq_dec b a) as [->|N].
    + rewrite upd_eq. eexists. split; eauto. cbn. congruence.
    + rewrite upd_ne by auto. eauto.
Qed.

Lemma release n : forall g j c, inv g -> t_code (g_thr g j) = Some c -> unlocks n c -> holds g j ->
  exists m g', m <= Datatypes.S n /\ play So tof g (repeat (j, Go) m) = Some g' /\
    released g g' j /\ others g g' j /\ ~ holds g' j.
Proof.
  induction n as [|n IH]; intros g j c I Hc U Hh;
    destruct (holder_steps _ _ I Hh) as [g1 E]; pose proof E as E'; rewrite (step_go _ _ _ I Hc) in E';
    pose proof (inv_step _ _ _ _ E I) as I1; pose proof (step_locks _ _ _ _ Hc E') as L.
  all: assert (forall k, (held_in g j = HMap /\ c = MUnlock k) \/ (exists a p, c = Unlock a p k) ->
    exists m g', m <= 1 /\ play So tof g (repeat (j, Go) m) = Some g' /\
      released g g' j /\ others g g' j /\ ~ holds g' j) as Fin.
  1,3: intros k Hk; exists 1, g1; split; auto; cbn [repeat play]; rewrite E; split; auto;
    assert (t_code (g_thr g1 j) = Some k /\ released g g1 j /\ others g g1 j) as (K1 & K2 & K3);
    [|split; [auto|split; [auto|]];
      rewrite (holds_held _ _ I1); unfold held_in; rewrite K1;
      destruct I as (rho & eta & I); destruct (get_thr _ _ _ _ _ _ _ I Hc) as [O _];
      destruct Hk as [[_ ->]|(a & p & ->)]; cbn in O; destruct O as (_ & _ & O);
      apply ok_held in O; rewrite <- O; auto].
  1,2: destruct I as (rho & eta & I); unfold micro in E'; rewrite Hc in E';
    destruct Hk as [[Hm ->]|(a & p & ->)].
  1,3: injection E' as <-; cbn; rewrite upd_eq; split; [auto|]; split; [|intros l N; apply upd_ne; auto];
    assert (g_mlock g = Some j) as M by (apply (iv_mlock _ _ _ _ _ I); left; rewrite (eta_code _ _ _ _ I); auto);
    split; cbn; [rewrite M, Nat.eqb_refl; auto|]; intros a r Hr; exists r; split; auto;
    destruct (a_lock r) as [l|] eqn:El; auto; destruct (Nat.eqb_spec l j) as [->|]; auto;
    eapply alock_ctx in El; eauto; rewrite (eta_code _ _ _ _ I) in El; congruence.
  1,2: destruct (g_arc g a) as [r|] eqn:Ea; [|discriminate]; injection E' as <-; cbn; rewrite upd_eq;
    split; [auto|]; split; [|intros l N; apply upd_ne; auto];
    assert (eta j = HCtx a) as Ej by (rewrite (eta_code _ _ _ _ I); unfold held_in; rewrite Hc; auto);
    split; cbn;
    [destruct (g_mlock g) as [l|] eqn:El; auto; destruct (Nat.eqb_spec l j) as [->|]; auto;
     apply (iv_mlock _ _ _ _ _ I) in El as [El|[b El]]; congruence|];
    intros b s Hb; destruct (Nat.eq_dec b a) as [->|N];
    [rewrite upd_eq; eexists; split; [reflexivity|]; cbn; replace s with r by congruence;
     replace (a_lock r) with (Some j) by (symmetry; eapply ctx_alock; eauto); rewrite Nat.eqb_refl; auto
    |rewrite upd_ne by auto; exists s; split; auto;
     destruct (a_lock s) as [l|] eqn:El; auto; destruct (Nat.eqb_spec l j) as [->|]; auto;
     eapply alock_ctx in El; eauto; congruence].
  - (* n = 0 *)
    destruct c as [ro|k|c k|k|c a k|c k|a k|k|a k|a k|a k|a f k|a p k]; cbn in U; try contradiction.
    + apply Fin with k. left. unfold held_in. rewrite Hc. auto.
    + apply Fin with k. right. eauto.
  - assert (forall k, t_code (g_thr g1 j) = Some k -> unlocks n k -> held_of k <> HNone ->
      same_locks g g1 /\ others g g1 j ->
      exists m g', m <= Datatypes.S (Datatypes.S n) /\ play So tof g (repeat (j, Go) m) = Some g' /\
        released g g' j /\ others g g' j /\ ~ holds g' j) as Rec.
    { intros k Hk Uk Hhk [SL OT]. destruct (IH g1 j k I1 Hk Uk) as (m & g' & M1 & M2 & M3 & M4 & M5).
      - apply holds_held; auto. unfold held_in. rewrite Hk. auto.
      - exists (Datatypes.S m), g'. split; [lia|]. cbn [repeat play]. rewrite E. split; auto.
        split; [eapply released_same; eauto|]. split; auto. intros l N. rewrite M4 by auto. apply OT; auto. }
    assert (forall k, unlocks n k -> held_of k <> HNone) as Hun.
    { intros k. destruct n, k; cbn; try contradiction; discriminate. }
    assert (forall m g', m <= 1 -> m <= Datatypes.S (Datatypes.S n)) as Le by (intros; lia).
    unfold micro in E'; rewrite Hc in E'.
    destruct c as [ro|k|c k|k|c a k|c k|a k|k|a k|a k|a k|a f k|a p k]; cbn [unlocks] in U; try contradiction.
    + apply (Rec k); auto. injection E' as <-. cbn. rewrite upd_eq. auto.
    + apply (Rec (k (g_map g c))); auto. injection E' as <-. cbn. rewrite upd_eq. auto.
    + apply (Rec k); auto. destruct (g_arc g a); [|discriminate]. injection E' as <-. cbn. rewrite upd_eq. auto.
    + destruct (Fin k) as (m & g' & M1 & M2); [left; unfold held_in; rewrite Hc; auto|]. exists m, g'. split; [lia|auto].
    + destruct (owned g a); injection E' as <-; [apply (Rec (k true))|apply (Rec (k false))]; auto; cbn; rewrite upd_eq; auto.
    + destruct (g_arc g a) as [r|]; [|discriminate]. apply (Rec (k (a_cid r) (a_inner r))); auto.
      injection E' as <-. cbn. rewrite upd_eq. auto.
    + destruct (Fin k) as (m & g' & M1 & M2); [right; eauto|]. exists m, g'. split; [lia|auto].
Qed.


Theorem lock_released g j : inv g -> holds g j ->
  exists m g', m <= 3 /\ play So tof g (repeat (j, Go) m) = Some g' /\ ~ holds g' j.
Proof.
  intros I H. pose proof H as H'. apply holds_held in H'; auto. unfold held_in in H'.
  destruct (t_code (g_thr g j)) as [c|] eqn:Hc; [|congruence].
  assert (unlocks 2 c) as U.
  { destruct I as (rho & eta & I). destruct (get_thr _ _ _ _ _ _ _ I Hc) as [O U]. apply U.
    apply ok_held in O. congruence. }
  destruct (release 2 _ _ _ I Hc U H) as (m & g' & M1 & M2 & _ & _ & M3). eauto.
Qed.

(** ** Every call can finish *)
Definition keeps_idle g g' : Prop := forall l, idle g l -> idle g' l.

Lemma go_repeat (j m : nat) : only_go (repeat (j, @Go S) m).
Proof. apply Forall_forall. intros x H. apply repeat_spec in H as ->. auto. Qed.

Lemma wake g i c : inv g -> t_code (g_thr g i) = Some c ->
  exists s g1 g2, only_go s /\ play So tof g s = Some g1 /\ t_code (g_thr g1 i) = Some c /\
    micro g1 i = Some g2 /\ keeps_idle g g1.
Proof.
  intros I Hc. destruct (can_step _ _ _ I Hc) as [[g' E]|[j W]].
  - exists [], g, g'. repeat split; auto; try constructor. intros l Hl; auto.
  - destruct (waits_not_held _ _ _ I W) as (Hi & Hj & N).
    pose proof Hj as H'. apply holds_held in H'; auto. unfold held_in in H'.
    destruct (t_code (g_thr g j)) as [cj|] eqn:Hcj; [|congruence].
    assert (unlocks 2 cj) as U.
    { destruct I as (rho & eta & I). destruct (get_thr _ _ _ _ _ _ _ I Hcj) as [O U]. apply U.
      apply ok_held in O. congruence. }
    destruct (release 2 _ _ _ I Hcj U Hj) as (m & g1 & _ & M2 & [M3 M4] & M5 & M6).
    assert (t_code (g_thr g1 i) = Some c) as Hc1 by (rewrite M5; auto).
    pose proof (inv_play _ _ _ M2 I) as I1.
    assert (exists g2, micro g1 i = Some g2) as [g2 E2].
    { unfold micro. rewrite Hc1. destruct W as [(k & W1 & W2)|(a & k & r & W1 & W2 & W3)]; rewrite Hc in W1; injection W1 as ->.
      - rewrite M3, W2, Nat.eqb_refl. eauto.
      - destruct (M4 _ _ W2) as (r' & -> & ->). rewrite W3, Nat.eqb_refl. eauto. }
    exists (repeat (j, Go) m), g1, g2. split; [apply go_repeat|]. repeat split; auto.
    intros l Hl. unfold idle in *. rewrite M5; auto. intros ->. congruence.
Qed.

Lemma can_finish c : forall g i, inv g -> t_code (g_thr g i) = Some c ->
  exists s g', only_go s /\ play So tof g s = Some g' /\ idle g' i /\ keeps_idle g g'.
Proof.
  assert (forall g i g1 g2 c, inv g1 -> t_code (g_thr g1 i) = Some c -> micro g1 i = Some g2 -> keeps_idle g g1 ->
    (forall l, l <> i -> t_code (g_thr g2 l) = t_code (g_thr g1 l)) -> ~ idle g i -> keeps_idle g g2) as KI.
  { intros g i g1 g2 c0 I Hc E K O Ni l Hl. unfold idle in *. destruct (Nat.eq_dec l i) as [->|N]; [contradiction|].
    rewrite O by auto. apply K; auto. }
  induction c as [r|k IH|c k IH|k IH|c a k IH|c k IH|a k IH|k IH|a k IH|a k IH|a k IH|a f k IH|a p k IH];
    intros g i I Hc; destruct (wake _ _ _ I Hc) as (s & g1 & g2 & Gs & P & Hc1 & E & K);
    pose proof (inv_play _ _ _ P I) as I1; pose proof (step_go _ _ _ I1 Hc1) as Eg;
    pose proof E as E'; rewrite <- Eg in E'; pose proof (inv_step _ _ _ _ E' I1) as I2;
    assert (~ idle g i) as Ni by (unfold idle; congruence);
    pose proof (KI g i g1 g2 _ I1 Hc1 E K) as K2;
    assert (forall x s' g', t_code (g_thr g2 i) = x -> only_go s' -> play So tof g2 s' = Some g' -> idle g' i ->
      keeps_idle g2 g' -> keeps_idle g g2 ->
      exists s g', only_go s /\ play So tof g s = Some g' /\ idle g' i /\ keeps_idle g g') as Fin by
      (intros x s' g' _ G1 G2 G3 G4 G5; exists (s ++ (i, Go) :: s'), g'; split;
       [apply Forall_app; split; auto; constructor; auto|]; split;
       [rewrite (play_app _ _ _ _ P); cbn [play]; rewrite E'; auto|]; split; auto;
       intros l Hl; apply G4; apply G5; auto);
    unfold micro in E; rewrite Hc1 in E;
    assert (forall t l, l <> i -> upd (g_thr g1) i t l = g_thr g1 l) as Hu by (intros; apply upd_ne; auto).
  - injection E as <-. eapply Fin with (s' := []); [reflexivity|constructor|reflexivity| |intros l; auto|].
    + unfold idle. cbn. rewrite upd_eq. auto.
    + apply K2; auto. intros l N. cbn. rewrite Hu; auto.
  - injection E as <-. edestruct (IH (g_next g1)) as (s' & g' & G1 & G2 & G3 & G4); [exact I2|cbn; rewrite upd_eq; reflexivity|].
    eapply Fin; eauto. apply K2; auto. intros l N. cbn. rewrite Hu; auto.
  - injection E as <-. edestruct (IH (g_anext g1)) as (s' & g' & G1 & G2 & G3 & G4); [exact I2|cbn; rewrite upd_eq; reflexivity|].
    eapply Fin; eauto. apply K2; auto. intros l N. cbn. rewrite Hu; auto.
  - destruct (g_mlock g1); [discriminate|].
    injection E as <-. edestruct IH as (s' & g' & G1 & G2 & G3 & G4); [exact I2|cbn; rewrite upd_eq; reflexivity|].
    eapply Fin; eauto. apply K2; auto. intros l N. cbn. rewrite Hu; auto.
  - injection E as <-. edestruct IH as (s' & g' & G1 & G2 & G3 & G4); [exact I2|cbn; rewrite upd_eq; reflexivity|].
    eapply Fin; eauto. apply K2; auto. intros l N. cbn. rewrite Hu; auto.
  - injection E as <-. edestruct IH as (s' & g' & G1 & G2 & G3 & G4); [exact I2|cbn; rewrite upd_eq; reflexivity|].
    eapply Fin; eauto. apply K2; auto. intros l N. cbn. rewrite Hu; auto.
  - destruct (g_arc g1 a); [|discriminate].
    injection E as <-. edestruct IH as (s' & g' & G1 & G2 & G3 & G4); [exact I2|cbn; rewrite upd_eq; reflexivity|].
    eapply Fin; eauto. apply K2; auto. intros l N. cbn. rewrite Hu; auto.
  - injection E as <-. edestruct IH as (s' & g' & G1 & G2 & G3 & G4); [exact I2|cbn; rewrite upd_eq; reflexivity|].
    eapply Fin; eauto. apply K2; auto. intros l N. cbn. rewrite Hu; auto.
  - destruct (owned g1 a);
    (injection E as <-; edestruct IH as (s' & g' & G1 & G2 & G3 & G4); [exact I2|cbn; rewrite upd_eq; reflexivity|];
     eapply Fin; eauto; apply K2; auto; intros l N; cbn; rewrite Hu; auto).
  - injection E as <-. edestruct IH as (s' & g' & G1 & G2 & G3 & G4); [exact I2|cbn; rewrite upd_eq; reflexivity|].
    eapply Fin; eauto. apply K2; auto. intros l N. cbn. rewrite !upd_ne; auto.
  - destruct (g_arc g1 a) as [r|]; [|discriminate]. destruct (a_lock r); [discriminate|].
    injection E as <-. edestruct IH as (s' & g' & G1 & G2 & G3 & G4); [exact I2|cbn; rewrite upd_eq; reflexivity|].
    eapply Fin; eauto. apply K2; auto. intros l N. cbn. rewrite Hu; auto.
  - destruct (g_arc g1 a) as [r|]; [|discriminate].
    injection E as <-. edestruct IH as (s' & g' & G1 & G2 & G3 & G4); [exact I2|cbn; rewrite upd_eq; reflexivity|].
    eapply Fin; eauto. apply K2; auto. intros l N. cbn. rewrite Hu; auto.
  - destruct (g_arc g1 a) as [r|]; [|discriminate].
    injection E as <-. edestruct IH as (s' & g' & G1 & G2 & G3 & G4); [exact I2|cbn; rewrite upd_eq; reflexivity|].
    eapply Fin; eauto. apply K2; auto. intros l N. cbn. rewrite Hu; auto.
Qed.

Lemma finish_upto n : forall g, inv g ->
  exists s g', only_go s /\ play So tof g s = Some g' /\ (forall i, i < n -> idle g' i) /\ keeps_idle g g'.
Proof.
  induction n as [|n IH]; intros g I.
  - exists [], g. repeat split; try constructor; auto; [lia|intros l; auto].
  - destruct (IH g I) as (s & g1 & G & P & H & K). pose proof (inv_play _ _ _ P I) as I1.
    destruct (t_code (g_thr g1 n)) as [c|] eqn:Hc.
    + destruct (can_finish c g1 n I1 Hc) as (s' & g' & G' & P' & H' & K').
      exists (s ++ s'), g'. split; [apply Forall_app; auto|]. split; [rewrite (play_app _ _ _ _ P); auto|].
      split; [|intros l Hl; auto]. intros i Hi. destruct (Nat.eq_dec i n) as [->|]; auto. apply K'. apply H. lia.
    + exists s, g1. repeat split; auto. intros i Hi. destruct (Nat.eq_dec i n) as [->|]; auto. apply H. lia.
Qed.

Theorem everything_can_finish g : inv g ->
  exists s g', only_go s /\ play So tof g s = Some g' /\ forall i, idle g' i.
Proof.
  intros I. destruct (finish_upto (g_n g) g I) as (s & g' & G & P & H & K). exists s, g'. repeat split; auto.
  intros i. destruct (Nat.lt_ge_cases i (g_n g)); auto. apply K.
  destruct I as (rho & eta & I). unfold idle. rewrite (iv_out _ _ _ _ _ I) by auto. auto.
Qed.

(** ** The registry *)
Lemma ids_unique g a b r s : inv g -> g_arc g a = Some r -> g_arc g b = Some s -> a_cid r = a_cid s -> a = b.
Proof.
  intros (rho & eta & I) Ha Hb E. apply (proj1 (iv_good _ _ _ _ _ I) a b (a_cid r) (a_inner r) (a_inner s));
    unfold core; [rewrite Ha|rewrite Hb, E]; auto.
Qed.

Lemma role_new g rho eta i a : cinv So tof g rho eta -> rho i = RNew a -> constructing g i a.
Proof.
  intros I R. pose proof (iv_thr _ _ _ _ _ I i) as T. unfold thr_ok in T. unfold constructing.
  destruct (t_code (g_thr g i)) as [c|]; [|destruct T; congruence]. destruct T as [T _].
  destruct c as [ro|k|c k|k|c b k|c k|b k|k|b k|b k|b k|b f k|b p k]; cbn in T; try (destruct T; congruence).
  - destruct T as (_ & _ & _ & T).
    destruct k as [ro|k|c k|k|c b k|c k|b k|k|b k|b k|b k|b f k|b p k]; cbn in T;
      try (destruct T; congruence); try (destruct T as (_ & T & _); congruence).
    destruct T as (T & _). rewrite R in T. injection T as <-. eauto.
  - destruct T as (T & _). rewrite R in T. injection T as <-. eauto.
Qed.

Lemma role_dead g rho eta i a : cinv So tof g rho eta -> rho i = RDead a -> destroying g i a.
Proof.
  intros I R. pose proof (iv_thr _ _ _ _ _ I i) as T. unfold thr_ok in T. unfold destroying.
  destruct (t_code (g_thr g i)) as [c|]; [|destruct T; congruence]. destruct T as [T _].
  destruct c as [ro|k|c k|k|c b k|c k|b k|k|b k|b k|b k|b f k|b p k]; cbn in T; try (destruct T; congruence).
  - destruct T as (_ & _ & _ & T).
    destruct k as [ro|k|c k|k|c b k|c k|b k|k|b k|b k|b k|b f k|b p k]; cbn in T;
      try (destruct T; congruence); try (destruct T as (_ & T & _); congruence).
    destruct T as (T & _). rewrite R in T. injection T as <-. eauto.
  - destruct T as (T & _). rewrite R in T. injection T as <-. eauto.
Qed.

Theorem entries_exact g c a : inv g -> g_map g c = Some a ->
  exists r, g_arc g a = Some r /\ a_cid r = c /\ (live g a \/ exists i, destroying g i a).
Proof.
  intros (rho & eta & I) H. destruct (iv_map _ _ _ _ _ I _ _ H) as (r & H1 & H2 & [H3|[i H3]]); exists r;
    repeat split; auto. right. exists i. eapply role_dead; eauto.
Qed.

Theorem live_found g a r : inv g -> live g a -> g_arc g a = Some r ->
  g_map g (a_cid r) = Some a \/ exists i, constructing g i a.
Proof.
  intros (rho & eta & I) [i Hi] Hr. destruct (iv_live _ _ _ _ _ I _ _ _ Hi Hr) as [H|[j H]]; auto.
  right. exists j. eapply role_new; eauto.
Qed.

Theorem quiescent_registry g : inv g -> (forall i, idle g i) ->
  forall c a, g_map g c = Some a <-> (live g a /\ exists r, g_arc g a = Some r /\ a_cid r = c).
Proof.
  intros I Q c a. split.
  - intros H. destruct (entries_exact _ _ _ I H) as (r & H1 & H2 & [H3|[i (k & H3)]]); eauto.
    unfold idle in Q. rewrite Q in H3. destruct H3; discriminate.
  - intros (L & r & H & <-). destruct (live_found _ _ _ I L H) as [|[i (d & k & H3)]]; auto.
    unfold idle in Q. rewrite Q in H3. destruct H3; discriminate.
Qed.

Theorem live_exists g a : inv g -> live g a -> exists r, g_arc g a = Some r.
Proof. intros (rho & eta & I) [i Hi]. eapply iv_refs; eauto. Qed.

(** ** Recordings *)
Theorem contexts_good g a r : inv g -> g_arc g a = Some r -> good_inner So tof (a_inner r).
Proof.
  intros (rho & eta & I) H. eapply (proj2 (iv_good _ _ _ _ _ I)). unfold core. rewrite H. reflexivity.
Qed.

Theorem variables_agree g x : inv g -> In x (g_vars g) -> agrees tof g x.
Proof.
  intros (rho & eta & I) H. pose proof (iv_vars _ _ _ _ _ I) as V. rewrite Forall_forall in V. specialize (V _ H).
  unfold valid in V. unfold agrees. destruct (af_ctx x) as [[c v]|]; auto.
  destruct V as (a & i & E & V). unfold core in E. destruct (g_arc g a) as [r|] eqn:Er; [|discriminate].
  injection E as <- <-. eauto.
Qed.

Theorem tapes_ok g t : inv g -> In t (g_tapes g) ->
  wf_tape t /\ exists a r, g_arc g a = Some r /\ snapshot_of t r.
Proof.
  intros (rho & eta & I) H. pose proof (iv_tapes _ _ _ _ _ I) as V. rewrite Forall_forall in V.
  destruct (V _ H) as (W & a & c & i & E & P). split; auto. unfold core in E.
  destruct (g_arc g a) as [r|] eqn:Er; [|discriminate]. injection E as <- <-. exists a, r. auto.
Qed.

(** Nothing recorded is ever changed or lost. *)
Lemma step_grows g i m g' : inv g -> step So tof g i m = Some g' -> asub (core g) (core g').
Proof.
  intros (rho & eta & I) H. unfold step in H. destruct (Nat.ltb_spec i (g_n g)) as [Hi|]; [|discriminate].
  assert (forall c g', begin g i c = Some g' -> asub (core g) (core g')) as Hb.
  { intros c g1 E. unfold begin in E. destruct (t_code _); [discriminate|]. injection E as <-. apply asub_refl. }
  destruct m as [| |c|a|a x|a x|a|oc x y|v dv|x dv|a j|]; eauto.
  - unfold micro in H. destruct (t_code (g_thr g i)) as [c|] eqn:Hc; [|discriminate].
    destruct (get_thr _ _ _ _ _ _ _ I Hc) as [O _].
    destruct c as [ro|k|c k|k|c a k|c k|a k|k|a k|a k|a k|a f k|a p k].
    + injection H as <-. apply asub_refl.
    + injection H as <-. apply asub_refl.
    + injection H as <-. intros b d j E. exists j. split; [|apply ext_refl].
      unfold core in *. cbn. unfold upd. destruct (Nat.eqb_spec b (g_anext g)) as [->|]; auto.
      rewrite (iv_addr _ _ _ _ _ I) in E by lia. discriminate.
    + destruct (g_mlock g); [discriminate|]. injection H as <-. apply asub_refl.
    + injection H as <-. apply asub_refl.
    + injection H as <-. apply asub_refl.
    + destruct (g_arc g a); [|discriminate]. injection H as <-. apply asub_refl.
    + injection H as <-. apply asub_refl.
    + destruct (owned g a); injection H as <-; apply asub_refl.
    + injection H as <-. apply asub_refl.
    + destruct (g_arc g a) as [r|] eqn:Ea; [|discriminate]. destruct (a_lock r); [discriminate|]. injection H as <-.
      apply (asub_set g a r); auto. apply ext_refl.
    + destruct (g_arc g a) as [r|] eqn:Ea; [|discriminate]. injection H as <-.
      apply (asub_set g a r); auto. cbn in O. destruct O as (_ & _ & O).
      apply (O (core g) (a_cid r) (a_inner r)); [apply asub_refl|apply I|apply core_arc; auto].
    + destruct (g_arc g a) as [r|] eqn:Ea; [|discriminate]. injection H as <-.
      apply (asub_set g a r); auto. apply ext_refl.
  - destruct (has _ _); [eauto|discriminate].
  - destruct (nth_error _ _); [|discriminate]. destruct (has _ _); [eauto|discriminate].
  - destruct (nth_error _ _); [|discriminate]. destruct (has _ _); [eauto|discriminate].
  - destruct (has _ _); [eauto|discriminate].
  - destruct (right_arity _ _); [|discriminate]. destruct (nth_error _ _); [|discriminate].
    destruct y; eauto. destruct (nth_error _ _); [|discriminate]. eauto.
  - destruct (t_code _); [discriminate|]. injection H as <-. apply asub_refl.
  - destruct (t_code _); [discriminate|]. destruct (nth_error _ _); [|discriminate]. injection H as <-. apply asub_refl.
  - destruct (t_code _); [discriminate|]. destruct (t_code _); [discriminate|].
    destruct (_ && _); [|discriminate]. injection H as <-. apply asub_refl.
  - destruct (t_code _); [discriminate|]. injection H as <-. apply asub_refl.
Qed.

Theorem recordings_grow s : forall g g' a r, inv g -> play So tof g s = Some g' -> g_arc g a = Some r ->
  exists r', g_arc g' a = Some r' /\ a_cid r' = a_cid r /\ ext (a_inner r) (a_inner r').
Proof.
  intros g g' a r I H Ha. assert (asub (core g) (core g')) as As.
  { clear a r Ha. revert g I H. induction s as [|[i m] s IH]; cbn; intros g I H.
    - injection H as <-. apply asub_refl.
    - destruct (step So tof g i m) as [g1|] eqn:E; [|discriminate].
      eapply asub_trans; [eapply step_grows; eauto|]. apply IH; auto. eapply inv_step; eauto. }
  destruct (As a _ _ (core_arc _ _ _ Ha)) as (i' & E & X). unfold core in E.
  destruct (g_arc g' a) as [r'|] eqn:Er; [|discriminate]. injection E as E1 <-. eauto.
Qed.


(** ** A lookup from beginning to end *)
Lemma step_other g j m g' i : step So tof g j m = Some g' -> j <> i -> (forall a, m <> DoSend a i) ->
  i < g_n g -> g_thr g' i = g_thr g i.
Proof.
  intros H N NS Hi. unfold step in H. destruct (j <? g_n g); [|discriminate].
  assert (forall (f : nat -> thread) t, upd f j t i = f i) as Hu by (intros; apply upd_ne; auto).
  assert (forall c g', begin g j c = Some g' -> g_thr g' i = g_thr g i) as Hb.
  { intros c g1 E. unfold begin in E. destruct (t_code _); [discriminate|]. injection E as <-. cbn. auto. }
  destruct m as [| |c|a|a x|a x|a|oc x y|v dv|x dv|a k|]; eauto.
  - unfold micro in H. destruct (t_code (g_thr g j)) as [c|] eqn:Hc; [|discriminate].
    destruct c as [ro|k|c k|k|c a k|c k|a k|k|a k|a k|a k|a f k|a p k].
    all: repeat match goal with
      | H : match ?x with Some _ => _ | None => _ end = Some _ |- _ => destruct x; try discriminate
      | H : (if ?x then _ else _) = Some _ |- _ => destruct x
      end; injection H as <-; cbn; rewrite ?Hu; auto.
  - destruct (has _ _); [eauto|discriminate].
  - destruct (nth_error _ _); [|discriminate]. destruct (has _ _); [eauto|discriminate].
  - destruct (nth_error _ _); [|discriminate]. destruct (has _ _); [eauto|discriminate].
  - destruct (has _ _); [eauto|discriminate].
  - destruct (right_arity _ _); [|discriminate]. destruct (nth_error _ _); [|discriminate].
    destruct y; eauto. destruct (nth_error _ _); [|discriminate]. eauto.
  - destruct (t_code _); [discriminate|]. injection H as <-. auto.
  - destruct (t_code _); [discriminate|]. destruct (nth_error _ _); [|discriminate]. injection H as <-. auto.
  - destruct (t_code _); [discriminate|]. destruct (t_code _); [discriminate|].
    destruct (_ && _); [|discriminate]. injection H as <-. cbn. rewrite upd_ne; auto.
    intros ->. apply (NS a). auto.
  - destruct (t_code _); [discriminate|]. injection H as <-. cbn. apply upd_ne. lia.
Qed.

Definition lk (c : nat) (w : option nat) : code :=
  match w with
  | None => MUnlock (Ret RUnit)
  | Some a => Upgrade a (fun ok => if ok then MUnlock (Ret RUnit) else MUnlock (Ret RUnit))
  end.

(** The stages of a lookup of [c] by a thread that began with [refs]. *)
Inductive stage g (c : nat) (refs : list nat) : thread -> Prop :=
| st1 : stage g c refs (mkThread refs (Some (c_from_cid c (fun _ => Ret RUnit))))
| st2 : stage g c refs (mkThread refs (Some (MGet c (lk c))))
| st3 a r : g_arc g a = Some r -> a_cid r = c -> stage g c refs (mkThread refs (Some (lk c (Some a))))
| st4 k : k = Some (MUnlock (Ret RUnit)) \/ k = Some (Ret RUnit) \/ k = None -> stage g c refs (mkThread refs k)
| st5 a r k : g_arc g a = Some r -> a_cid r = c ->
    k = Some (MUnlock (Ret RUnit)) \/ k = Some (Ret RUnit) \/ k = None -> stage g c refs (mkThread (a :: refs) k).

Lemma stage_mono g g' c refs t : asub (core g) (core g') -> stage g c refs t -> stage g' c refs t.
Proof.
  intros Hs H.
  assert (forall a r, g_arc g a = Some r -> exists r', g_arc g' a = Some r' /\ a_cid r' = a_cid r) as Fw.
  { intros a r Ha. destruct (Hs a _ _ (core_arc _ _ _ Ha)) as (i' & E & _). unfold core in E.
    destruct (g_arc g' a) as [r'|]; [|discriminate]. injection E as E _. eauto. }
  destruct H as [| |a r H1 H2|k H|a r k H1 H2 H3]; try (econstructor; eauto; fail).
  - destruct (Fw _ _ H1) as (r' & E1 & E2). econstructor; eauto. congruence.
  - destruct (Fw _ _ H1) as (r' & E1 & E2). econstructor; eauto. congruence.
Qed.

Lemma stage_step g c refs i g' : inv g -> stage g c refs (g_thr g i) -> micro g i = Some g' ->
  stage g' c refs (g_thr g' i).
Proof.
  intros I H E. unfold micro in E. destruct H as [| |a r H1 H2|k H|a r k H1 H2 H3]; cbn in E.
  - destruct (g_mlock g); [discriminate|]. injection E as <-. cbn. rewrite upd_eq. apply st2.
  - injection E as <-. cbn. rewrite upd_eq. destruct (g_map g c) as [a|] eqn:Em; [|apply st4; auto].
    destruct (entries_exact _ _ _ I Em) as (r & E1 & E2 & _). eapply st3; eauto.
  - destruct (owned g a); injection E as <-; cbn; rewrite upd_eq; [eapply st5; eauto|eapply st4; eauto].
  - destruct H as [-> | [-> | -> ] ]; cbn in E; [| |discriminate]; injection E as <-; cbn; rewrite upd_eq; apply st4; auto.
  - destruct H3 as [-> | [-> | -> ] ]; cbn in E; [| |discriminate]; injection E as <-; cbn; rewrite upd_eq; eapply st5; eauto.
Qed.

Lemma n_mono g j m g' : step So tof g j m = Some g' -> g_n g <= g_n g'.
Proof.
  intros H. unfold step in H. destruct (j <? g_n g); [|discriminate].
  assert (forall c g', begin g j c = Some g' -> g_n g <= g_n g') as Hb.
  { intros c g1 E. unfold begin in E. destruct (t_code _); [discriminate|]. injection E as <-. cbn. auto. }
  destruct m as [| |c|a|a x|a x|a|oc x y|v dv|x dv|a k|]; eauto.
  - unfold micro in H. destruct (t_code (g_thr g j)) as [c|] eqn:Hc; [|discriminate].
    destruct c as [ro|k|c k|k|c a k|c k|a k|k|a k|a k|a k|a f k|a p k].
    all: repeat match goal with
      | H : match ?x with Some _ => _ | None => _ end = Some _ |- _ => destruct x; try discriminate
      | H : (if ?x then _ else _) = Some _ |- _ => destruct x
      end; injection H as <-; cbn; auto.
  - destruct (has _ _); [eauto|discriminate].
  - destruct (nth_error _ _); [|discriminate]. destruct (has _ _); [eauto|discriminate].
  - destruct (nth_error _ _); [|discriminate]. destruct (has _ _); [eauto|discriminate].
  - destruct (has _ _); [eauto|discriminate].
  - destruct (right_arity _ _); [|discriminate]. destruct (nth_error _ _); [|discriminate].
    destruct y; eauto. destruct (nth_error _ _); [|discriminate]. eauto.
  - destruct (t_code _); [discriminate|]. injection H as <-. auto.
  - destruct (t_code _); [discriminate|]. destruct (nth_error _ _); [|discriminate]. injection H as <-. auto.
  - destruct (t_code _); [discriminate|]. destruct (t_code _); [discriminate|].
    destruct (_ && _); [|discriminate]. injection H as <-. auto.
  - destruct (t_code _); [discriminate|]. injection H as <-. cbn. lia.
Qed.

Lemma stage_play i c refs s : forall g g', inv g -> i < g_n g -> stage g c refs (g_thr g i) -> carries_on i s ->
  play So tof g s = Some g' -> stage g' c refs (g_thr g' i).
Proof.
  induction s as [|[j m] s IH]; cbn; intros g g' I Hi H C P.
  - injection P as <-. auto.
  - destruct (step So tof g j m) as [g1|] eqn:E; [|discriminate]. inversion C as [|? ? [C1 C2] C3]; subst. cbn in *.
    apply (IH g1); auto.
    + eapply inv_step; eauto.
    + apply n_mono in E. lia.
    + destruct (Nat.eq_dec j i) as [->|N].
      * rewrite C1 in E by auto. unfold step in E. apply Nat.ltb_lt in Hi. rewrite Hi in E.
        eapply stage_step; eauto.
      * rewrite (step_other _ _ _ _ _ E N C2 Hi). eapply stage_mono; eauto. eapply step_grows; eauto.
Qed.

Theorem lookup_exact g i c s g1 g2 : inv g -> step So tof g i (DoLookup c) = Some g1 ->
  carries_on i s -> play So tof g1 s = Some g2 -> idle g2 i ->
  t_refs (g_thr g2 i) = t_refs (g_thr g i) \/
  exists a r, t_refs (g_thr g2 i) = a :: t_refs (g_thr g i) /\ g_arc g2 a = Some r /\ a_cid r = c.
Proof.
  intros I E C P Id. pose proof (inv_step _ _ _ _ E I) as I1. unfold step in E.
  destruct (Nat.ltb_spec i (g_n g)) as [Hi|]; [|discriminate]. unfold begin in E.
  destruct (t_code (g_thr g i)); [discriminate|]. injection E as <-.
  assert (stage g2 c (t_refs (g_thr g i)) (g_thr g2 i)) as H.
  { eapply stage_play; eauto. cbn. rewrite upd_eq. apply st1. }
  unfold idle in Id. destruct (g_thr g2 i) as [refs2 k2]. cbn in *. subst k2.
  inversion H; subst; auto. right; eauto.
Qed.

(** ** A lookup of a context that somebody keeps alive succeeds *)
Definition kept g (k a c : nat) : Prop :=
  In a (t_refs (g_thr g k)) /\ (exists r, g_arc g a = Some r /\ a_cid r = c) /\ ~ constructing g k a.

Lemma kept_map g k a c : inv g -> kept g k a c -> g_map g c = Some a.
Proof.
  intros (rho & eta & I) (H1 & (r & H2 & <-) & H3).
  destruct (iv_live _ _ _ _ _ I _ _ _ H1 H2) as [|[j R]]; auto.
  destruct (iv_new _ _ _ _ _ I _ _ R) as (_ & _ & U). apply U in H1. subst k.
  destruct H3. eapply role_new; eauto.
Qed.

(** As [stage], when the context [a] is kept: no failing stage. *)
Inductive stage' (c a : nat) (refs : list nat) : thread -> Prop :=
| su1 : stage' c a refs (mkThread refs (Some (c_from_cid c (fun _ => Ret RUnit))))
| su2 : stage' c a refs (mkThread refs (Some (MGet c (lk c))))
| su3 : stage' c a refs (mkThread refs (Some (lk c (Some a))))
| su5 k : k = Some (MUnlock (Ret RUnit)) \/ k = Some (Ret RUnit) \/ k = None -> stage' c a refs (mkThread (a :: refs) k).

Lemma stage'_step g c a refs i g' k : inv g -> kept g k a c -> stage' c a refs (g_thr g i) -> micro g i = Some g' ->
  stage' c a refs (g_thr g' i).
Proof.
  intros I K H E. unfold micro in E. destruct H as [| | |x H]; cbn in E.
  - destruct (g_mlock g); [discriminate|]. injection E as <-. cbn. rewrite upd_eq. apply su2.
  - injection E as <-. cbn. rewrite upd_eq. rewrite (kept_map _ _ _ _ I K). apply su3.
  - assert (owned g a = true) as Ho.
    { destruct I as (rho & eta & I). apply (owned_live _ _ _ _ _ _ I). exists k. apply K. }
    rewrite Ho in E. injection E as <-. cbn. rewrite upd_eq. apply su5; auto.
  - destruct H as [-> | [-> | -> ] ]; cbn in E; [| |discriminate]; injection E as <-; cbn; rewrite upd_eq; apply su5; auto.
Qed.

Lemma stage'_refs c a refs t : stage' c a refs t -> forall b, In b refs -> In b (t_refs t).
Proof. intros H b Hb. destruct H; cbn; auto. Qed.

Lemma kept_step g j m g' k i a c refs : inv g -> i < g_n g -> step So tof g j m = Some g' ->
  (j = i -> m = Go) -> stage' c a refs (g_thr g i) -> stage' c a refs (g_thr g' i) ->
  (k = i /\ In a refs) \/ (j <> k /\ k <> i) -> idle g k \/ k = i -> kept g k a c ->
  kept g' k a c /\ (idle g' k \/ k = i).
Proof.
  intros I Hi E C St St' Hk Idk (K1 & (r & K2 & K3) & K4).
  assert (exists r', g_arc g' a = Some r' /\ a_cid r' = c) as Hr.
  { pose proof (step_grows _ _ _ _ I E) as Hs. destruct (Hs a _ _ (core_arc _ _ _ K2)) as (i' & E' & _).
    unfold core in E'. destruct (g_arc g' a) as [r'|]; [|discriminate]. injection E' as E' _. exists r'. split; congruence. }
  destruct Hk as [[-> Hin]|[N1 N2]].
  - split; auto. split; [eapply stage'_refs; eauto|]. split; auto.
    intros (d & q & [X|X]); destruct St'; cbn in X; try discriminate X;
      destruct H as [-> | [-> | -> ] ]; discriminate X.
  - destruct Idk as [Idk|]; [|contradiction].
    assert (k < g_n g) as Hkn.
    { destruct I as (rho & eta & I). destruct (Nat.lt_ge_cases k (g_n g)); auto.
      rewrite (iv_out _ _ _ _ _ I) in K1 by auto. destruct K1. }
    assert (idle g' k /\ In a (t_refs (g_thr g' k))) as [Q1 Q2].
    { assert ((exists b, m = DoSend b k) \/ forall b, m <> DoSend b k) as [[b ->]|N3].
      { destruct m as [| |d|d|d x|d x|d|oc x y|v dv|x dv|d l|]; try (right; intros; discriminate).
        destruct (Nat.eq_dec l k) as [->|]; [left; eauto|right; congruence]. }
      - unfold step in E. destruct (j <? g_n g); [|discriminate].
        destruct (t_code (g_thr g j)); [discriminate|]. destruct (t_code (g_thr g k)) eqn:Ek; [discriminate|].
        destruct (_ && _); [|discriminate]. injection E as <-. unfold idle. cbn. rewrite upd_eq. cbn.
        split; auto. right. rewrite upd_ne; auto.
      - unfold idle. rewrite (step_other _ _ _ _ k E); auto. }
    split; auto. split; auto. split; auto. intros (d & q & [X|X]); unfold idle in Q1; rewrite Q1 in X; discriminate.
Qed.

Lemma stage'_play i c a refs k s : forall g g', inv g -> i < g_n g -> stage' c a refs (g_thr g i) -> carries_on i s ->
  (k = i /\ In a refs) \/ (rests k s /\ k <> i) -> idle g k \/ k = i -> kept g k a c ->
  play So tof g s = Some g' -> stage' c a refs (g_thr g' i).
Proof.
  induction s as [|[j m] s IH]; cbn; intros g g' I Hi H C R Idk K P.
  - injection P as <-. auto.
  - destruct (step So tof g j m) as [g1|] eqn:E; [|discriminate]. inversion C as [|? ? [C1 C2] C3]; subst. cbn in *.
    assert (stage' c a refs (g_thr g1 i)) as H1.
    { destruct (Nat.eq_dec j i) as [->|N].
      - rewrite C1 in E by auto. unfold step in E. pose proof Hi as Hi'. apply Nat.ltb_lt in Hi'. rewrite Hi' in E.
        eapply stage'_step; eauto.
      - rewrite (step_other _ _ _ _ _ E N C2 Hi). auto. }
    assert ((k = i /\ In a refs) \/ (j <> k /\ k <> i)) as R1.
    { destruct R as [R|[R N]]; auto. inversion R; subst. auto. }
    destruct (kept_step _ _ _ _ k i a c refs I Hi E C1 H H1 R1 Idk K) as [K' Idk'].
    apply (IH g1); auto.
    + eapply inv_step; eauto.
    + apply n_mono in E. lia.
    + destruct R as [R|[R N]]; auto. inversion R; subst. auto.
Qed.

Theorem lookup_succeeds g i c s g1 g2 k a r : inv g -> step So tof g i (DoLookup c) = Some g1 ->
  carries_on i s -> play So tof g1 s = Some g2 -> idle g2 i ->
  idle g k -> In a (t_refs (g_thr g k)) -> g_arc g a = Some r -> a_cid r = c -> k = i \/ rests k s ->
  t_refs (g_thr g2 i) = a :: t_refs (g_thr g i).
Proof.
  intros I E C P Id Idk Hin Ha Ec R. pose proof (inv_step _ _ _ _ E I) as I1. unfold step in E.
  destruct (Nat.ltb_spec i (g_n g)) as [Hi|]; [|discriminate]. unfold begin in E.
  destruct (t_code (g_thr g i)) eqn:Hc; [discriminate|]. injection E as <-.
  assert (stage' c a (t_refs (g_thr g i)) (g_thr g2 i)) as H.
  { eapply (stage'_play i c a _ k); [exact I1|exact Hi| |exact C| | | |exact P].
    - cbn. rewrite upd_eq. apply su1.
    - destruct (Nat.eq_dec k i) as [->|N]; auto. destruct R as [|R]; auto; contradiction.
    - destruct (Nat.eq_dec k i) as [->|N]; auto. left. unfold idle. cbn. rewrite upd_ne; auto.
    - split; [cbn; rewrite refs_upd; auto|]. split; [exists r; auto|].
      intros (d & q & X). cbn in X. unfold upd in X. destruct (k =? i); cbn in X; [destruct X; discriminate|].
      unfold idle in Idk. rewrite Idk in X. destruct X; discriminate. }
  unfold idle in Id. destruct (g_thr g2 i) as [refs2 k2]. cbn in *. subst k2.
  inversion H; subst; auto.
Qed.

End Main.
