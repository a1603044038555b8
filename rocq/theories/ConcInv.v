(** Concurrency: the invariant of the whole process. *)
From Coq Require Import List Arith ZArith Bool Lia Sorted.
From Verif Require Import Base Float Operation Tape AContext AContextFacts Spec Ffi
  Concurrent ConcSpec ConcFacts.
Import ListNotations.

Section Inv.
Context {S F : Type} (So : Fops S) (tof : S -> option F).
Notation code := (code S F). Notation sys := (sys S F). Notation thread := (thread S F).
Notation good := (good So tof). Notation ok := (ok So tof). Notation valid := (valid tof).
Implicit Types (g : sys) (rho : nat -> role) (eta : nat -> held) (A : contents (F:=F)).

(** A thread's state fits its role [r] and the lock [h] it holds. *)
Definition thr_ok A (t : thread) (r : role) (h : held) : Prop :=
  match t_code t with
  | None => r = RNone /\ h = HNone
  | Some c => ok A r h (t_refs t) c /\ (h <> HNone -> unlocks 2 c)
  end.

Definition map_held (h : held) : Prop := h = HMap \/ exists a, h = HGot a.

Record cinv g rho eta : Prop := {
  iv_good : good (core g);
  iv_cid : forall a r, g_arc g a = Some r -> a_cid r < g_next g;
  iv_addr : forall a, g_anext g <= a -> g_arc g a = None;
  iv_thr : forall i, thr_ok (core g) (g_thr g i) (rho i) (eta i);
  iv_out : forall i, g_n g <= i -> g_thr g i = mkThread [] None;
  iv_refs : forall i a, In a (t_refs (g_thr g i)) -> exists r, g_arc g a = Some r;
  iv_mlock : forall i, g_mlock g = Some i <-> map_held (eta i);
  iv_alock : forall a r i, g_arc g a = Some r -> (a_lock r = Some i <-> eta i = HCtx a);
  iv_ctx : forall i a, eta i = HCtx a -> In a (t_refs (g_thr g i));
  iv_got : forall i a, eta i = HGot a -> exists r, g_arc g a = Some r /\ g_map g (a_cid r) = Some a;
  iv_id : forall i c, rho i = RId c -> c < g_next g /\ forall a r, g_arc g a = Some r -> a_cid r <> c;
  iv_id1 : forall i j c, rho i = RId c -> rho j = RId c -> i = j;
  iv_new : forall i a, rho i = RNew a -> In a (t_refs (g_thr g i)) /\
    (exists r, g_arc g a = Some r /\ g_map g (a_cid r) = None) /\
    forall j, In a (t_refs (g_thr g j)) -> j = i;
  iv_dead : forall i a, rho i = RDead a -> (exists r, g_arc g a = Some r) /\ ~ live g a;
  iv_dead1 : forall i j a, rho i = RDead a -> rho j = RDead a -> i = j;
  iv_map : forall c a, g_map g c = Some a -> exists r, g_arc g a = Some r /\ a_cid r = c /\
    (live g a \/ exists i, rho i = RDead a);
  iv_live : forall i a r, In a (t_refs (g_thr g i)) -> g_arc g a = Some r ->
    g_map g (a_cid r) = Some a \/ exists j, rho j = RNew a;
  iv_vars : Forall (valid (core g)) (g_vars g);
  iv_tapes : Forall (snap (core g)) (g_tapes g)
}.

Lemma unlocks_S n (c : code) : unlocks n c -> unlocks (Datatypes.S n) c.
Proof.
  revert c. induction n as [|n IH]; intros c H; destruct c; cbn in *; auto; try contradiction;
    intros; apply IH; auto.
Qed.

Lemma unlocks_ins c a (k : code) : unlocks 2 (MInsert c a k) -> unlocks 2 k.
Proof. exact (unlocks_S 1 k). Qed.
Lemma unlocks_rem a (k : code) : unlocks 2 (MRemove a k) -> unlocks 2 k.
Proof. exact (unlocks_S 1 k). Qed.
Lemma unlocks_get c k o : unlocks 2 (MGet c k : code) -> unlocks 2 (k o).
Proof. intros H. exact (unlocks_S 1 (k o) (H o)). Qed.
Lemma unlocks_upg a k b : unlocks 2 (Upgrade a k : code) -> unlocks 2 (k b).
Proof. intros H. exact (unlocks_S 1 (k b) (H b)). Qed.
Lemma unlocks_acc a f k c i : unlocks 2 (Access a f k : code) -> unlocks 2 (k c i).
Proof. intros H. exact (unlocks_S 1 (k c i) (H c i)). Qed.
Local Arguments unlocks : simpl never.

Lemma upd_eq {B} (f : nat -> B) i b : upd f i b i = b.
Proof. unfold upd. rewrite Nat.eqb_refl. auto. Qed.
Lemma upd_ne {B} (f : nat -> B) i j b : j <> i -> upd f i b j = f j.
Proof. intros H. unfold upd. apply Nat.eqb_neq in H. rewrite H. auto. Qed.

Lemma thr_ok_upd A A' (th : nat -> thread) rho eta i t r h :
  (forall j, thr_ok A (th j) (rho j) (eta j)) -> asub A A' -> thr_ok A' t r h ->
  forall j, thr_ok A' (upd th i t j) (upd rho i r j) (upd eta i h j).
Proof.
  intros H Hs Ht j. destruct (Nat.eq_dec j i) as [->|N]; [rewrite !upd_eq; auto|].
  rewrite !upd_ne by auto. specialize (H j). unfold thr_ok in *.
  destruct (t_code (th j)); auto. destruct H as [H1 H2]. split; auto. eapply ok_mono; eauto.
Qed.

Lemma owned_live g rho eta a : cinv g rho eta -> owned g a = true <-> live g a.
Proof.
  intros I. unfold owned, live. rewrite existsb_exists. split.
  - intros (i & _ & H). apply existsb_exists in H as (b & H & E). apply Nat.eqb_eq in E as <-. eauto.
  - intros (i & H). exists i. split.
    + apply in_seq. destruct (Nat.lt_ge_cases i (g_n g)); [lia|].
      rewrite (iv_out _ _ _ I) in H by auto. destruct H.
    + apply existsb_exists. exists a. split; auto. apply Nat.eqb_refl.
Qed.

Lemma has_in a l : has a l = true <-> In a l.
Proof.
  unfold has. rewrite existsb_exists. split.
  - intros (b & H & E). apply Nat.eqb_eq in E as <-. auto.
  - intros H. exists a. split; auto. apply Nat.eqb_refl.
Qed.

Lemma in_remove1 a b l : In b (remove1 a l) -> In b l.
Proof.
  induction l as [|x l IH]; cbn; auto. destruct (Nat.eqb_spec a x); cbn; intros H; auto.
  destruct H; auto.
Qed.
Lemma in_remove1_ne a b l : a <> b -> In b l -> In b (remove1 a l).
Proof.
  intros N. induction l as [|x l IH]; cbn; auto. destruct (Nat.eqb_spec a x); cbn; intros [H|H]; auto; congruence.
Qed.

(** The invariant at the start *)
Lemma inv0 : cinv sys0 (fun _ => RNone) (fun _ => HNone).
Proof.
  split; cbn; try discriminate; try (intros; tauto); auto.
  - split; cbn; discriminate.
  - intros i. split; [discriminate|]. intros [H|[a H]]; discriminate.
Qed.

(** ** Steps that change only thread [i] and, possibly, who holds the registry *)
Ltac ups i := repeat match goal with
  | H : context [upd _ i _ ?j] |- _ => destruct (Nat.eq_dec j i) as [->|]; [rewrite ?upd_eq in * |rewrite ?upd_ne in * by auto]
  | |- context [upd _ i _ ?j] => destruct (Nat.eq_dec j i) as [->|]; [rewrite ?upd_eq in * |rewrite ?upd_ne in * by auto]
  end.

(** Same refs. *)
Lemma refs_upd (th : nat -> thread) i c j :
  t_refs (upd th i (mkThread (t_refs (th i)) c) j) = t_refs (th j).
Proof. unfold upd. destruct (Nat.eqb_spec j i) as [->|]; auto. Qed.

Lemma live_same g g' : (forall j, t_refs (g_thr g' j) = t_refs (g_thr g j)) -> forall a, live g' a <-> live g a.
Proof. intros H a. unfold live. split; intros [i Hi]; exists i; rewrite H in *; auto. Qed.

(** A step that changes neither contexts nor handles. *)
Lemma inv_plain g rho eta i c' next' map' mlock' vars' tapes' r' h' :
  cinv g rho eta -> i < g_n g ->
  let g' := mkSys next' map' mlock' (g_anext g) (g_arc g) (g_n g)
              (upd (g_thr g) i (mkThread (t_refs (g_thr g i)) c')) vars' tapes' in
  let rho' := upd rho i r' in let eta' := upd eta i h' in
  g_next g <= next' -> thr_ok (core g) (mkThread (t_refs (g_thr g i)) c') r' h' ->
  (forall j, mlock' = Some j <-> map_held (eta' j)) ->
  (forall a, h' = HCtx a <-> eta i = HCtx a) ->
  (forall j a, eta' j = HGot a -> exists r, g_arc g a = Some r /\ map' (a_cid r) = Some a) ->
  (forall j c, rho' j = RId c -> c < next' /\ forall a r, g_arc g a = Some r -> a_cid r <> c) ->
  (forall j k c, rho' j = RId c -> rho' k = RId c -> j = k) ->
  (forall j a, rho' j = RNew a -> rho j = RNew a /\ exists r, g_arc g a = Some r /\ map' (a_cid r) = None) ->
  (forall j a, rho' j = RDead a -> rho j = RDead a) ->
  (forall c a, map' c = Some a -> exists r, g_arc g a = Some r /\ a_cid r = c /\
     (live g a \/ exists i, rho' i = RDead a)) ->
  (forall j a r, In a (t_refs (g_thr g j)) -> g_arc g a = Some r ->
     map' (a_cid r) = Some a \/ exists k, rho' k = RNew a) ->
  Forall (valid (core g)) vars' -> Forall (snap (core g)) tapes' ->
  cinv g' rho' eta'.
Proof.
  intros I Hi g' rho' eta' Hn Ht Hml Hctx Hgot Hid Hid1 Hnew Hdead Hmap Hlive Hv Htp.
  assert (forall j, t_refs (g_thr g' j) = t_refs (g_thr g j)) as Hr by (intros; apply refs_upd).
  pose proof (live_same _ _ Hr) as HL.
  split; auto.
  - apply I.
  - intros a r H. apply (iv_cid _ _ _ I) in H. cbn. lia.
  - apply I.
  - apply thr_ok_upd with (A := core g); auto; [apply I|apply asub_refl].
  - intros j Hj. cbn in *. rewrite upd_ne by lia. apply I; auto.
  - intros j a H. rewrite Hr in H. eapply (iv_refs _ _ _ I); eauto.
  - intros a r j H. cbn in H. subst eta'. rewrite (iv_alock _ _ _ I) by eauto. ups i; [|tauto]. symmetry; auto.
  - intros j a H. rewrite Hr. subst eta'. ups i; [apply I; apply Hctx; auto|apply I; auto].
  - intros j a H. apply Hnew in H as [H H']. destruct (iv_new _ _ _ I _ _ H) as (H1 & _ & H3).
    rewrite Hr. split; auto. split; auto. intros k. rewrite Hr. auto.
  - intros j a H. apply Hdead in H. rewrite HL. apply (iv_dead _ _ _ I _ _ H).
  - intros j k a H1 H2. apply Hdead in H1, H2. eapply (iv_dead1 _ _ _ I); eauto.
  - intros c a H. apply Hmap in H as (r & H1 & H2 & H3). exists r. rewrite HL. auto.
  - intros j a r H H'. rewrite Hr in H. eauto.
Qed.


Lemma map_held_none : ~ map_held HNone.
Proof. intros [H|[a H]]; discriminate. Qed.

(** The lock table after thread [i], which holds [eta i], moves to [h'] with the registry lock
    unchanged. *)
Lemma mlock_same g rho eta i h' : cinv g rho eta -> (map_held h' <-> map_held (eta i)) ->
  forall j, g_mlock g = Some j <-> map_held (upd eta i h' j).
Proof. intros I H j. rewrite (iv_mlock _ _ _ I). ups i; tauto. Qed.

(** Roles keep what they know about contexts. *)
Lemma plain_role g rho eta i c' mlock' vars' tapes' h' :
  cinv g rho eta -> i < g_n g ->
  thr_ok (core g) (mkThread (t_refs (g_thr g i)) c') (rho i) h' ->
  (forall j, mlock' = Some j <-> map_held (upd eta i h' j)) ->
  (forall a, h' = HCtx a <-> eta i = HCtx a) ->
  (forall a, h' = HGot a -> exists r, g_arc g a = Some r /\ g_map g (a_cid r) = Some a) ->
  Forall (valid (core g)) vars' -> Forall (snap (core g)) tapes' ->
  exists rho' eta', cinv (mkSys (g_next g) (g_map g) mlock' (g_anext g) (g_arc g) (g_n g)
              (upd (g_thr g) i (mkThread (t_refs (g_thr g i)) c')) vars' tapes') rho' eta'.
Proof.
  intros I Hi Ht Hm Hc Hg Hv Htp. exists (upd rho i (rho i)), (upd eta i h').
  assert (forall j, upd rho i (rho i) j = rho j) as E by (intros j; ups i; auto).
  apply inv_plain; auto.
  - intros j a H. ups i; auto. apply I in H; auto.
  - intros j c. rewrite E. apply I.
  - intros j k c. rewrite !E. apply I.
  - intros j a. rewrite E. intros H. split; auto. apply (iv_new _ _ _ I _ _ H).
  - intros j a. rewrite E. auto.
  - intros c a H. destruct (iv_map _ _ _ I _ _ H) as (r & H1 & H2 & [H3|[k H3]]); exists r; repeat split; auto.
    right. exists k. rewrite E. auto.
  - intros j a r H1 H2. destruct (iv_live _ _ _ I _ _ _ H1 H2) as [H3|[k H3]]; auto.
    right. exists k. rewrite E. auto.
Qed.

Ltac flat := unfold set_thr, set_mlock, set_map, set_arc;
  cbn [g_next g_map g_mlock g_anext g_arc g_n g_thr g_vars g_tapes].

(** The thread's code and its obligations. *)
Lemma get_thr g rho eta i c : cinv g rho eta -> t_code (g_thr g i) = Some c ->
  ok (core g) (rho i) (eta i) (t_refs (g_thr g i)) c /\ (eta i <> HNone -> unlocks 2 c).
Proof. intros I H. pose proof (iv_thr _ _ _ I i) as T. unfold thr_ok in T. rewrite H in T. auto. Qed.

Definition step_inv g g' rho eta : Prop := cinv g rho eta -> exists rho' eta', cinv g' rho' eta'.

Lemma inv_ret g rho eta i r : i < g_n g -> t_code (g_thr g i) = Some (Ret r) ->
  step_inv g (mkSys (g_next g) (g_map g) (g_mlock g) (g_anext g) (g_arc g) (g_n g)
              (upd (g_thr g) i (mkThread (t_refs (g_thr g i)) None))
              (match r with RVar x => g_vars g ++ [x] | _ => g_vars g end)
              (match r with RTape t => g_tapes g ++ [t] | _ => g_tapes g end)) rho eta.
Proof.
  intros Hi Hc I. destruct (get_thr _ _ _ _ _ I Hc) as [(R & H & O) _].
  flat. apply plain_role with (rho := rho) (eta := eta) (h' := HNone); auto.
  - split; auto.
  - eapply mlock_same; eauto. rewrite H. tauto.
  - intros a. rewrite H. tauto.
  - discriminate.
  - destruct r; try apply I. apply Forall_app. split; [apply I|repeat constructor; auto].
  - destruct r; try apply I. apply Forall_app. split; [apply I|repeat constructor; apply O].
Qed.

Lemma inv_mlock g rho eta i k : i < g_n g -> t_code (g_thr g i) = Some (MLock k) -> g_mlock g = None ->
  step_inv g (set_thr (set_mlock g (Some i)) i (mkThread (t_refs (g_thr g i)) (Some k))) rho eta.
Proof.
  intros Hi Hc Hn I. destruct (get_thr _ _ _ _ _ I Hc) as [(H & R & U & O) _].
  flat. apply plain_role with (rho := rho) (eta := eta) (h' := HMap); auto; try apply I; try discriminate.
  - split; auto.
  - intros j. ups i.
    + split; auto. intros _. left; auto.
    + rewrite <- (iv_mlock _ _ _ I), Hn. split; congruence.
  - intros a. rewrite H. split; discriminate.
Qed.

Lemma inv_munlock g rho eta i k : i < g_n g -> t_code (g_thr g i) = Some (MUnlock k) ->
  step_inv g (set_thr (set_mlock g None) i (mkThread (t_refs (g_thr g i)) (Some k))) rho eta.
Proof.
  intros Hi Hc I. destruct (get_thr _ _ _ _ _ I Hc) as [(R & H & O) _].
  assert (g_mlock g = Some i) as M by (apply (iv_mlock _ _ _ I); rewrite H; left; auto).
  flat. apply plain_role with (rho := rho) (eta := eta) (h' := HNone); auto; try apply I; try discriminate.
  - rewrite R. split; auto. congruence.
  - intros j. ups i.
    + split; [discriminate|]. intros X; destruct (map_held_none X).
    + rewrite <- (iv_mlock _ _ _ I), M. split; congruence.
  - intros a. rewrite H. split; discriminate.
Qed.

Lemma inv_mget g rho eta i c k : i < g_n g -> t_code (g_thr g i) = Some (MGet c k) ->
  step_inv g (set_thr g i (mkThread (t_refs (g_thr g i)) (Some (k (g_map g c))))) rho eta.
Proof.
  intros Hi Hc I. destruct (get_thr _ _ _ _ _ I Hc) as [(R & H & O1 & O2) U].
  assert (eta i <> HNone) as Hn by congruence. specialize (U Hn).
  destruct (g_map g c) as [a|] eqn:Em.
  - destruct (iv_map _ _ _ I _ _ Em) as (r & Ha & <- & _).
    flat. apply plain_role with (rho := rho) (eta := eta) (h' := HGot a); auto; try apply I; try discriminate.
    + rewrite R. split; [|intros; exact (unlocks_get _ _ _ U)]. cbn [t_refs]. eapply O2; [apply asub_refl|apply I|].
      unfold core. rewrite Ha. reflexivity.
    + eapply mlock_same; eauto. rewrite H. unfold map_held. split; eauto.
    + intros b. rewrite H. split; discriminate.
    + intros b E. injection E as <-. eauto.
  - apply plain_role with (rho := rho) (eta := eta) (h' := HMap); auto; try apply I; try discriminate.
    + rewrite R. split; [auto|intros; exact (unlocks_get _ _ _ U)].
    + eapply mlock_same; eauto. rewrite H. tauto.
    + intros b. rewrite H. split; discriminate.
Qed.

Lemma inv_fetch g rho eta i k : i < g_n g -> t_code (g_thr g i) = Some (Fetch k) ->
  step_inv g (mkSys (g_next g + 1) (g_map g) (g_mlock g) (g_anext g) (g_arc g) (g_n g)
              (upd (g_thr g) i (mkThread (t_refs (g_thr g i)) (Some (k (g_next g))))) (g_vars g) (g_tapes g)) rho eta.
Proof.
  intros Hi Hc I. destruct (get_thr _ _ _ _ _ I Hc) as [(R & H & O) _].
  exists (upd rho i (RId (g_next g))), (upd eta i HNone). flat; apply inv_plain; auto; try apply I.
  - lia.
  - split; cbn; auto; congruence.
  - eapply mlock_same; eauto. rewrite H. tauto.
  - intros a. rewrite H. tauto.
  - intros j a E. ups i; [discriminate|]. eapply (iv_got _ _ _ I); eauto.
  - intros j c E. ups i.
    + injection E as <-. split; [lia|]. intros a r Ha. apply (iv_cid _ _ _ I) in Ha. lia.
    + apply (iv_id _ _ _ I) in E as [E1 E2]. split; auto. lia.
  - intros j k' c E1 E2. ups i; auto.
    + injection E2 as <-. apply (iv_id _ _ _ I) in E1 as [E1 _]. lia.
    + injection E1 as <-. apply (iv_id _ _ _ I) in E2 as [E2 _]. lia.
    + eapply (iv_id1 _ _ _ I); eauto.
  - intros j a E. ups i; [discriminate|]. split; auto. apply (iv_new _ _ _ I _ _ E).
  - intros j a E. ups i; [discriminate|]. auto.
  - intros c a E. destruct (iv_map _ _ _ I _ _ E) as (r & H1 & H2 & [H3|[k' H3]]); exists r; repeat split; auto.
    right. exists k'. ups i; congruence.
  - intros j a r H1 H2. destruct (iv_live _ _ _ I _ _ _ H1 H2) as [H3|[k' H3]]; auto.
    right. exists k'. ups i; congruence.
Qed.

Lemma inv_minsert g rho eta i c a k : i < g_n g -> t_code (g_thr g i) = Some (MInsert c a k) ->
  step_inv g (set_thr (set_map g c (Some a)) i (mkThread (t_refs (g_thr g i)) (Some k))) rho eta.
Proof.
  intros Hi Hc I. destruct (get_thr _ _ _ _ _ I Hc) as [(R & H & [i0 Ea] & O) U].
  assert (eta i <> HNone) as Hn by congruence. specialize (U Hn).
  assert (exists r, g_arc g a = Some r /\ a_cid r = c) as (r & Ha & <-).
  { unfold core in Ea. destruct (g_arc g a) as [r|]; [|discriminate]. injection Ea as <- _. eauto. }
  assert (forall b s, g_arc g b = Some s -> a_cid s = a_cid r -> b = a) as Uq.
  { intros b s Hb E. destruct (iv_good _ _ _ I) as [G _]. eapply G; unfold core; [rewrite Hb, E|rewrite Ha]; reflexivity. }
  assert (forall j, map_held (eta j) -> j = i) as One.
  { intros j Hj. apply (iv_mlock _ _ _ I) in Hj. assert (g_mlock g = Some i) by (apply (iv_mlock _ _ _ I); rewrite H; left; auto).
    congruence. }
  destruct (iv_new _ _ _ I _ _ R) as (N1 & _ & N3).
  exists (upd rho i RNone), (upd eta i HMap). flat; apply inv_plain; auto; try apply I.
  - split; cbn; auto. intros _. first [exact (unlocks_ins _ _ _ U) | exact (unlocks_rem _ _ U)].
  - eapply mlock_same; eauto. rewrite H. tauto.
  - intros b. rewrite H. tauto.
  - intros j b E. ups i; [discriminate|]. assert (j = i) by (apply One; right; eauto). contradiction.
  - intros j d E. ups i; [discriminate|]. eapply (iv_id _ _ _ I); eauto.
  - intros j l d E1 E2. ups i; try discriminate; auto. eapply (iv_id1 _ _ _ I); eauto.
  - intros j b E. ups i; [discriminate|]. split; auto.
    destruct (iv_new _ _ _ I _ _ E) as (M1 & (s & M2 & M3) & M4). exists s. split; auto.
    unfold upd. destruct (Nat.eqb_spec (a_cid s) (a_cid r)) as [E'|]; auto.
    assert (b = a) as -> by eauto. contradict n. auto.
  - intros j b E. ups i; [discriminate|]. auto.
  - intros d b E. unfold upd in E. destruct (Nat.eqb_spec d (a_cid r)) as [->|].
    + injection E as <-. exists r. repeat split; auto. left. exists i; auto.
    + destruct (iv_map _ _ _ I _ _ E) as (s & H1 & H2 & [H3|[l H3]]); exists s; repeat split; auto.
      right. exists l. ups i; congruence.
  - intros j b s H1 H2. unfold upd at 1. destruct (Nat.eqb_spec (a_cid s) (a_cid r)) as [E|].
    + left. f_equal. symmetry. eapply Uq; eauto.
    + destruct (iv_live _ _ _ I _ _ _ H1 H2) as [H3|[l H3]]; auto.
      right. exists l. ups i; auto. rewrite R in H3. injection H3 as ->. congruence.
Qed.

Lemma inv_mremove g rho eta i a k r : i < g_n g -> t_code (g_thr g i) = Some (MRemove a k) -> g_arc g a = Some r ->
  step_inv g (set_thr (set_map g (a_cid r) None) i (mkThread (t_refs (g_thr g i)) (Some k))) rho eta.
Proof.
  intros Hi Hc Ha I. destruct (get_thr _ _ _ _ _ I Hc) as [(R & H & O) U].
  assert (eta i <> HNone) as Hn by congruence. specialize (U Hn).
  assert (forall b s, g_arc g b = Some s -> a_cid s = a_cid r -> b = a) as Uq.
  { intros b s Hb E. destruct (iv_good _ _ _ I) as [G _]. eapply G; unfold core; [rewrite Hb, E|rewrite Ha]; reflexivity. }
  assert (forall j, map_held (eta j) -> j = i) as One.
  { intros j Hj. apply (iv_mlock _ _ _ I) in Hj. assert (g_mlock g = Some i) by (apply (iv_mlock _ _ _ I); rewrite H; left; auto).
    congruence. }
  destruct (iv_dead _ _ _ I _ _ R) as (_ & D).
  exists (upd rho i RNone), (upd eta i HMap). flat; apply inv_plain; auto; try apply I.
  - split; cbn; auto. intros _. first [exact (unlocks_ins _ _ _ U) | exact (unlocks_rem _ _ U)].
  - eapply mlock_same; eauto. rewrite H. tauto.
  - intros b. rewrite H. tauto.
  - intros j b E. ups i; [discriminate|]. assert (j = i) by (apply One; right; eauto). contradiction.
  - intros j d E. ups i; [discriminate|]. eapply (iv_id _ _ _ I); eauto.
  - intros j l d E1 E2. ups i; try discriminate; auto. eapply (iv_id1 _ _ _ I); eauto.
  - intros j b E. ups i; [discriminate|]. split; auto.
    destruct (iv_new _ _ _ I _ _ E) as (M1 & (s & M2 & M3) & M4). exists s. split; auto.
    unfold upd. destruct (a_cid s =? a_cid r); auto.
  - intros j b E. ups i; [discriminate|]. auto.
  - intros d b E. unfold upd in E. destruct (Nat.eqb_spec d (a_cid r)) as [->|]; [discriminate|].
    destruct (iv_map _ _ _ I _ _ E) as (s & H1 & H2 & [H3|[l H3]]); exists s; repeat split; auto.
    right. exists l. ups i; auto. rewrite R in H3. injection H3 as ->. congruence.
  - intros j b s H1 H2. unfold upd at 1. destruct (Nat.eqb_spec (a_cid s) (a_cid r)) as [E|].
    + destruct D. exists j. rewrite <- (Uq b s); auto.
    + destruct (iv_live _ _ _ I _ _ _ H1 H2) as [H3|[l H3]]; auto.
      right. exists l. ups i; congruence.
Qed.


(** ** Steps on the contents or the lock of one context *)
Lemma core_arc g a r : g_arc g a = Some r -> core g a = Some (a_cid r, a_inner r).
Proof. intros H. unfold core. rewrite H. auto. Qed.

Lemma core_set g a r b : core (set_arc g a r) b = upd (core g) a (Some (a_cid r, a_inner r)) b.
Proof. unfold core, upd. cbn. unfold upd. destruct (b =? a); auto. Qed.

Lemma asub_set g a r r' : g_arc g a = Some r -> a_cid r' = a_cid r -> ext (a_inner r) (a_inner r') ->
  asub (core g) (core (set_arc g a r')).
Proof.
  intros Ha Ec X b c j Hb. rewrite core_set. revert Hb. ups a; intros Hb.
  - rewrite (core_arc _ _ _ Ha) in Hb. injection Hb as <- <-. exists (a_inner r'). rewrite Ec. auto.
  - exists j. split; auto. apply ext_refl.
Qed.

Lemma good_set g a r r' : good (core g) -> g_arc g a = Some r -> a_cid r' = a_cid r ->
  good_inner So tof (a_inner r') -> good (core (set_arc g a r')).
Proof.
  intros [G1 G2] Ha Ec Gi.
  assert (forall b c j, core (set_arc g a r') b = Some (c, j) -> exists j', core g b = Some (c, j')) as H.
  { intros b c j. rewrite core_set. ups a; intros E; [|eauto]. injection E as <- <-.
    rewrite Ec. exists (a_inner r). apply core_arc; auto. }
  split.
  - intros b d c j1 j2 H1 H2. apply H in H1 as [? H1], H2 as [? H2]. eapply G1; eauto.
  - intros b c j. rewrite core_set. ups a; intros E; [|eapply G2; eauto]. injection E as <- <-. auto.
Qed.

Lemma inv_arc g rho eta i a r r' c' h' :
  cinv g rho eta -> i < g_n g -> g_arc g a = Some r -> a_cid r' = a_cid r ->
  good_inner So tof (a_inner r') -> ext (a_inner r) (a_inner r') ->
  thr_ok (core (set_arc g a r')) (mkThread (t_refs (g_thr g i)) c') (rho i) h' ->
  ~ map_held (eta i) -> ~ map_held h' ->
  (forall b, eta i = HCtx b -> b = a) -> (forall b, h' = HCtx b -> b = a) -> In a (t_refs (g_thr g i)) ->
  (forall j, a_lock r' = Some j <-> upd eta i h' j = HCtx a) ->
  exists rho' eta', cinv (set_thr (set_arc g a r') i (mkThread (t_refs (g_thr g i)) c')) rho' eta'.
Proof.
  intros I Hi Ha Ec Gi X Ht N1 N2 E1 E2 Hin Hl. exists rho, (upd eta i h').
  pose proof (asub_set _ _ _ _ Ha Ec X) as Hs. 
  assert (forall j, t_refs (g_thr (set_thr (set_arc g a r') i (mkThread (t_refs (g_thr g i)) c')) j) =
                    t_refs (g_thr g j)) as Hr by (intros; apply refs_upd).
  pose proof (live_same _ _ Hr) as HL.
  assert (forall b s, g_arc (set_arc g a r') b = Some s -> exists s0, g_arc g b = Some s0 /\ a_cid s = a_cid s0) as Bk.
  { intros b s. cbn. ups a; intros E; [injection E as <-; exists r; auto|eauto]. }
  assert (forall b s, g_arc g b = Some s -> exists s0, g_arc (set_arc g a r') b = Some s0 /\ a_cid s0 = a_cid s) as Fw.
  { intros b s. cbn. ups a; intros E; [|eauto]. rewrite Ha in E. injection E as <-. eauto. }
  assert (forall j b, upd eta i h' j = HCtx b -> eta j = HCtx b \/ (j = i /\ b = a)) as Hc.
  { intros j b E. ups i; auto. }
  change (core (set_arc g a r')) with (core (set_thr (set_arc g a r') i (mkThread (t_refs (g_thr g i)) c'))) in *.
  split; auto.
  - apply (good_set g a r r'); auto. apply I.
  - intros b s Hb. apply Bk in Hb as (s0 & Hb & ->). apply (iv_cid _ _ _ I) in Hb. auto.
  - intros b Hb. pose proof (iv_addr _ _ _ I b Hb) as N. cbn in *. ups a; [congruence|auto].
  - intros j. replace (rho j) with (upd rho i (rho i) j) by (ups i; auto).
    apply thr_ok_upd with (A := core g) (th := g_thr g); auto. apply I.
  - intros j Hj. cbn in *. rewrite upd_ne by lia. apply I; auto.
  - intros j b Hb. rewrite Hr in Hb. apply (iv_refs _ _ _ I) in Hb as [s Hb]. apply Fw in Hb as (s0 & ? & _). eauto.
  - apply (mlock_same _ _ _ _ _ I). tauto.
  - intros b s j Hb. cbn in Hb. destruct (Nat.eq_dec b a) as [->|N].
    + rewrite upd_eq in Hb. injection Hb as <-. auto.
    + rewrite upd_ne in Hb by auto. rewrite (iv_alock _ _ _ I) by eauto.
      ups i; [|tauto]. split; intros E; [apply E1 in E|apply E2 in E]; congruence.
  - intros j b E. rewrite Hr. apply Hc in E as [E|[-> ->]]; auto. apply I; auto.
  - intros j b E. ups i; [contradict N2; right; eauto|].
    apply (iv_got _ _ _ I) in E as (s & Hb & E). apply Fw in Hb as (s0 & Hb & Es). exists s0. split; auto.
    cbn. rewrite Es. auto.
  - intros j c E. apply (iv_id _ _ _ I) in E as [E F']. split; auto. intros b s Hb.
    apply Bk in Hb as (s0 & Hb & ->). eauto.
  - apply I.
  - intros j b E. destruct (iv_new _ _ _ I _ _ E) as (M1 & (s & M2 & M3) & M4). rewrite Hr. split; auto. split.
    + apply Fw in M2 as (s0 & Hb & Es). exists s0. split; auto. cbn. rewrite Es; auto.
    + intros l. rewrite Hr. auto.
  - intros j b E. destruct (iv_dead _ _ _ I _ _ E) as ((s & M1) & M2). rewrite HL. split; auto.
    apply Fw in M1 as (s0 & ? & _). eauto.
  - apply I.
  - intros c b E. destruct (iv_map _ _ _ I _ _ E) as (s & M1 & <- & M3).
    apply Fw in M1 as (s0 & Hb & Es). exists s0. rewrite HL. auto.
  - intros j b s H1 H2. rewrite Hr in H1. apply Bk in H2 as (s0 & H2 & ->). eapply (iv_live _ _ _ I); eauto.
  - cbn. eapply Forall_impl; [|apply I]. intros x. apply valid_mono; auto.
  - cbn. eapply Forall_impl; [|apply I]. intros x. apply snap_mono; auto.
Qed.

Lemma inv_lock g rho eta i a k r : i < g_n g -> t_code (g_thr g i) = Some (Lock a k) -> g_arc g a = Some r ->
  a_lock r = None ->
  step_inv g (set_thr (set_arc g a (mkArc (a_cid r) (a_inner r) (Some i) (a_poison r))) i
                (mkThread (t_refs (g_thr g i)) (Some (k (a_poison r))))) rho eta.
Proof.
  intros Hi Hc Ha Hl I. destruct (get_thr _ _ _ _ _ I Hc) as [(R & H & Hin & O) _].
  destruct (O (a_poison r)) as [U O'].
  eapply inv_arc with (rho := rho) (eta := eta) (h' := HCtx a); eauto; cbn [a_cid a_inner a_lock].
  - eapply (proj2 (iv_good _ _ _ I)). apply core_arc. eauto.
  - apply ext_refl.
  - rewrite R. split; auto. eapply ok_mono; [|apply O'].
    eapply asub_set; eauto. apply ext_refl.
  - rewrite H. apply map_held_none.
  - intros [E|[b E]]; discriminate.
  - rewrite H; discriminate.
  - intros b E. congruence.
  - intros j. ups i; [tauto|]. rewrite <- (iv_alock _ _ _ I) by eauto. rewrite Hl. split; congruence.
Qed.

Lemma inv_access g rho eta i a f k r : i < g_n g -> t_code (g_thr g i) = Some (Access a f k) -> g_arc g a = Some r ->
  step_inv g (set_thr (set_arc g a (mkArc (a_cid r) (f (a_cid r) (a_inner r)) (a_lock r) (a_poison r))) i
                (mkThread (t_refs (g_thr g i)) (Some (k (a_cid r) (a_inner r))))) rho eta.
Proof.
  intros Hi Hc Ha I. destruct (get_thr _ _ _ _ _ I Hc) as [(R & H & O) U].
  destruct (O (core g) (a_cid r) (a_inner r) (asub_refl _) (iv_good _ _ _ I) (core_arc _ _ _ Ha)) as (O1 & O2 & O3).
  eapply inv_arc with (rho := rho) (eta := eta) (h' := HCtx a); eauto; cbn [a_cid a_inner a_lock].
  - rewrite R. split; [|intros _; apply unlocks_acc with a f; apply U; congruence].
    eapply ok_mono; [|exact O3]. intros b c j E. exists j. rewrite core_set. split; auto. apply ext_refl.
  - rewrite H. intros [E|[b E]]; discriminate.
  - intros [E|[b E]]; discriminate.
  - rewrite H; congruence.
  - congruence.
  - apply I; auto.
  - intros j. rewrite (iv_alock _ _ _ I) by eauto. ups i; [rewrite H|]; tauto.
Qed.

Lemma inv_unlock g rho eta i a p k r : i < g_n g -> t_code (g_thr g i) = Some (Unlock a p k) -> g_arc g a = Some r ->
  step_inv g (set_thr (set_arc g a (mkArc (a_cid r) (a_inner r) None (a_poison r || p))) i
                (mkThread (t_refs (g_thr g i)) (Some k))) rho eta.
Proof.
  intros Hi Hc Ha I. destruct (get_thr _ _ _ _ _ I Hc) as [(R & H & O) U].
  assert (forall j, eta j = HCtx a -> j = i) as One.
  { intros j Hj. apply (iv_alock _ _ _ I _ _ _ Ha) in Hj, H. congruence. }
  eapply inv_arc with (rho := rho) (eta := eta) (h' := HNone); eauto; cbn [a_cid a_inner a_lock].
  - eapply (proj2 (iv_good _ _ _ I)). apply core_arc. eauto.
  - apply ext_refl.
  - rewrite R. split; [|congruence]. eapply ok_mono; [|exact O]. eapply asub_set; eauto. apply ext_refl.
  - rewrite H. intros [E|[b E]]; discriminate.
  - apply map_held_none.
  - rewrite H; congruence.
  - discriminate.
  - apply I; auto.
  - intros j. ups i; [split; discriminate|]. split; [discriminate|]. intros E. apply One in E. contradiction.
Qed.

(** ** Steps that change who owns what *)
Lemma inv_upgrade_yes g rho eta i a k : i < g_n g -> t_code (g_thr g i) = Some (Upgrade a k) -> owned g a = true ->
  step_inv g (set_thr g i (mkThread (a :: t_refs (g_thr g i)) (Some (k true)))) rho eta.
Proof.
  intros Hi Hc Ho I. destruct (get_thr _ _ _ _ _ I Hc) as [(R & H & O & _) U].
  assert (eta i <> HNone) as Hn by congruence. specialize (U Hn).
  apply (owned_live _ _ _ _ I) in Ho. destruct (iv_got _ _ _ I _ _ H) as (r & Ha & Hm).
  exists rho, (upd eta i HMap).
  set (g' := set_thr _ _ _).
  assert (forall j b, In b (t_refs (g_thr g' j)) -> In b (t_refs (g_thr g j)) \/ (j = i /\ b = a)) as Bk.
  { intros j b. cbn. ups i; cbn; intros; intuition. }
  assert (forall j b, In b (t_refs (g_thr g j)) -> In b (t_refs (g_thr g' j))) as Fw.
  { intros j b. cbn. ups i; cbn; auto. }
  assert (forall b, live g' b <-> live g b) as HL.
  { intros b. split; intros [j Hj]; [|exists j; auto]. apply Bk in Hj as [Hj|[-> ->]]; auto. exists j; auto. }
  split; try apply I.
  - intros j. replace (rho j) with (upd rho i (rho i) j) by (ups i; auto).
    apply thr_ok_upd with (A := core g); [apply I|apply asub_refl|]. rewrite R. split; auto.
    intros _. exact (unlocks_upg _ _ _ U).
  - intros j Hj. cbn in *. rewrite upd_ne by lia. apply I; auto.
  - intros j b Hb. apply Bk in Hb as [Hb|[-> ->]]; [eapply (iv_refs _ _ _ I); eauto|eauto].
  - apply (mlock_same _ _ _ _ _ I). rewrite H. unfold map_held. split; eauto.
  - intros b s j Hb. rewrite (iv_alock _ _ _ I) by eauto. ups i; [|tauto]. rewrite H. split; discriminate.
  - intros j b E. apply Fw. ups i; [discriminate|]. apply I; auto.
  - intros j b E. ups i; [discriminate|]. eapply (iv_got _ _ _ I); eauto.
  - intros j b E. destruct (iv_new _ _ _ I _ _ E) as (M1 & (s & M2 & M3) & M4). split; auto. split; [eauto|].
    intros l Hl. apply Bk in Hl as [Hl|[-> ->]]; auto. congruence.
  - intros j b E. rewrite HL. apply (iv_dead _ _ _ I _ _ E).
  - intros c b E. destruct (iv_map _ _ _ I _ _ E) as (s & M1 & M2 & M3). exists s. rewrite HL. auto.
  - intros j b s H1 H2. assert (live g b) as [l Hl] by (apply HL; exists j; auto). eapply (iv_live _ _ _ I); eauto.
Qed.

Lemma inv_upgrade_no g rho eta i a k : i < g_n g -> t_code (g_thr g i) = Some (Upgrade a k) ->
  step_inv g (set_thr g i (mkThread (t_refs (g_thr g i)) (Some (k false)))) rho eta.
Proof.
  intros Hi Hc I. destruct (get_thr _ _ _ _ _ I Hc) as [(R & H & _ & O) U].
  assert (eta i <> HNone) as Hn by congruence. specialize (U Hn).
  flat. apply plain_role with (rho := rho) (eta := eta) (h' := HMap); auto; try apply I; try discriminate.
  - rewrite R. split; auto. intros _. exact (unlocks_upg _ _ _ U).
  - apply (mlock_same _ _ _ _ _ I). rewrite H. unfold map_held. split; eauto.
  - intros b. rewrite H. split; discriminate.
Qed.

Lemma inv_decr g rho eta i a k : i < g_n g -> t_code (g_thr g i) = Some (Decr a k) ->
  let g1 := set_thr g i (mkThread (remove1 a (t_refs (g_thr g i))) None) in
  step_inv g (set_thr g1 i (mkThread (remove1 a (t_refs (g_thr g i))) (Some (k (negb (owned g1 a)))))) rho eta.
Proof.
  intros Hi Hc g1 I. destruct (get_thr _ _ _ _ _ I Hc) as [(R & H & Hin & O1 & O2) _].
  set (b := owned g1 a). set (g' := set_thr g1 _ _).
  assert (forall j c, In c (t_refs (g_thr g' j)) -> In c (t_refs (g_thr g j))) as Bk.
  { intros j c. cbn. ups i; cbn; auto. apply in_remove1. }
  assert (forall j c, c <> a -> In c (t_refs (g_thr g j)) -> In c (t_refs (g_thr g' j))) as Fw.
  { intros j c N. cbn. ups i; cbn; auto. apply in_remove1_ne; auto. }
  assert (forall j c, j <> i -> In c (t_refs (g_thr g j)) -> In c (t_refs (g_thr g' j))) as Fw'.
  { intros j c N. cbn. rewrite !upd_ne by auto. auto. }
  assert (forall c, live g' c -> live g c) as HL by (intros c [j Hj]; exists j; auto).
  assert (forall c, c <> a -> live g c -> live g' c) as HL' by (intros c N [j Hj]; exists j; auto).
  assert (b = true <-> live g' a) as Hb.
  { unfold b, owned, live. rewrite existsb_exists. split.
    - intros (j & _ & E). apply existsb_exists in E as (d & E & E'). apply Nat.eqb_eq in E' as <-. exists j.
      revert E. cbn. ups i; auto.
    - intros (j & Hj). exists j. split.
      + apply in_seq. cbn. destruct (Nat.lt_ge_cases j (g_n g)); [lia|].
        apply Bk in Hj. rewrite (iv_out _ _ _ I) in Hj by auto. destruct Hj.
      + apply existsb_exists. exists a. split; [|apply Nat.eqb_refl]. revert Hj. cbn. ups i; auto. }
  set (r' := if b then RNone else RDead a).
  exists (upd rho i r'), (upd eta i HNone).
  assert (forall j c, upd rho i r' j = RId c -> rho j = RId c) as Rid.
  { intros j c. ups i; auto. unfold r'. destruct b; discriminate. }
  assert (forall j c, upd rho i r' j = RNew c -> j <> i /\ rho j = RNew c) as Rnew.
  { intros j c. ups i; auto. unfold r'. destruct b; discriminate. }
  assert (forall j c, upd rho i r' j = RDead c -> (rho j = RDead c /\ j <> i) \/ (j = i /\ c = a /\ b = false)) as Rdead.
  { intros j c. ups i; auto. unfold r'. destruct b; [discriminate|]. intros E. injection E as <-. auto. }
  split; try apply I.
  - change (core g') with (core g). intros j. unfold g', g1, set_thr. cbn [g_thr].
    replace (upd (upd (g_thr g) i (mkThread (remove1 a (t_refs (g_thr g i))) None)) i
               (mkThread (remove1 a (t_refs (g_thr g i))) (Some (k (negb b)))) j)
      with (upd (g_thr g) i (mkThread (remove1 a (t_refs (g_thr g i))) (Some (k (negb b)))) j)
      by (unfold upd; destruct (j =? i); auto).
    apply thr_ok_upd with (A := core g); [apply I|apply asub_refl|].
    unfold r'. destruct b; split; auto; congruence.
  - intros j Hj. cbn in *. rewrite !upd_ne by lia. apply I; auto.
  - intros j c Hj. eapply (iv_refs _ _ _ I); eauto.
  - apply (mlock_same _ _ _ _ _ I). rewrite H. tauto.
  - intros c s j Hs. rewrite (iv_alock _ _ _ I) by eauto. ups i; [|tauto]. rewrite H. split; discriminate.
  - intros j c E. ups i; [discriminate|]. apply Fw'; auto. apply I; auto.
  - intros j c E. ups i; [discriminate|]. eapply (iv_got _ _ _ I); eauto.
  - intros j c E. apply Rid in E. eapply (iv_id _ _ _ I); eauto.
  - intros j l c E1 E2. apply Rid in E1, E2. eapply (iv_id1 _ _ _ I); eauto.
  - intros j c E. apply Rnew in E as [N E]. destruct (iv_new _ _ _ I _ _ E) as (M1 & M2 & M4).
    split; auto.
  - intros j c E. apply Rdead in E as [[E N]|(-> & -> & E)].
    + destruct (iv_dead _ _ _ I _ _ E) as [M1 M2]. split; auto.
    + split; [eapply (iv_refs _ _ _ I); eauto|]. rewrite <- Hb. congruence.
  - intros j l c E1 E2. apply Rdead in E1 as [[E1 N1]|(-> & -> & E1)], E2 as [[E2 N2]|(-> & E2' & E2)]; auto.
    + eapply (iv_dead1 _ _ _ I); eauto.
    + subst c. apply (iv_dead _ _ _ I) in E1 as [_ E1]. contradict E1. exists i; auto.
    + apply (iv_dead _ _ _ I) in E2 as [_ E2]. contradict E2. exists i; auto.
  - intros c d E. destruct (iv_map _ _ _ I _ _ E) as (s & M1 & M2 & M3). exists s. repeat split; auto.
    destruct M3 as [M3|[l M3]].
    + destruct (Nat.eq_dec d a) as [->|N]; auto. destruct b eqn:Eb.
      * left. apply Hb; auto.
      * right. exists i. rewrite upd_eq. auto.
    + right. exists l. ups i; auto. congruence.
  - intros j c s H1 H2. apply Bk in H1. destruct (iv_live _ _ _ I _ _ _ H1 H2) as [M|[l M]]; auto.
    right. exists l. ups i; auto. congruence.
Qed.

Lemma inv_alloc g rho eta i c k : i < g_n g -> t_code (g_thr g i) = Some (Alloc c k) ->
  step_inv g (mkSys (g_next g) (g_map g) (g_mlock g) (g_anext g + 1)
              (upd (g_arc g) (g_anext g) (Some (mkArc c (mkInner [] [] [] []) None false))) (g_n g)
              (upd (g_thr g) i (mkThread (g_anext g :: t_refs (g_thr g i)) (Some (k (g_anext g)))))
              (g_vars g) (g_tapes g)) rho eta.
Proof.
  intros Hi Hc I. destruct (get_thr _ _ _ _ _ I Hc) as [(R & H & O) _].
  set (a := g_anext g). set (r := mkArc _ _ _ _). set (g' := mkSys _ _ _ _ _ _ _ _ _).
  assert (g_arc g a = None) as Ha by (apply I; unfold a; lia).
  destruct (iv_id _ _ _ I _ _ R) as [Hcn Hcf].
  assert (forall b d j, core g b = Some (d, j) -> core g' b = Some (d, j)) as Cf.
  { intros b d j E. unfold core in *. cbn. ups a; [rewrite Ha in E; discriminate|auto]. }
  assert (asub (core g) (core g')) as Hs.
  { intros b d j E. exists j. split; auto. apply ext_refl. }
  assert (core g' a = Some (c, mkInner [] [] [] [])) as Ca by (unfold core; cbn; rewrite upd_eq; auto).
  assert (forall b d j, core g' b = Some (d, j) -> (b = a /\ d = c /\ j = mkInner [] [] [] []) \/ core g b = Some (d, j)) as Cb.
  { intros b d j. unfold core. cbn. ups a; auto. intros E. injection E as <- <-. auto. }
  assert (forall b s, g_arc g' b = Some s -> (b = a /\ s = r) \/ g_arc g b = Some s) as Ab.
  { intros b s. cbn. ups a; auto. intros E. injection E as <-. auto. }
  assert (forall b s, g_arc g b = Some s -> g_arc g' b = Some s) as Af.
  { intros b s E. cbn. ups a; auto. congruence. }
  assert (forall j b, In b (t_refs (g_thr g j)) -> b <> a) as Nr.
  { intros j b E ->. apply (iv_refs _ _ _ I) in E as [s E]. congruence. }
  assert (forall j b, In b (t_refs (g_thr g' j)) -> In b (t_refs (g_thr g j)) \/ (j = i /\ b = a)) as Bk.
  { intros j b. cbn. ups i; cbn; intros; intuition. }
  assert (forall j b, In b (t_refs (g_thr g j)) -> In b (t_refs (g_thr g' j))) as Fw.
  { intros j b. cbn. ups i; cbn; auto. }
  assert (forall b, live g b -> live g' b) as HL by (intros b [j Hj]; exists j; auto).
  exists (upd rho i (RNew a)), (upd eta i HNone).
  split; auto.
  - destruct (iv_good _ _ _ I) as [G1 G2]. split.
    + intros b d e j l E1 E2. apply Cb in E1 as [(-> & -> & ->)|E1], E2 as [(-> & E & ->)|E2]; auto.
      * exfalso. unfold core in E2. destruct (g_arc g d) as [s|] eqn:Es; [|discriminate].
        injection E2 as E2 _. apply (Hcf _ _ Es). auto.
      * exfalso. subst e. unfold core in E1. destruct (g_arc g b) as [s|] eqn:Es; [|discriminate].
        injection E1 as E1 _. apply (Hcf _ _ Es). auto.
      * eapply G1; eauto.
    + intros b d j E. apply Cb in E as [(-> & -> & ->)|E]; [|eapply G2; eauto].
      split; [apply recorded_empty|]. intros o [].
  - intros b s E. apply Ab in E as [[-> ->]|E]; [auto|]. apply (iv_cid _ _ _ I) in E. auto.
  - intros b E. cbn in *. rewrite upd_ne by lia. apply I. lia.
  - apply thr_ok_upd with (A := core g); auto; [apply I|]. split; [|congruence].
    cbn [t_refs]. apply (O (core g') a (mkInner [] [] [] [])); auto.
  - intros j Hj. cbn in *. rewrite upd_ne by lia. apply I; auto.
  - intros j b E. apply Bk in E as [E|[-> ->]].
    + apply (iv_refs _ _ _ I) in E as [s E]. eauto.
    + exists r. cbn. rewrite upd_eq. auto.
  - apply (mlock_same _ _ _ _ _ I). rewrite H. tauto.
  - intros b s j E. apply Ab in E as [[-> ->]|E].
    + cbn. split; [discriminate|]. ups i; [discriminate|]. intros E. apply (iv_ctx _ _ _ I) in E. destruct (Nr _ _ E); auto.
    + rewrite (iv_alock _ _ _ I) by eauto. ups i; [|tauto]. rewrite H. split; discriminate.
  - intros j b E. apply Fw. ups i; [discriminate|]. apply I; auto.
  - intros j b E. ups i; [discriminate|]. apply (iv_got _ _ _ I) in E as (s & E1 & E2). eauto.
  - intros j d E. ups i; [discriminate|]. destruct (iv_id _ _ _ I _ _ E) as [E1 E2]. split; auto.
    intros b s Es. apply Ab in Es as [[-> ->]|Es]; [|eauto]. cbn. intros ->. 
    assert (j = i) by (eapply (iv_id1 _ _ _ I); eauto). contradiction.
  - intros j l d E1 E2. ups i; try discriminate; auto. eapply (iv_id1 _ _ _ I); eauto.
  - intros j b E. ups i.
    + injection E as <-. split; [cbn; rewrite upd_eq; left; auto|]. split.
      * exists r. split; [cbn; rewrite upd_eq; auto|]. cbn.
        destruct (g_map g c) as [b|] eqn:Em; auto. apply (iv_map _ _ _ I) in Em as (s & E1 & E2 & _).
        destruct (Hcf _ _ E1); auto.
      * intros l Hl. apply Bk in Hl as [Hl|[-> _]]; auto. destruct (Nr _ _ Hl); auto.
    + destruct (iv_new _ _ _ I _ _ E) as (M1 & (s & M2 & M3) & M4). split; auto. split; [eauto|].
      intros l Hl. apply Bk in Hl as [Hl|[-> ->]]; auto. destruct (Nr _ _ M1); auto.
  - intros j b E. ups i; [discriminate|]. destruct (iv_dead _ _ _ I _ _ E) as [[s M1] M2]. split; [eauto|].
    intros [l Hl]. apply Bk in Hl as [Hl|[-> ->]]; [apply M2; exists l; auto|congruence].
  - intros j l d E1 E2. ups i; try discriminate; auto. eapply (iv_dead1 _ _ _ I); eauto.
  - intros d b E. destruct (iv_map _ _ _ I _ _ E) as (s & M1 & M2 & M3). exists s. repeat split; auto.
    destruct M3 as [M3|[l M3]]; auto. right. exists l. ups i; congruence.
  - intros j b s H1 H2. apply Bk in H1 as [H1|[-> ->]].
    + apply Ab in H2 as [[-> ->]|H2]; [destruct (Nr _ _ H1); auto|].
      destruct (iv_live _ _ _ I _ _ _ H1 H2) as [M|[l M]]; auto. right. exists l. ups i; congruence.
    + right. exists i. rewrite upd_eq. auto.
  - cbn. eapply Forall_impl; [|apply I]. intros x. apply valid_mono; auto.
  - cbn. eapply Forall_impl; [|apply I]. intros x. apply snap_mono; auto.
Qed.

(** ** Every step *)
Lemma micro_inv g rho eta i g' : i < g_n g -> micro g i = Some g' -> step_inv g g' rho eta.
Proof.
  intros Hi. unfold micro. destruct (t_code (g_thr g i)) as [c|] eqn:Hc; [|discriminate].
  destruct c; intros E; try (injection E as <-).
  - apply inv_ret; auto.
  - apply inv_fetch; auto.
  - apply inv_alloc; auto.
  - destruct (g_mlock g) eqn:Em; [discriminate|]. injection E as <-. apply inv_mlock; auto.
  - apply inv_minsert with (a := a); auto.
  - apply inv_mget; auto.
  - destruct (g_arc g a) as [r|] eqn:Ea; [|discriminate]. injection E as <-. eapply inv_mremove; eauto.
  - apply inv_munlock; auto.
  - destruct (owned g a) eqn:Eo; injection E as <-; [apply inv_upgrade_yes|eapply inv_upgrade_no]; eauto.
  - apply inv_decr; auto.
  - destruct (g_arc g a) as [r|] eqn:Ea; [|discriminate]. destruct (a_lock r) eqn:El; [discriminate|].
    injection E as <-. apply inv_lock; auto.
  - destruct (g_arc g a) as [r|] eqn:Ea; [|discriminate]. injection E as <-. apply inv_access; auto.
  - destruct (g_arc g a) as [r|] eqn:Ea; [|discriminate]. injection E as <-. apply inv_unlock; auto.
Qed.

Lemma inv_begin g rho eta i c g' : i < g_n g ->
  (cinv g rho eta -> ok (core g) RNone HNone (t_refs (g_thr g i)) c) ->
  begin g i c = Some g' -> step_inv g g' rho eta.
Proof.
  intros Hi Hok. unfold begin. destruct (t_code (g_thr g i)) eqn:Hc; [discriminate|]. intros E I.
  injection E as <-. specialize (Hok I).
  pose proof (iv_thr _ _ _ I i) as T. unfold thr_ok in T. rewrite Hc in T. destruct T as [R H].
  flat. apply plain_role with (rho := rho) (eta := eta) (h' := HNone); auto; try apply I; try discriminate.
  - rewrite R. split; auto; congruence.
  - apply (mlock_same _ _ _ _ _ I). rewrite H. tauto.
  - intros a. rewrite H. tauto.
Qed.

Lemma inv_var g rho eta x : (cinv g rho eta -> valid (core g) x) -> step_inv g (add_var g x) rho eta.
Proof.
  intros Hv I. specialize (Hv I). exists rho, eta. destruct I. split; auto.
  cbn. apply Forall_app. split; auto.
Qed.

Lemma inv_send g rho eta i j a : i < g_n g -> j < g_n g -> t_code (g_thr g i) = None -> t_code (g_thr g j) = None ->
  In a (t_refs (g_thr g i)) ->
  let g1 := set_thr g i (mkThread (remove1 a (t_refs (g_thr g i))) None) in
  step_inv g (set_thr g1 j (mkThread (a :: t_refs (g_thr g1 j)) None)) rho eta.
Proof.
  intros Hi Hj Ci Cj Hin g1 I. set (g' := set_thr g1 _ _).
  pose proof (iv_thr _ _ _ I i) as Ti. unfold thr_ok in Ti. rewrite Ci in Ti. destruct Ti as [Ri Ni].
  pose proof (iv_thr _ _ _ I j) as Tj. unfold thr_ok in Tj. rewrite Cj in Tj. destruct Tj as [Rj Nj].
  assert (forall l b, In b (t_refs (g_thr g' l)) -> In b (t_refs (g_thr g l)) \/ (l = j /\ b = a)) as Bk.
  { intros l b. cbn. ups j; cbn.
    - intros [H|H]; auto. left. revert H. ups i; cbn; auto. apply in_remove1.
    - intros H. left. revert H. ups i; cbn; auto. apply in_remove1. }
  assert (forall l b, In b (t_refs (g_thr g l)) -> (l = i /\ b = a) \/ In b (t_refs (g_thr g' l))) as Fw.
  { intros l b H. destruct (Nat.eq_dec b a) as [->|N].
    - destruct (Nat.eq_dec l i) as [->|N']; auto. right. cbn. ups j; cbn; auto.
    - right. cbn. ups j; cbn.
      + right. ups i; cbn; auto. apply in_remove1_ne; auto.
      + ups i; cbn; auto. apply in_remove1_ne; auto. }
  assert (live g' a) as La by (exists j; cbn; rewrite upd_eq; left; auto).
  assert (forall b, live g' b <-> live g b) as HL.
  { intros b. split; intros [l Hl].
    - apply Bk in Hl as [Hl|[-> ->]]; [exists l|exists i]; auto.
    - apply Fw in Hl as [[-> ->]|Hl]; auto. exists l; auto. }
  assert (forall l, t_code (g_thr g' l) = t_code (g_thr g l)) as Hc.
  { intros l. cbn. ups j; cbn; auto. ups i; cbn; auto. }
  assert (forall l, l <> i -> l <> j -> g_thr g' l = g_thr g l) as Ht.
  { intros l N1 N2. cbn. rewrite !upd_ne; auto. }
  exists rho, eta. split; try apply I.
  - intros l. destruct (Nat.eq_dec l i) as [->|N1]; [|destruct (Nat.eq_dec l j) as [->|N2]].
    + unfold thr_ok. rewrite Hc, Ci. auto.
    + unfold thr_ok. rewrite Hc, Cj. auto.
    + rewrite Ht by auto. apply I.
  - intros l Hl. cbn in Hl. rewrite Ht by lia. apply I; auto.
  - intros l b Hl. apply Bk in Hl as [Hl|[-> ->]]; eapply (iv_refs _ _ _ I); eauto.
  - intros l b E. apply (iv_ctx _ _ _ I) in E as E'. apply Fw in E' as [[-> ->]|]; auto. congruence.
  - intros l b E. destruct (iv_new _ _ _ I _ _ E) as (M1 & M2 & M3). split.
    + apply Fw in M1 as [[-> ->]|]; auto. congruence.
    + split; auto. intros m Hm. apply Bk in Hm as [Hm|[-> ->]]; auto. apply M3 in Hin. subst l. congruence.
  - intros l b E. rewrite HL. apply (iv_dead _ _ _ I _ _ E).
  - intros c b E. destruct (iv_map _ _ _ I _ _ E) as (s & M1 & M2 & M3). exists s. rewrite HL. auto.
  - intros l b s H1 H2. assert (live g b) as [m Hm] by (apply HL; exists l; auto). eapply (iv_live _ _ _ I); eauto.
Qed.

Lemma inv_spawn g rho eta :
  step_inv g (mkSys (g_next g) (g_map g) (g_mlock g) (g_anext g) (g_arc g) (g_n g + 1)
                (upd (g_thr g) (g_n g) (mkThread [] None)) (g_vars g) (g_tapes g)) rho eta.
Proof.
  intros I. set (g' := mkSys _ _ _ _ _ _ _ _ _).
  assert (forall j, g_thr g' j = g_thr g j) as E.
  { intros j. cbn. ups (g_n g); auto. symmetry. apply I. auto. }
  assert (forall a, live g' a <-> live g a) as HL by (apply live_same; intros; rewrite E; auto).
  exists rho, eta. split; try apply I.
  - intros j. rewrite E. apply I.
  - intros j Hj. rewrite E. apply I. cbn in Hj. lia.
  - intros j a. rewrite E. apply I.
  - intros j a. rewrite E. apply I.
  - intros j a H. rewrite E. destruct (iv_new _ _ _ I _ _ H) as (M1 & M2 & M3). repeat split; auto.
    intros l. rewrite E. auto.
  - intros j a H. rewrite HL. apply (iv_dead _ _ _ I _ _ H).
  - intros c a H. destruct (iv_map _ _ _ I _ _ H) as (s & M1 & M2 & M3). exists s. rewrite HL. auto.
  - intros j a r. rewrite E. apply I.
Qed.

Lemma vars_valid g rho eta k x : cinv g rho eta -> nth_error (g_vars g) k = Some x -> valid (core g) x.
Proof.
  intros I H. apply nth_error_In in H. pose proof (iv_vars _ _ _ I) as V. rewrite Forall_forall in V. auto.
Qed.

Lemma step_keeps g rho eta i m g' : step So tof g i m = Some g' -> step_inv g g' rho eta.
Proof.
  unfold step. destruct (Nat.ltb_spec i (g_n g)) as [Hi|]; [|discriminate].
  destruct m as [| |c|a|a x|a x|a|oc x y|v dv|x dv|a j|]; intros E.
  - eapply micro_inv; eauto.
  - eapply inv_begin; eauto. intros _. apply ok_new.
  - eapply inv_begin; eauto. intros _. apply ok_from_cid; [cbn; auto|]. intros; cbn; auto.
  - destruct (has a _) eqn:Eh; [|discriminate]. apply has_in in Eh.
    eapply inv_begin; eauto. intros _. apply ok_drop; cbn; auto.
  - destruct (nth_error (g_vars g) x) as [x'|] eqn:Ex; [|discriminate].
    destruct (has a _) eqn:Eh; [|discriminate]. apply has_in in Eh.
    eapply inv_begin; eauto. intros _. apply ok_indep; auto.
  - destruct (nth_error (g_vars g) x) as [x'|] eqn:Ex; [|discriminate].
    destruct (has a _) eqn:Eh; [|discriminate]. apply has_in in Eh.
    eapply inv_begin; eauto. intros I. apply ok_dep; auto. eapply vars_valid; eauto.
  - destruct (has a _) eqn:Eh; [|discriminate]. apply has_in in Eh.
    eapply inv_begin; eauto. intros _. apply ok_tape; auto.
  - destruct (right_arity oc y) eqn:Er; [|discriminate].
    destruct (nth_error (g_vars g) x) as [x'|] eqn:Ex; [|discriminate].
    destruct y as [y|].
    + destruct (nth_error (g_vars g) y) as [y'|] eqn:Ey; [|discriminate].
      eapply inv_begin; eauto. intros I. apply ok_from_op; auto.
      * eapply vars_valid; eauto.
      * intros z Ez. injection Ez as <-. eapply vars_valid; eauto.
    + eapply inv_begin; eauto. intros I. apply ok_from_op; auto.
      * eapply vars_valid; eauto.
      * intros y' Ey. discriminate Ey.
  - destruct (t_code _); [discriminate|]. injection E as <-. apply inv_var. intros _. cbn. auto.
  - destruct (t_code _); [discriminate|]. destruct (nth_error (g_vars g) x) as [x'|] eqn:Ex; [|discriminate].
    injection E as <-. apply inv_var. intros I. apply (vars_valid _ _ _ _ _ I) in Ex. exact Ex.
  - destruct (t_code (g_thr g i)) eqn:Ci; [discriminate|]. destruct (t_code (g_thr g j)) eqn:Cj; [discriminate|].
    destruct (has a _) eqn:Eh; cbn [andb] in E; [|discriminate]. apply has_in in Eh.
    destruct (Nat.ltb_spec j (g_n g)); [|discriminate]. injection E as <-. apply inv_send; auto.
  - destruct (t_code _); [discriminate|]. injection E as <-. apply inv_spawn.
Qed.

Lemma play_inv s : forall g rho eta g', play So tof g s = Some g' -> cinv g rho eta ->
  exists rho' eta', cinv g' rho' eta'.
Proof.
  induction s as [|[i m] s IH]; cbn; intros g rho eta g' H I.
  - injection H as <-. eauto.
  - destruct (step So tof g i m) as [g1|] eqn:E; [|discriminate].
    destruct (step_keeps _ _ _ _ _ _ E I) as (rho1 & eta1 & I1). eauto.
Qed.

Theorem reachable_inv g : reachable So tof g -> exists rho eta, cinv g rho eta.
Proof. intros [s H]. eapply play_inv; eauto. apply inv0. Qed.

End Inv.
