(** Overwritten values and the structure of recordings: forgetting all numbers turns a process with
    value_mut into one without (value_mut becomes dvalue_mut), so what holds there about ids, locks,
    the registry and the shape of tapes holds here. *)
From Coq Require Import List Arith ZArith Bool Lia.
From Verif Require Import Base Float Operation Tape AContext AContextFacts Spec Ffi Concurrent ConcSpec ConcWrite.
Import ListNotations.

(** Arithmetic without information. *)
Definition uops : Fops unit :=
  mkFops unit tt tt tt (fun _ => tt) (fun _ _ => tt) (fun _ _ => tt) (fun _ _ => tt) (fun _ _ => tt)
    (fun _ => tt) (fun _ => tt) (fun _ => tt) (fun _ => tt) (fun _ => tt) (fun _ => tt) (fun _ => tt) (fun _ => tt)
    (fun _ => tt) (fun _ => tt) (fun _ => tt) (fun _ _ => tt) (fun _ _ => tt) (fun _ _ => true) (fun _ _ => false).

Section Erase.
Context {S F : Type} (So : Fops S) (tof : S -> option F) (total : forall s, tof s <> None).

Definition er_inner (i : inner F) : inner unit :=
  mkInner (i_indeps i) (i_deps i) (i_ops i) (map (fun _ => tt) (i_vals i)).
Definition er_tape (t : tape F) : tape unit :=
  mkTape (t_indeps t) (t_deps t) (t_ops t) (map (fun _ => tt) (t_vals t)).
Definition er_af (x : AF S) : AF unit := mkAF tt tt (af_ctx x).
Definition er_ret (r : ret S F) : ret unit unit :=
  match r with RUnit => RUnit | RVar x => RVar (er_af x) | RTape t => RTape (er_tape t) | RPanic p => RPanic p end.
Definition er_arc (r : arc F) : arc unit := mkArc (a_cid r) (er_inner (a_inner r)) (a_lock r) (a_poison r).

Inductive crel : code S F -> code unit unit -> Prop :=
| cr_ret r : crel (Ret r) (Ret (er_ret r))
| cr_fetch k k' : (forall n, crel (k n) (k' n)) -> crel (Fetch k) (Fetch k')
| cr_alloc c k k' : (forall n, crel (k n) (k' n)) -> crel (Alloc c k) (Alloc c k')
| cr_mlock k k' : crel k k' -> crel (MLock k) (MLock k')
| cr_minsert c a k k' : crel k k' -> crel (MInsert c a k) (MInsert c a k')
| cr_mget c k k' : (forall o, crel (k o) (k' o)) -> crel (MGet c k) (MGet c k')
| cr_mremove a k k' : crel k k' -> crel (MRemove a k) (MRemove a k')
| cr_munlock k k' : crel k k' -> crel (MUnlock k) (MUnlock k')
| cr_upgrade a k k' : (forall b, crel (k b) (k' b)) -> crel (Upgrade a k) (Upgrade a k')
| cr_decr a k k' : (forall b, crel (k b) (k' b)) -> crel (Decr a k) (Decr a k')
| cr_lock a k k' : (forall b, crel (k b) (k' b)) -> crel (Lock a k) (Lock a k')
| cr_access a f f' k k' : (forall c i, er_inner (f c i) = f' c (er_inner i)) ->
    (forall c i, crel (k c i) (k' c (er_inner i))) -> crel (Access a f k) (Access a f' k')
| cr_unlock a p k k' : crel k k' -> crel (Unlock a p k) (Unlock a p k').

Inductive orel {A B : Type} (R : A -> B -> Prop) : option A -> option B -> Prop :=
| or_none : orel R None None
| or_some a b : R a b -> orel R (Some a) (Some b).

(** *** The API calls *)
Inductive brel {B B' : Type} (R : B -> B' -> Prop) : res (B * inner F) -> res (B' * inner unit) -> Prop :=
| br_ok b b' i : R b b' -> brel R (Ok (b, i)) (Ok (b', er_inner i))
| br_panic p : brel R (Panic p) (Panic p).
Inductive rrel' {B B' : Type} (R : B -> B' -> Prop) : res B -> res B' -> Prop :=
| rr_ok b b' : R b b' -> rrel' R (Ok b) (Ok b')
| rr_panic p : rrel' R (Panic p) (Panic p).

Lemma crit_rel {B B'} (R : B -> B' -> Prop) a body body' k k' :
  (forall c i, brel R (body c i) (body' c (er_inner i))) ->
  (forall r r', rrel' R r r' -> crel (k r) (k' r')) ->
  crel (crit a body k) (crit a body' k').
Proof.
  intros HB HK. unfold crit. constructor. intros [|].
  - constructor. apply HK. constructor.
  - constructor.
    + intros c i. destruct (HB c i); auto.
    + intros c i. destruct (HB c i); constructor; apply HK; constructor; auto.
Qed.

Lemma tof_some s : exists v, tof s = Some v.
Proof. destruct (tof s) eqn:E; eauto. destruct (total _ E). Qed.

Lemma er_push indeps deps ops vals v :
  mkInner indeps deps ops (map (fun _ => tt) vals ++ [tt]) = er_inner (mkInner indeps deps ops (vals ++ [v])).
Proof. unfold er_inner. cbn. rewrite map_app. reflexivity. Qed.

Lemma indep_rel a x : crel (c_set_indep tof a x) (c_set_indep Some a (er_af x)).
Proof.
  apply crit_rel with (R := fun y y' => y' = er_af y).
  - intros c i. unfold body_indep. destruct (tof_some (af_v x)) as [v ->]. cbn. rewrite map_length, (er_push _ _ _ _ v).
    constructor. reflexivity.
  - intros r r' [b b' ->|p]; [exact (cr_ret (RVar b))|exact (cr_ret (RPanic p))].
Qed.

Lemma dep_rel a x : crel (c_set_dep tof a x) (c_set_dep Some a (er_af x)).
Proof.
  apply crit_rel with (R := eq).
  - intros c i. unfold body_dep. cbn. destruct (af_ctx x) as [[cid v]|].
    + unfold assert. destruct (cid =? c); cbn; [|constructor].
      change (brel eq (Ok (tt, mkInner (i_indeps i) (i_deps i ++ [v]) (i_ops i) (i_vals i)))
        (Ok (tt, er_inner (mkInner (i_indeps i) (i_deps i ++ [v]) (i_ops i) (i_vals i))))). constructor. reflexivity.
    + destruct (tof_some (af_v x)) as [v ->]. cbn. rewrite map_length, (er_push _ _ _ _ v). constructor. reflexivity.
  - intros r r' [b b' <-|p]; [exact (cr_ret RUnit)|exact (cr_ret (RPanic p))].
Qed.

Lemma record_body_rel oc s a1 a2 c i :
  brel eq (body_record tof oc s a1 a2 c i) (body_record Some oc tt a1 a2 c (er_inner i)).
Proof.
  unfold body_record. destruct (tof_some s) as [v ->]. cbn. rewrite map_length, (er_push _ _ _ _ v). constructor. reflexivity.
Qed.

Lemma ensure_rel a x k k' : (forall r, crel (k r) (k' r)) ->
  crel (c_ensure tof a x k) (c_ensure Some a (er_af x) k').
Proof.
  intros H. unfold c_ensure. cbn. destruct (af_ctx x) as [[c v]|]; auto.
  apply crit_rel with (R := eq).
  - intros c i. apply record_body_rel.
  - intros r r' [b b' <-|p]; auto.
Qed.

Lemma drop_rel a k k' : crel k k' -> crel (c_drop a k) (c_drop a k').
Proof. intros H. constructor. intros [|]; auto. repeat constructor. auto. Qed.

Lemma from_cid_rel c k k' : (forall o, crel (k o) (k' o)) -> crel (c_from_cid c k) (c_from_cid c k').
Proof. intros H. do 2 constructor. intros [a|]; constructor; auto. intros [|]; constructor; auto. Qed.

Lemma tape_rel a : crel (c_tape a) (c_tape a).
Proof.
  unfold c_tape.
  assert (forall B (get : inner F -> B) (get' : inner unit -> B),
    (forall i, get i = get' (er_inner i)) -> forall c i, brel eq (body_get get c i) (body_get get' c (er_inner i))) as H.
  { intros B get get' E c i. unfold body_get. constructor. auto. }
  apply crit_rel with (R := eq); [apply H; auto|]. intros ? ? [l1 l1' <-|p]; [|exact (cr_ret (RPanic p))].
  apply crit_rel with (R := eq); [apply H; auto|]. intros ? ? [l2 l2' <-|p]; [|exact (cr_ret (RPanic p))].
  apply crit_rel with (R := eq); [apply H; auto|]. intros ? ? [l3 l3' <-|p]; [|exact (cr_ret (RPanic p))].
  apply crit_rel with (R := fun l l' => l' = map (fun _ => tt) l).
  - intros c i. unfold body_get. constructor. reflexivity.
  - intros ? ? [l4 l4' ->|p]; [exact (cr_ret (RTape (mkTape l1 l2 l3 l4)))|exact (cr_ret (RPanic p))].
Qed.

Lemma zov_rel oc a b : rrel' (fun _ _ => True) (zero_order_value So oc a b) (zero_order_value uops oc tt (option_map (fun _ => tt) b)).
Proof. destruct oc, b; cbn; constructor; auto. Qed.
Lemma fov_rel oc a b d e : (b = None <-> e = None) ->
  rrel' (fun _ _ => True) (first_order_value So oc a b d e)
    (first_order_value uops oc tt (option_map (fun _ => tt) b) tt (option_map (fun _ => tt) e)).
Proof. intros H. destruct b, e; try (exfalso; destruct H; intuition congruence); destruct oc; cbn; constructor; auto. Qed.

Lemma op_rel oc x y : crel (c_from_op So tof oc x y) (c_from_op uops Some oc (er_af x) (option_map er_af y)).
Proof.
  unfold c_from_op.
  replace (option_map af_v (option_map er_af y)) with (option_map (fun _ : S => tt) (option_map af_v y)) by (destruct y; auto).
  replace (option_map af_dv (option_map er_af y)) with (option_map (fun _ : S => tt) (option_map af_dv y)) by (destruct y; auto).
  cbn [er_af af_v af_dv].
  destruct (zov_rel oc (af_v x) (option_map af_v y)) as [v [] _|p]; [|exact (cr_ret (RPanic p))].
  destruct (fov_rel oc (af_v x) (option_map af_v y) (af_dv x) (option_map af_dv y)) as [dv [] _|p];
    [destruct y; cbn; split; congruence| |exact (cr_ret (RPanic p))].
  replace (pick_cid (er_af x) (option_map er_af y)) with (pick_cid x y) by (destruct y; auto).
  destruct (pick_cid x y) as [[c|]|p]; [|exact (cr_ret (RVar (mkAF v dv None)))|exact (cr_ret (RPanic p))].
  apply from_cid_rel. intros [a|]; [|exact (cr_ret (RVar (mkAF v dv None)))].
  assert (forall p, crel (c_drop a (Ret (RPanic p))) (c_drop a (Ret (RPanic p)))) as HP
    by (intros p; apply drop_rel; exact (cr_ret (RPanic p))).
  assert (forall i1 i2, crel
    (crit a (body_record tof oc v (Some i1) i2) (fun r => match r with
       | Panic p => c_drop a (Ret (RPanic p)) | Ok vid => c_drop a (Ret (RVar (mkAF v dv (Some (c, vid))))) end))
    (crit a (body_record Some oc tt (Some i1) i2) (fun r => match r with
       | Panic p => c_drop a (Ret (RPanic p)) | Ok vid => c_drop a (Ret (RVar (mkAF tt tt (Some (c, vid))))) end))) as HL.
  { intros i1 i2. apply crit_rel with (R := eq); [intros; apply record_body_rel|].
    intros r r' [b b' <-|p]; auto. apply drop_rel. exact (cr_ret (RVar (mkAF v dv (Some (c, b))))). }
  apply ensure_rel. intros [i1|p]; auto. destruct y as [y|]; cbn [option_map]; auto.
  apply ensure_rel. intros [i2|p]; auto.
Qed.

Lemma new_rel : crel c_new c_new.
Proof. constructor. intros c. constructor. intros a. do 3 constructor. exact (cr_ret RUnit). Qed.

(** *** Processes *)
Definition trel (t : thread S F) (t' : thread unit unit) : Prop :=
  t_refs t' = t_refs t /\ orel crel (t_code t) (t_code t').

Record grel (g : sys S F) (g' : sys unit unit) : Prop := {
  gr_next : g_next g' = g_next g;
  gr_map : forall c, g_map g' c = g_map g c;
  gr_mlock : g_mlock g' = g_mlock g;
  gr_anext : g_anext g' = g_anext g;
  gr_arc : forall a, g_arc g' a = option_map er_arc (g_arc g a);
  gr_n : g_n g' = g_n g;
  gr_thr : forall i, trel (g_thr g i) (g_thr g' i);
  gr_vars : g_vars g' = map er_af (g_vars g);
  gr_tapes : g_tapes g' = map er_tape (g_tapes g)
}.

Lemma grel0 : grel sys0 sys0.
Proof. split; cbn; auto. intros i. split; cbn; auto. constructor. Qed.

Lemma trel_upd (th : nat -> thread S F) th' i t t' :
  (forall j, trel (th j) (th' j)) -> trel t t' -> forall j, trel (upd th i t j) (upd th' i t' j).
Proof. intros H Ht j. unfold upd. destruct (j =? i); auto. Qed.
Lemma arc_upd (f : nat -> option (arc F)) f' a r :
  (forall b, f' b = option_map er_arc (f b)) -> forall b, upd f' a (Some (er_arc r)) b = option_map er_arc (upd f a (Some r) b).
Proof. intros H b. unfold upd. destruct (b =? a); auto. Qed.
Lemma map_upd (f f' : nat -> option nat) c v : (forall b, f' b = f b) -> forall b, upd f' c v b = upd f c v b.
Proof. intros H b. unfold upd. destruct (b =? c); auto. Qed.

Lemma grel_thr g g' i t t' : grel g g' -> trel t t' -> grel (set_thr g i t) (set_thr g' i t').
Proof. intros [] H. split; cbn; auto. apply trel_upd; auto. Qed.
Lemma grel_arc g g' a r : grel g g' -> grel (set_arc g a r) (set_arc g' a (er_arc r)).
Proof. intros []. split; cbn; auto. apply arc_upd; auto. Qed.
Lemma grel_map g g' c v : grel g g' -> grel (set_map g c v) (set_map g' c v).
Proof. intros []. split; cbn; auto. apply map_upd; auto. Qed.
Lemma grel_mlock g g' v : grel g g' -> grel (set_mlock g v) (set_mlock g' v).
Proof. intros []. split; cbn; auto. Qed.
Lemma grel_var g g' x : grel g g' -> grel (add_var g x) (add_var g' (er_af x)).
Proof. intros G. destruct G. split; cbn; auto. rewrite map_app, gr_vars0. reflexivity. Qed.

Lemma owned_rel g g' a : grel g g' -> owned g' a = owned g a.
Proof.
  intros G. unfold owned. rewrite (gr_n _ _ G). induction (seq 0 (g_n g)) as [|i l IH]; cbn; auto.
  rewrite IH. f_equal. destruct (gr_thr _ _ G i) as [-> _]. reflexivity.
Qed.

Lemma trel_mk l l' c c' : l' = l -> orel crel c c' -> trel (mkThread l c) (mkThread l' c').
Proof. split; cbn; auto. Qed.

Lemma micro_rel g g' i : grel g g' -> orel grel (micro g i) (micro g' i).
Proof.
  intros G. unfold micro. pose proof (gr_thr _ _ G i) as [Er Ec].
  destruct Ec as [|c c' HC]; [constructor|].
  destruct HC as [r|k k' HK|c k k' HK|k k' HK|c a k k' HK|c k k' HK|a k k' HK|k k' HK|a k k' HK|a k k' HK|a k k' HK
    |a f f' k k' Hf HK|a p k k' HK].
  - constructor. destruct G. split; cbn; auto.
    + apply trel_upd; auto. apply trel_mk; auto. constructor.
    + destruct r; cbn; auto. rewrite map_app. cbn. congruence.
    + destruct r; cbn; auto. rewrite map_app. cbn. congruence.
  - constructor. destruct G. split; cbn; auto; try congruence.
    apply trel_upd; auto. apply trel_mk; auto. rewrite gr_next0. constructor. auto.
  - constructor. pose proof (gr_anext _ _ G) as EA. destruct G. split; cbn; auto; try congruence; rewrite EA.
    + apply (arc_upd _ _ _ (mkArc c (mkInner [] [] [] []) None false)); auto.
    + apply trel_upd; auto. apply trel_mk; [congruence|]. constructor. auto.
  - rewrite (gr_mlock _ _ G). destruct (g_mlock g); [constructor|]. constructor.
    apply grel_thr; [apply grel_mlock; auto|]. apply trel_mk; auto. constructor; auto.
  - constructor. apply grel_thr; [apply grel_map; auto|]. apply trel_mk; auto. constructor; auto.
  - constructor. apply grel_thr; auto. apply trel_mk; auto. constructor; auto. rewrite (gr_map _ _ G). auto.
  - rewrite (gr_arc _ _ G). destruct (g_arc g a) as [r|]; cbn; constructor.
    apply grel_thr; [apply grel_map; auto|]. apply trel_mk; auto. constructor; auto.
  - constructor. apply grel_thr; [apply grel_mlock; auto|]. apply trel_mk; auto. constructor; auto.
  - rewrite (owned_rel _ _ _ G). destruct (owned g a); constructor; apply grel_thr; auto; apply trel_mk; auto;
      try (constructor; auto). congruence.
  - set (h := set_thr g i _). set (h' := set_thr g' i _).
    assert (grel h h') as GH. { apply grel_thr; auto. apply trel_mk; [congruence|constructor]. }
    rewrite (owned_rel h h' _ GH). constructor. apply grel_thr; auto. apply trel_mk; [congruence|constructor; auto].
  - rewrite (gr_arc _ _ G). destruct (g_arc g a) as [r|]; cbn; [|constructor]. destruct (a_lock r); constructor.
    apply grel_thr; [apply (grel_arc g g' a (mkArc (a_cid r) (a_inner r) (Some i) (a_poison r))); auto|].
    apply trel_mk; auto. constructor; auto.
  - rewrite (gr_arc _ _ G). destruct (g_arc g a) as [r|]; cbn; [|constructor]. constructor.
    rewrite <- Hf. apply grel_thr; [apply (grel_arc g g' a (mkArc (a_cid r) (f (a_cid r) (a_inner r)) (a_lock r) (a_poison r))); auto|].
    apply trel_mk; auto. constructor; auto.
  - rewrite (gr_arc _ _ G). destruct (g_arc g a) as [r|]; cbn; constructor.
    apply grel_thr; [apply (grel_arc g g' a (mkArc (a_cid r) (a_inner r) None (a_poison r || p))); auto|].
    apply trel_mk; auto. constructor; auto.
Qed.

(** The move without numbers. *)
Definition er_move (m : wmove S) : @move unit :=
  match m with
  | SetValue x _ => DoSeed x tt
  | Plain m =>
      match m with
      | Go => Go | DoNew => DoNew | DoLookup c => DoLookup c | DoDrop a => DoDrop a | DoIndep a x => DoIndep a x
      | DoDep a x => DoDep a x | DoTape a => DoTape a | DoOp oc x y => DoOp oc x y | DoVar _ _ => DoVar tt tt
      | DoSeed x _ => DoSeed x tt | DoSend a j => DoSend a j | DoSpawn => DoSpawn
      end
  end.
Definition er_sched (s : list (nat * wmove S)) : list (nat * @move unit) := map (fun m => (fst m, er_move (snd m))) s.

Lemma begin_rel g g' i c c' : grel g g' -> crel c c' -> orel grel (begin g i c) (begin g' i c').
Proof.
  intros G H. unfold begin. destruct (gr_thr _ _ G i) as [Er Ec]. destruct Ec; constructor.
  apply grel_thr; auto. apply trel_mk; auto. constructor; auto.
Qed.

Lemma var_rel g g' x : grel g g' -> nth_error (g_vars g') x = option_map er_af (nth_error (g_vars g) x).
Proof. intros G. rewrite (gr_vars _ _ G). apply nth_error_map. Qed.

Lemma step_rel g g' i m : grel g g' -> orel grel (wstep So tof g i m) (step uops Some g' i (er_move m)).
Proof.
  intros G. destruct m as [m|x v]; cbn [wstep er_move].
  - unfold step. rewrite (gr_n _ _ G). destruct (i <? g_n g); [|constructor].
    destruct (gr_thr _ _ G i) as [Er Ec].
    destruct m as [| |c|a|a x|a x|a|oc x y|v dv|x dv|a j|].
    + apply micro_rel; auto.
    + apply begin_rel; auto. apply new_rel.
    + apply begin_rel; auto. apply from_cid_rel. intros _. exact (cr_ret RUnit).
    + rewrite Er. destruct (has _ _); [|constructor]. apply begin_rel; auto. apply drop_rel. exact (cr_ret RUnit).
    + rewrite (var_rel _ _ _ G), Er. destruct (nth_error _ _); cbn; [|constructor]. destruct (has _ _); [|constructor].
      apply begin_rel; auto. apply indep_rel.
    + rewrite (var_rel _ _ _ G), Er. destruct (nth_error _ _); cbn; [|constructor]. destruct (has _ _); [|constructor].
      apply begin_rel; auto. apply dep_rel.
    + rewrite Er. destruct (has _ _); [|constructor]. apply begin_rel; auto. apply tape_rel.
    + destruct (right_arity oc y); [|constructor]. rewrite (var_rel _ _ _ G). destruct (nth_error _ x) as [x'|]; cbn; [|constructor].
      destruct y as [y|].
      * rewrite (var_rel _ _ _ G). destruct (nth_error _ y) as [y'|]; cbn; [|constructor].
        apply begin_rel; auto. apply (op_rel oc x' (Some y')).
      * apply begin_rel; auto. apply (op_rel oc x' None).
    + destruct Ec; constructor. apply (grel_var _ _ (mkAF v dv None)); auto.
    + rewrite (var_rel _ _ _ G). destruct Ec; [|constructor]. destruct (nth_error _ x) as [x'|]; cbn; constructor.
      apply (grel_var _ _ (mkAF (af_v x') dv (af_ctx x'))); auto.
    + destruct (gr_thr _ _ G j) as [Er2 Ec2]. destruct Ec; [|constructor]. destruct Ec2; [|constructor].
      rewrite Er. destruct (has a (t_refs (g_thr g i)) && (j <? g_n g)); [|constructor]. constructor.
      assert (grel (set_thr g i (mkThread (remove1 a (t_refs (g_thr g i))) None))
        (set_thr g' i (mkThread (remove1 a (t_refs (g_thr g i))) None))) as GH
        by (apply grel_thr; auto; apply trel_mk; [congruence|constructor]).
      apply grel_thr; auto. apply trel_mk; [|constructor].
      destruct (gr_thr _ _ GH j) as [E _]. f_equal. exact E.
    + destruct Ec; constructor. pose proof (gr_n _ _ G) as EN. destruct G. split; cbn; auto; try congruence.
      try rewrite EN. apply trel_upd; auto. apply trel_mk; auto. constructor.
  - unfold step. rewrite (gr_n _ _ G). destruct (i <? g_n g); [|constructor].
    destruct (gr_thr _ _ G i) as [Er Ec]. rewrite (var_rel _ _ _ G). destruct Ec; [|constructor].
    destruct (nth_error _ x) as [x'|]; cbn; constructor. apply (grel_var _ _ (set_value x' v)); auto.
Qed.

Lemma play_rel s : forall g g', grel g g' -> orel grel (wplay So tof g s) (play uops Some g' (er_sched s)).
Proof.
  induction s as [|[i m] s IH]; intros g g' G; cbn; [constructor; auto|].
  destruct (step_rel g g' i m G); [constructor|auto].
Qed.

End Erase.
