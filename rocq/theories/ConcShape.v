(** Recording by hand and the registry: forgetting numbers and recordings turns a process with record
    and value_mut into one without (record becomes set_dep of a constant that nobody uses otherwise). *)
From Coq Require Import List Arith ZArith Bool Lia.
From Verif Require Import Base Float Operation Tape AContext AContextFacts Spec Ffi Concurrent ConcSpec ConcWrite ConcErase ConcHand.
Import ListNotations.

Section Shape.
Context {S F : Type} (So : Fops S) (tof : S -> option F) (total : forall s, tof s <> None).

(** The same context, or none. *)
Definition xrel (x : AF S) (y : AF unit) : Prop := option_map fst (af_ctx y) = option_map fst (af_ctx x).
Inductive retrel : ret S F -> ret unit unit -> Prop :=
| re_unit : retrel RUnit RUnit
| re_var x y : xrel x y -> retrel (RVar x) (RVar y)
| re_tape t u : retrel (RTape t) (RTape u)
| re_panic p : retrel (RPanic p) (RPanic p).
Definition arel (r : arc F) (s : arc unit) : Prop := a_cid s = a_cid r /\ a_lock s = a_lock r /\ a_poison s = a_poison r.

Inductive shape : code S F -> code unit unit -> Prop :=
| sh_ret r r' : retrel r r' -> shape (Ret r) (Ret r')
| sh_fetch k k' : (forall n, shape (k n) (k' n)) -> shape (Fetch k) (Fetch k')
| sh_alloc c k k' : (forall n, shape (k n) (k' n)) -> shape (Alloc c k) (Alloc c k')
| sh_mlock k k' : shape k k' -> shape (MLock k) (MLock k')
| sh_minsert c a k k' : shape k k' -> shape (MInsert c a k) (MInsert c a k')
| sh_mget c k k' : (forall o, shape (k o) (k' o)) -> shape (MGet c k) (MGet c k')
| sh_mremove a k k' : shape k k' -> shape (MRemove a k) (MRemove a k')
| sh_munlock k k' : shape k k' -> shape (MUnlock k) (MUnlock k')
| sh_upgrade a k k' : (forall b, shape (k b) (k' b)) -> shape (Upgrade a k) (Upgrade a k')
| sh_decr a k k' : (forall b, shape (k b) (k' b)) -> shape (Decr a k) (Decr a k')
| sh_lock a k k' : (forall b, shape (k b) (k' b)) -> shape (Lock a k) (Lock a k')
| sh_access a f f' k k' : (forall c i i', shape (k c i) (k' c i')) -> shape (Access a f k) (Access a f' k')
| sh_unlock a p k k' : shape k k' -> shape (Unlock a p k) (Unlock a p k').

(** *** The API calls *)
Inductive bodyrel {B B' : Type} (R : B -> B' -> Prop) : res (B * inner F) -> res (B' * inner unit) -> Prop :=
| bo_ok b b' i i' : R b b' -> bodyrel R (Ok (b, i)) (Ok (b', i'))
| bo_panic p : bodyrel R (Panic p) (Panic p).

Lemma crit_shape {B B'} (R : B -> B' -> Prop) a body body' k k' :
  (forall c i i', bodyrel R (body c i) (body' c i')) ->
  (forall r r', rrel' R r r' -> shape (k r) (k' r')) ->
  shape (crit a body k) (crit a body' k').
Proof.
  intros HB HK. unfold crit. constructor. intros [|].
  - constructor. apply HK. constructor.
  - constructor. intros c i i'. destruct (HB c i i'); constructor; apply HK; constructor; auto.
Qed.

Lemma tof_ok s : exists v, tof s = Some v.
Proof. destruct (tof s) eqn:E; eauto. destruct (total _ E). Qed.
Lemma panic_shape p : shape (Ret (RPanic p)) (Ret (RPanic p)).
Proof. do 2 constructor. Qed.
Lemma unit_shape : shape (Ret RUnit) (Ret RUnit).
Proof. do 2 constructor. Qed.
Local Hint Resolve panic_shape unit_shape : core.

Lemma indep_shape a x y : shape (c_set_indep tof a x) (c_set_indep Some a y).
Proof.
  apply crit_shape with (R := xrel).
  - intros c i i'. unfold body_indep. destruct (tof_ok (af_v x)) as [v ->]. cbn. constructor. reflexivity.
  - intros r r' [b b' H|p]; cbn; auto. do 2 constructor. auto.
Qed.

Lemma dep_shape a x y : xrel x y -> shape (c_set_dep tof a x) (c_set_dep Some a y).
Proof.
  intros HX. apply crit_shape with (R := eq).
  - intros c i i'. unfold body_dep. unfold xrel in HX. destruct (af_ctx x) as [[cid v]|], (af_ctx y) as [[cid' v']|]; try discriminate HX.
    + cbn in HX. injection HX as ->. unfold assert. destruct (cid =? c); cbn; constructor. reflexivity.
    + destruct (tof_ok (af_v x)) as [v ->]. cbn. constructor. reflexivity.
  - intros r r' [b b' <-|p]; cbn; auto.
Qed.

Lemma hand_shape a oc v a1 a2 y : af_ctx y = None -> shape (c_record tof a oc v a1 a2) (c_set_dep Some a y).
Proof.
  intros HX. apply crit_shape with (R := fun _ _ => True).
  - intros c i i'. unfold body_dep, body_record. rewrite HX. destruct (tof_ok v) as [w ->]. cbn. constructor. auto.
  - intros r r' [b b' _|p]; cbn; auto.
Qed.

Lemma record_shape oc s a1 a2 a1' a2' c i i' :
  bodyrel (fun _ _ => True) (body_record tof oc s a1 a2 c i) (body_record Some oc tt a1' a2' c i').
Proof. unfold body_record. destruct (tof_ok s) as [v ->]. cbn. constructor. auto. Qed.

Lemma ensure_shape a x y k k' : xrel x y -> (forall r r', rrel' (fun _ _ => True) r r' -> shape (k r) (k' r')) ->
  shape (c_ensure tof a x k) (c_ensure Some a y k').
Proof.
  intros HX H. unfold c_ensure. unfold xrel in HX. destruct y as [[] [] cy]. cbn in *.
  destruct (af_ctx x) as [[c v]|], cy as [[c' v']|]; try discriminate HX.
  - apply H. constructor. auto.
  - apply crit_shape with (R := fun _ _ => True); auto. intros c i i'. apply record_shape.
Qed.

Lemma drop_shape a k k' : shape k k' -> shape (c_drop a k) (c_drop a k').
Proof. intros H. constructor. intros [|]; auto. repeat constructor. auto. Qed.

Lemma from_cid_shape c k k' : (forall o, shape (k o) (k' o)) -> shape (c_from_cid c k) (c_from_cid c k').
Proof. intros H. do 2 constructor. intros [a|]; constructor; auto. intros [|]; constructor; auto. Qed.

Lemma tape_shape a : shape (c_tape a) (c_tape a).
Proof.
  unfold c_tape.
  apply crit_shape with (R := fun _ _ => True); [intros; constructor; auto|]. intros ? ? [l1 l1' _|p]; auto.
  apply crit_shape with (R := fun _ _ => True); [intros; constructor; auto|]. intros ? ? [l2 l2' _|p]; auto.
  apply crit_shape with (R := fun _ _ => True); [intros; constructor; auto|]. intros ? ? [l3 l3' _|p]; auto.
  apply crit_shape with (R := fun _ _ => True); [intros; constructor; auto|]. intros ? ? [l4 l4' _|p]; auto.
  do 2 constructor.
Qed.

Lemma cid_shape (x : AF S) (y : AF unit) : xrel x y ->
  (match af_ctx y with Some (c, _) => Some c | None => None end) = (match af_ctx x with Some (c, _) => Some c | None => None end).
Proof. unfold xrel. destruct (af_ctx x) as [[]|], (af_ctx y) as [[]|]; cbn; congruence. Qed.
Lemma pick_shape x x' y y' : xrel x x' -> orel xrel y y' -> pick_cid x' y' = pick_cid x y.
Proof.
  intros HX HY. unfold pick_cid. rewrite (cid_shape _ _ HX). destruct HY as [|y y' HY]; auto.
  unfold xrel in HY. destruct (af_ctx y) as [[]|], (af_ctx y') as [[]|]; cbn in HY; try discriminate HY; auto. injection HY as ->. auto.
Qed.

Lemma op_shape oc x x' y y' : xrel x x' -> orel xrel y y' ->
  shape (c_from_op So tof oc x y) (c_from_op uops Some oc x' y').
Proof.
  intros HX HY. unfold c_from_op. rewrite (pick_shape _ _ _ _ HX HY).
  replace (option_map af_v y') with (option_map (fun _ : S => tt) (option_map af_v y))
    by (destruct HY as [|? [[] [] ?] ?]; auto).
  replace (option_map af_dv y') with (option_map (fun _ : S => tt) (option_map af_dv y))
    by (destruct HY as [|? [[] [] ?] ?]; auto).
  replace (af_v x') with tt by (destruct (af_v x'); auto). replace (af_dv x') with tt by (destruct (af_dv x'); auto).
  destruct (zov_rel So oc (af_v x) (option_map af_v y)) as [v [] _|p]; auto.
  destruct (fov_rel So oc (af_v x) (option_map af_v y) (af_dv x) (option_map af_dv y)) as [dv [] _|p]; auto;
    [destruct y; cbn; split; congruence|].
  destruct (pick_cid x y) as [[c|]|p]; auto; [|do 2 constructor; reflexivity].
  apply from_cid_shape. intros [a|]; [|do 2 constructor; reflexivity].
  assert (forall p, shape (c_drop a (Ret (RPanic p))) (c_drop a (Ret (RPanic p)))) as HP
    by (intros p; apply drop_shape; auto).
  assert (forall i1 i2 i1' i2', shape
    (crit a (body_record tof oc v (Some i1) i2) (fun r => match r with
       | Panic p => c_drop a (Ret (RPanic p)) | Ok vid => c_drop a (Ret (RVar (mkAF v dv (Some (c, vid))))) end))
    (crit a (body_record Some oc tt (Some i1') i2') (fun r => match r with
       | Panic p => c_drop a (Ret (RPanic p)) | Ok vid => c_drop a (Ret (RVar (mkAF tt tt (Some (c, vid))))) end))) as HL.
  { intros i1 i2 i1' i2'. apply crit_shape with (R := fun _ _ => True); [intros; apply record_shape|].
    intros r r' [b b' _|p]; auto. apply drop_shape. do 2 constructor. reflexivity. }
  apply ensure_shape; auto. intros ? ? [i1 i1' _|p]; auto. destruct HY as [|y y' HY]; auto.
  apply ensure_shape; auto. intros ? ? [i2 i2' _|p]; auto.
Qed.

Lemma new_shape : shape c_new c_new.
Proof. constructor. intros c. constructor. intros a. do 3 constructor. auto. Qed.

(** *** Processes *)
Definition threl (t : thread S F) (t' : thread unit unit) : Prop :=
  t_refs t' = t_refs t /\ orel shape (t_code t) (t_code t').

(** The other process has one more variable, a constant. *)
Record like (g : sys S F) (g' : sys unit unit) : Prop := {
  li_next : g_next g' = g_next g;
  li_map : forall c, g_map g' c = g_map g c;
  li_mlock : g_mlock g' = g_mlock g;
  li_anext : g_anext g' = g_anext g;
  li_arc : forall a, orel arel (g_arc g a) (g_arc g' a);
  li_n : g_n g' = g_n g;
  li_thr : forall i, threl (g_thr g i) (g_thr g' i);
  li_vars : exists l, g_vars g' = mkAF tt tt None :: l /\ Forall2 xrel (g_vars g) l
}.

Definition usys0 : sys unit unit := add_var sys0 (mkAF tt tt None).
Lemma usys0_reachable : reachable uops Some usys0.
Proof. exists [(0, DoVar tt tt)]. reflexivity. Qed.
Lemma like0 : like sys0 usys0.
Proof.
  split; cbn; auto; [constructor|intros i; split; cbn; auto; constructor|]. exists []. auto.
Qed.

Lemma threl_upd (th : nat -> thread S F) th' i t t' :
  (forall j, threl (th j) (th' j)) -> threl t t' -> forall j, threl (upd th i t j) (upd th' i t' j).
Proof. intros H Ht j. unfold upd. destruct (j =? i); auto. Qed.
Lemma arel_upd (f : nat -> option (arc F)) f' a r r' :
  (forall b, orel arel (f b) (f' b)) -> arel r r' -> forall b, orel arel (upd f a (Some r) b) (upd f' a (Some r') b).
Proof. intros H R b. unfold upd. destruct (b =? a); auto. constructor. auto. Qed.

Lemma like_thr g g' i t t' : like g g' -> threl t t' -> like (set_thr g i t) (set_thr g' i t').
Proof. intros [] H. split; cbn; auto. apply threl_upd; auto. Qed.
Lemma like_arc g g' a r r' : like g g' -> arel r r' -> like (set_arc g a r) (set_arc g' a r').
Proof. intros [] R. split; cbn; auto. apply arel_upd; auto. Qed.
Lemma like_map g g' c v : like g g' -> like (set_map g c v) (set_map g' c v).
Proof. intros []. split; cbn; auto. apply map_upd; auto. Qed.
Lemma like_mlock g g' v : like g g' -> like (set_mlock g v) (set_mlock g' v).
Proof. intros []. split; cbn; auto. Qed.
Lemma vars_app (g : sys S F) (g' : sys unit unit) x y :
  (exists l, g_vars g' = mkAF tt tt None :: l /\ Forall2 xrel (g_vars g) l) -> xrel x y ->
  exists l, g_vars g' ++ [y] = mkAF tt tt None :: l /\ Forall2 xrel (g_vars g ++ [x]) l.
Proof.
  intros (l & E & H) X. exists (l ++ [y]). rewrite E. split; auto. apply Forall2_app; auto.
Qed.
Lemma like_var g g' x y : like g g' -> xrel x y -> like (add_var g x) (add_var g' y).
Proof. intros G X. destruct G. split; cbn; auto. apply vars_app; auto. Qed.

Lemma owned_like g g' a : like g g' -> owned g' a = owned g a.
Proof.
  intros G. unfold owned. rewrite (li_n _ _ G). induction (seq 0 (g_n g)) as [|i l IH]; cbn; auto.
  rewrite IH. f_equal. destruct (li_thr _ _ G i) as [-> _]. reflexivity.
Qed.

Lemma threl_mk l l' c c' : l' = l -> orel shape c c' -> threl (mkThread l c) (mkThread l' c').
Proof. split; cbn; auto. Qed.
Lemma arc_like g g' a : like g g' -> orel arel (g_arc g a) (g_arc g' a).
Proof. intros G. apply G. Qed.

Lemma micro_like g g' i : like g g' -> orel like (micro g i) (micro g' i).
Proof.
  intros G. unfold micro. pose proof (li_thr _ _ G i) as [Er Ec].
  destruct Ec as [|c c' HC]; [constructor|].
  destruct HC as [r r' HR|k k' HK|c k k' HK|k k' HK|c a k k' HK|c k k' HK|a k k' HK|k k' HK|a k k' HK|a k k' HK|a k k' HK
    |a f f' k k' HK|a p k k' HK].
  - constructor. destruct G. split; cbn; auto.
    + apply threl_upd; auto. apply threl_mk; auto. constructor.
    + destruct HR; auto. apply vars_app; auto.
  - constructor. destruct G. split; cbn; auto; try congruence.
    apply threl_upd; auto. apply threl_mk; auto. rewrite li_next0. constructor. auto.
  - constructor. pose proof (li_anext _ _ G) as EA. destruct G. split; cbn; auto; try congruence; rewrite EA.
    + apply arel_upd; auto. repeat split.
    + apply threl_upd; auto. apply threl_mk; [congruence|]. constructor. auto.
  - rewrite (li_mlock _ _ G). destruct (g_mlock g); [constructor|]. constructor.
    apply like_thr; [apply like_mlock; auto|]. apply threl_mk; auto. constructor; auto.
  - constructor. apply like_thr; [apply like_map; auto|]. apply threl_mk; auto. constructor; auto.
  - constructor. apply like_thr; auto. apply threl_mk; auto. constructor; auto. rewrite (li_map _ _ G). auto.
  - destruct (arc_like _ _ a G) as [|r r' (E1 & E2 & E3)]; constructor. rewrite E1.
    apply like_thr; [apply like_map; auto|]. apply threl_mk; auto. constructor; auto.
  - constructor. apply like_thr; [apply like_mlock; auto|]. apply threl_mk; auto. constructor; auto.
  - rewrite (owned_like _ _ _ G). destruct (owned g a); constructor; apply like_thr; auto; apply threl_mk; auto;
      try (constructor; auto). congruence.
  - set (h := set_thr g i _). set (h' := set_thr g' i _).
    assert (like h h') as GH. { apply like_thr; auto. apply threl_mk; [congruence|constructor]. }
    rewrite (owned_like h h' _ GH). constructor. apply like_thr; auto. apply threl_mk; [congruence|constructor; auto].
  - destruct (arc_like _ _ a G) as [|r r' (E1 & E2 & E3)]; [constructor|]. rewrite E2. destruct (a_lock r); constructor.
    apply like_thr; [apply like_arc; auto; repeat split; auto|]. rewrite E3.
    apply threl_mk; auto. constructor; auto.
  - destruct (arc_like _ _ a G) as [|r r' (E1 & E2 & E3)]; [constructor|]. constructor.
    apply like_thr; [apply like_arc; auto; repeat split; auto|]. rewrite E1. apply threl_mk; auto. constructor; auto.
  - destruct (arc_like _ _ a G) as [|r r' (E1 & E2 & E3)]; [constructor|]. constructor.
    apply like_thr; [apply like_arc; auto; repeat split; cbn; auto; congruence|].
    apply threl_mk; auto. constructor; auto.
Qed.

(** The move without numbers. *)
Definition sh_move (m : hmove S) : @move unit :=
  match m with
  | ByHand a _ _ _ _ => DoDep a 0
  | Api (SetValue x _) => DoSeed (1 + x) tt
  | Api (Plain m) =>
      match m with
      | Go => Go | DoNew => DoNew | DoLookup c => DoLookup c | DoDrop a => DoDrop a | DoIndep a x => DoIndep a (1 + x)
      | DoDep a x => DoDep a (1 + x) | DoTape a => DoTape a | DoOp oc x y => DoOp oc (1 + x) (option_map (fun y => 1 + y) y)
      | DoVar _ _ => DoVar tt tt
      | DoSeed x _ => DoSeed (1 + x) tt | DoSend a j => DoSend a j | DoSpawn => DoSpawn
      end
  end.
Definition sh_sched (s : list (nat * hmove S)) : list (nat * @move unit) := map (fun m => (fst m, sh_move (snd m))) s.

Lemma begin_like g g' i c c' : like g g' -> shape c c' -> orel like (begin g i c) (begin g' i c').
Proof.
  intros G H. unfold begin. destruct (li_thr _ _ G i) as [Er Ec]. destruct Ec; constructor.
  apply like_thr; auto. apply threl_mk; auto. constructor; auto.
Qed.

Lemma var_like g g' x : like g g' -> orel xrel (nth_error (g_vars g) x) (nth_error (g_vars g') (1 + x)).
Proof.
  intros G. destruct (li_vars _ _ G) as (l & -> & H). cbn. revert x. induction H; intros [|n]; cbn; auto; constructor; auto.
Qed.

Lemma step_like g g' i m : like g g' -> orel like (hstep So tof g i m) (step uops Some g' i (sh_move m)).
Proof.
  intros G. destruct m as [[m|x v]|a oc v a1 a2]; cbn [hstep wstep sh_move].
  - unfold step. rewrite (li_n _ _ G). destruct (i <? g_n g); [|constructor].
    destruct (li_thr _ _ G i) as [Er Ec].
    destruct m as [| |c|a|a x|a x|a|oc x y|v dv|x dv|a j|].
    + apply micro_like; auto.
    + apply begin_like; auto. apply new_shape.
    + apply begin_like; auto. apply from_cid_shape. auto.
    + rewrite Er. destruct (has _ _); [|constructor]. apply begin_like; auto. apply drop_shape. auto.
    + rewrite Er. destruct (var_like _ _ x G); [constructor|]. destruct (has _ _); [|constructor].
      apply begin_like; auto. apply indep_shape.
    + rewrite Er. destruct (var_like _ _ x G); [constructor|]. destruct (has _ _); [|constructor].
      apply begin_like; auto. apply dep_shape. auto.
    + rewrite Er. destruct (has _ _); [|constructor]. apply begin_like; auto. apply tape_shape.
    + replace (right_arity oc (option_map (fun y => 1 + y) y)) with (right_arity oc y) by (destruct y; auto).
      destruct (right_arity oc y); [|constructor]. destruct (var_like _ _ x G) as [|x1 x2 HX]; [constructor|].
      destruct y as [y|]; cbn [option_map].
      * destruct (var_like _ _ y G) as [|y1 y2 HY]; [constructor|].
        apply begin_like; auto. apply op_shape; auto. constructor. auto.
      * apply begin_like; auto. apply op_shape; auto. constructor.
    + destruct Ec; constructor. apply like_var; auto. reflexivity.
    + destruct Ec; [|constructor]. destruct (var_like _ _ x G) as [|x1 x2 HX]; constructor.
      apply like_var; auto.
    + destruct (li_thr _ _ G j) as [Er2 Ec2]. destruct Ec; [|constructor]. destruct Ec2; [|constructor].
      rewrite Er. destruct (has a (t_refs (g_thr g i)) && (j <? g_n g)); [|constructor]. constructor.
      assert (like (set_thr g i (mkThread (remove1 a (t_refs (g_thr g i))) None))
        (set_thr g' i (mkThread (remove1 a (t_refs (g_thr g i))) None))) as GH
        by (apply like_thr; auto; apply threl_mk; [congruence|constructor]).
      apply like_thr; auto. apply threl_mk; [|constructor].
      destruct (li_thr _ _ GH j) as [E _]. f_equal. exact E.
    + destruct Ec; constructor. pose proof (li_n _ _ G) as EN. destruct G. split; cbn; auto; try congruence.
      try rewrite EN. apply threl_upd; auto. apply threl_mk; auto. constructor.
  - unfold step. rewrite (li_n _ _ G). destruct (i <? g_n g); [|constructor].
    destruct (li_thr _ _ G i) as [Er Ec]. destruct Ec; [|constructor].
    destruct (var_like _ _ x G) as [|x1 x2 HX]; constructor. apply like_var; auto.
  - unfold step. rewrite (li_n _ _ G). destruct (i <? g_n g); [|constructor].
    destruct (li_thr _ _ G i) as [Er Ec]. destruct (li_vars _ _ G) as (l & -> & _). cbn [nth_error].
    rewrite Er. destruct (has _ _); [|constructor]. apply begin_like; auto. apply hand_shape. reflexivity.
Qed.

Lemma play_like s : forall g g', like g g' -> orel like (hplay So tof g s) (play uops Some g' (sh_sched s)).
Proof.
  induction s as [|[i m] s IH]; intros g g' G; cbn; [constructor; auto|].
  destruct (step_like g g' i m G); [constructor|auto].
Qed.

End Shape.
