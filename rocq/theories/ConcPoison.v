(** Poisoned contexts under all interleavings. *)
From Coq Require Import List Arith ZArith Bool Lia.
From Verif Require Import Base Float Operation Tape AContext AContextFacts Spec TapeFacts Ffi FfiFacts
  Concurrent ConcSpec ConcFacts ConcInv ConcMain JointSpec JointFacts.
Import ListNotations.

Section Poison.
Context {S F : Type} (So : Fops S) (tof : S -> option F).
Notation code := (code S F). Notation sys := (sys S F). Notation thread := (thread S F).
Notation inv := (inv So tof).
Implicit Types (g : sys).

(** The contents of a context are accessed only in the branch where its lock was found unpoisoned;
    [h]: the context held that way. *)
Fixpoint safe (h : option nat) (c : code) : Prop :=
  match c with
  | Ret _ => True
  | Fetch k => forall c, safe h (k c)
  | Alloc _ k => forall a, safe h (k a)
  | MLock k | MInsert _ _ k | MRemove _ k | MUnlock k => safe h k
  | MGet _ k => forall o, safe h (k o)
  | Upgrade _ k | Decr _ k => forall b, safe h (k b)
  | Lock a k => safe None (k true) /\ safe (Some a) (k false)
  | Access a _ k => h = Some a /\ forall c i, safe h (k c i)
  | Unlock _ _ k => safe None k
  end.

Lemma safe_crit {B} a (body : nat -> inner F -> res (B * inner F)) (k : res B -> code) :
  (forall r, safe None (k r)) -> safe None (crit a body k).
Proof.
  intros H. cbn. split; [apply H|]. split; [auto|]. intros c i. destruct (body c i) as [[b i']|p]; cbn; apply H.
Qed.
Lemma safe_drop a k : safe None k -> safe None (c_drop a k).
Proof. intros H. cbn. intros [|]; cbn; auto. Qed.
Lemma safe_ensure a x k : (forall r, safe None (k r)) -> safe None (c_ensure tof a x k).
Proof. intros H. unfold c_ensure. destruct (af_ctx x) as [[c v]|]; [apply H|]. apply safe_crit, H. Qed.
Lemma safe_lookup c k : (forall o, safe None (k o)) -> safe None (c_from_cid c k).
Proof. intros H. cbn. intros [a|]; cbn; auto. intros [|]; cbn; auto. Qed.
Lemma safe_op oc x y : safe None (c_from_op So tof oc x y).
Proof.
  unfold c_from_op. destruct (zero_order_value _ _ _ _) as [v|p]; [|exact I].
  destruct (first_order_value _ _ _ _ _ _) as [dv|p]; [|exact I].
  destruct (pick_cid x y) as [[c|]|p]; [|exact I|exact I].
  apply safe_lookup. intros [a|]; [|exact I]. apply safe_ensure. intros [i1|p]; [|apply safe_drop; exact I].
  assert (forall i2, safe None (crit a (body_record tof oc v (Some i1) i2) (fun r =>
    match r with Panic p => c_drop a (Ret (RPanic p)) | Ok vid => c_drop a (Ret (RVar (mkAF v dv (Some (c, vid))))) end))) as HL.
  { intros i2. apply safe_crit. intros [vid|p]; apply safe_drop; exact I. }
  destruct y as [y'|]; [|apply HL]. apply safe_ensure. intros [i2|p]; [apply HL|apply safe_drop; exact I].
Qed.
Lemma safe_tape a : safe None (c_tape a : code).
Proof.
  unfold c_tape. repeat (apply safe_crit; intros [?|?]; [|exact I]). exact I.
Qed.

(** [thread i] runs safe code *)
Definition sane g (i : nat) : Prop := forall c, t_code (g_thr g i) = Some c -> exists h, safe h c /\
  forall a, h = Some a -> exists r, g_arc g a = Some r /\ a_lock r = Some i /\ a_poison r = false.

Lemma access_held g i a f k : inv g -> t_code (g_thr g i) = Some (Access a f k) ->
  exists r, g_arc g a = Some r /\ a_lock r = Some i.
Proof.
  intros I Hc. destruct I as (rho & eta & I). pose proof (eta_code _ _ _ _ _ i I) as E. unfold held_in in E. rewrite Hc in E.
  cbn in E. destruct (iv_refs _ _ _ _ _ I i a) as [r Hr]; [eapply iv_ctx; eauto|]. exists r. split; auto. eapply ctx_alock; eauto.
Qed.
Lemma unlock_held g i a p k : inv g -> t_code (g_thr g i) = Some (Unlock a p k) ->
  exists r, g_arc g a = Some r /\ a_lock r = Some i.
Proof.
  intros I Hc. destruct I as (rho & eta & I). pose proof (eta_code _ _ _ _ _ i I) as E. unfold held_in in E. rewrite Hc in E.
  cbn in E. destruct (iv_refs _ _ _ _ _ I i a) as [r Hr]; [eapply iv_ctx; eauto|]. exists r. split; auto. eapply ctx_alock; eauto.
Qed.

(** Only [Go] changes contexts. *)
Lemma begin_arc g i c g' : begin g i c = Some g' -> g_arc g' = g_arc g.
Proof. unfold begin. destruct (t_code _); [discriminate|]. intros E. injection E as <-. reflexivity. Qed.
Lemma calls_arc g i m g' : step So tof g i m = Some g' -> m <> Go -> g_arc g' = g_arc g.
Proof.
  intros H N. unfold step in H. apply if_some in H as [_ H].
  destruct m as [| |c|a|a x|a x|a|oc x y|v dv|x dv|a j|]; try congruence.
  - eapply begin_arc; eauto.
  - eapply begin_arc; eauto.
  - apply if_some in H as [_ H]. eapply begin_arc; eauto.
  - destruct (nth_error _ _); [|discriminate]. apply if_some in H as [_ H]. eapply begin_arc; eauto.
  - destruct (nth_error _ _); [|discriminate]. apply if_some in H as [_ H]. eapply begin_arc; eauto.
  - apply if_some in H as [_ H]. eapply begin_arc; eauto.
  - apply if_some in H as [_ H]. destruct (nth_error _ _); [|discriminate].
    destruct y; [|eapply begin_arc; eauto]. destruct (nth_error _ _); [|discriminate]. eapply begin_arc; eauto.
  - destruct (t_code _); [discriminate|]. injection H as <-. reflexivity.
  - destruct (t_code _); [discriminate|]. destruct (nth_error _ _); [|discriminate]. injection H as <-. reflexivity.
  - destruct (t_code _); [discriminate|]. destruct (t_code _); [discriminate|]. apply if_some in H as [_ H]. injection H as <-. reflexivity.
  - destruct (t_code _); [discriminate|]. injection H as <-. reflexivity.
Qed.

(** A context locked by one thread is not touched by another. *)
Lemma untouched g j m g' i a r : inv g -> step So tof g j m = Some g' -> j <> i -> g_arc g a = Some r ->
  a_lock r = Some i -> g_arc g' a = Some r.
Proof.
  intros I H N Ha Hl. destruct (match m with Go => true | _ => false end) eqn:Em.
  2: { rewrite (calls_arc _ _ _ _ H); [auto|]. intros ->. discriminate. }
  destruct m; try discriminate. unfold step in H. apply if_some in H as [_ H]. unfold micro in H.
  destruct (t_code (g_thr g j)) as [c|] eqn:Hc; [|discriminate].
  destruct c as [ro|k|c k|k|c b k|c k|b k|k|b k|b k|b k|b f k|b p k].
  - injection H as <-. auto.
  - injection H as <-. auto.
  - injection H as <-. cbn. rewrite upd_ne; auto. intros ->. destruct I as (rho & eta & I).
    rewrite (iv_addr _ _ _ _ _ I) in Ha by lia. discriminate.
  - destruct (g_mlock g); [discriminate|]. injection H as <-. auto.
  - injection H as <-. auto.
  - injection H as <-. auto.
  - destruct (g_arc g b); [|discriminate]. injection H as <-. auto.
  - injection H as <-. auto.
  - destruct (owned g b); injection H as <-; auto.
  - injection H as <-. auto.
  - destruct (g_arc g b) as [q|] eqn:Eb; [|discriminate]. destruct (a_lock q) eqn:El; [discriminate|]. injection H as <-.
    cbn. rewrite upd_ne; auto. intros ->. congruence.
  - destruct (access_held _ _ _ _ _ I Hc) as (q & Eb & El). rewrite Eb in H. injection H as <-.
    cbn. rewrite upd_ne; auto. intros ->. congruence.
  - destruct (unlock_held _ _ _ _ _ I Hc) as (q & Eb & El). rewrite Eb in H. injection H as <-.
    cbn. rewrite upd_ne; auto. intros ->. congruence.
Qed.

Lemma sane_go g i g' : inv g -> sane g i -> micro g i = Some g' -> sane g' i.
Proof.
  intros I HS H c' Hc'. unfold micro in H. destruct (t_code (g_thr g i)) as [c|] eqn:Hc; [|discriminate].
  destruct (HS c Hc) as (h & Sf & Hh).
  destruct c as [ro|k|c k|k|c b k|c k|b k|k|b k|b k|b k|b f k|b p k]; cbn in Sf.
  - injection H as <-. cbn in Hc'. rewrite upd_eq in Hc'. discriminate.
  - injection H as <-. cbn in Hc'. rewrite upd_eq in Hc'. injection Hc' as <-. exists h. split; [apply Sf|exact Hh].
  - injection H as <-. cbn in Hc'. rewrite upd_eq in Hc'. injection Hc' as <-. exists h. split; [apply Sf|].
    intros a E. destruct (Hh a E) as (r & Ha & Hr). exists r. cbn. rewrite upd_ne; [auto|]. intros ->.
    destruct I as (rho & eta & I). rewrite (iv_addr _ _ _ _ _ I) in Ha by lia. discriminate.
  - destruct (g_mlock g); [discriminate|]. injection H as <-. cbn in Hc'. rewrite upd_eq in Hc'. injection Hc' as <-. exists h. auto.
  - injection H as <-. cbn in Hc'. rewrite upd_eq in Hc'. injection Hc' as <-. exists h. auto.
  - injection H as <-. cbn in Hc'. rewrite upd_eq in Hc'. injection Hc' as <-. exists h. split; [apply Sf|exact Hh].
  - destruct (g_arc g b); [|discriminate]. injection H as <-. cbn in Hc'. rewrite upd_eq in Hc'. injection Hc' as <-. exists h. auto.
  - injection H as <-. cbn in Hc'. rewrite upd_eq in Hc'. injection Hc' as <-. exists h. auto.
  - destruct (owned g b); injection H as <-; cbn in Hc'; rewrite upd_eq in Hc'; injection Hc' as <-; exists h; (split; [apply Sf|exact Hh]).
  - injection H as <-. cbn in Hc'. rewrite upd_eq in Hc'. injection Hc' as <-. exists h. split; [apply Sf|exact Hh].
  - destruct (g_arc g b) as [q|] eqn:Eb; [|discriminate]. destruct (a_lock q) eqn:El; [discriminate|]. injection H as <-.
    cbn in Hc'. rewrite upd_eq in Hc'. injection Hc' as <-. destruct (a_poison q) eqn:Ep.
    + exists None. split; [apply Sf|discriminate].
    + exists (Some b). split; [apply Sf|]. intros a E. injection E as <-. eexists. cbn. rewrite upd_eq. split; [reflexivity|]. auto.
  - destruct (g_arc g b) as [q|] eqn:Eb; [|discriminate]. injection H as <-.
    cbn in Hc'. rewrite upd_eq in Hc'. injection Hc' as <-. exists h. split; [apply Sf|]. intros a E. destruct (Hh a E) as (r & Ha & Hr).
    destruct Sf as [-> _]. injection E as <-. rewrite Eb in Ha. injection Ha as <-. eexists. cbn. rewrite upd_eq.
    split; [reflexivity|]. exact Hr.
  - destruct (g_arc g b) as [q|] eqn:Eb; [|discriminate]. injection H as <-.
    cbn in Hc'. rewrite upd_eq in Hc'. injection Hc' as <-. exists None. split; [apply Sf|discriminate].
Qed.

Lemma sane_begin g i c g' : begin g i c = Some g' -> safe None c -> sane g' i.
Proof.
  unfold begin. destruct (t_code _); [discriminate|]. intros E Sf. injection E as <-. intros c' Hc'. cbn in Hc'.
  rewrite upd_eq in Hc'. injection Hc' as <-. exists None. split; [exact Sf|discriminate].
Qed.

(** whatever thread [j] does, it leaves safe code to be run *)
Lemma sane_own g j m g' : inv g -> sane g j -> step So tof g j m = Some g' -> sane g' j.
Proof.
  intros I HS H. unfold step in H. apply if_some in H as [Hn H].
  destruct m as [| |c|a|a x|a x|a|oc x y|v dv|x dv|a k|].
  - eapply sane_go; eauto.
  - eapply sane_begin; eauto. cbn. auto.
  - eapply sane_begin; eauto. apply safe_lookup. intros o. exact Logic.I.
  - apply if_some in H as [_ H]. eapply sane_begin; eauto. apply safe_drop. exact Logic.I.
  - destruct (nth_error _ _); [|discriminate]. apply if_some in H as [_ H]. eapply sane_begin; eauto. apply safe_crit. intros [?|?]; exact Logic.I.
  - destruct (nth_error _ _); [|discriminate]. apply if_some in H as [_ H]. eapply sane_begin; eauto. apply safe_crit. intros [?|?]; exact Logic.I.
  - apply if_some in H as [_ H]. eapply sane_begin; eauto. apply safe_tape.
  - apply if_some in H as [_ H]. destruct (nth_error _ _); [|discriminate].
    destruct y; [|eapply sane_begin; eauto; apply safe_op]. destruct (nth_error _ _); [|discriminate]. eapply sane_begin; eauto; apply safe_op.
  - destruct (t_code _) eqn:E; [discriminate|]. injection H as <-. intros c Hc. cbn in Hc. congruence.
  - destruct (t_code _) eqn:E; [discriminate|]. destruct (nth_error _ _); [|discriminate]. injection H as <-. intros c Hc. cbn in Hc. congruence.
  - destruct (t_code (g_thr g j)) eqn:E; [discriminate|]. destruct (t_code (g_thr g k)); [discriminate|].
    apply if_some in H as [_ H]. injection H as <-. intros c Hc. cbn in Hc. unfold upd in Hc.
    destruct (j =? k); [discriminate|]. rewrite Nat.eqb_refl in Hc. discriminate.
  - destruct (t_code (g_thr g j)) eqn:E; [discriminate|]. injection H as <-. intros c Hc. cbn in Hc. unfold upd in Hc.
    destruct (j =? g_n g); cbn in Hc; [discriminate|]. congruence.
Qed.

(** the code of another thread does not change *)
Lemma code_other g j m g' i : inv g -> step So tof g j m = Some g' -> j <> i ->
  t_code (g_thr g' i) = t_code (g_thr g i).
Proof.
  intros I H N. unfold step in H. apply if_some in H as [Hj H].
  assert (forall (f : nat -> thread) t, upd f j t i = f i) as Hu by (intros; apply upd_ne; auto).
  assert (forall c g', begin g j c = Some g' -> t_code (g_thr g' i) = t_code (g_thr g i)) as Hb.
  { intros c g1 E. unfold begin in E. destruct (t_code (g_thr g j)); [discriminate|]. injection E as <-. cbn. rewrite Hu. auto. }
  destruct m as [| |c|a|a x|a x|a|oc x y|v dv|x dv|a k|]; eauto.
  - unfold micro in H. destruct (t_code (g_thr g j)) as [c|] eqn:Hc; [|discriminate].
    destruct c as [ro|k|c k|k|c a k|c k|a k|k|a k|a k|a k|a f k|a p k].
    all: repeat match goal with
      | H : match ?x with Some _ => _ | None => _ end = Some _ |- _ => destruct x; try discriminate
      | H : (if ?x then _ else _) = Some _ |- _ => destruct x
      end; injection H as <-; cbn; rewrite ?Hu; auto.
  - apply if_some in H as [_ H]. eauto.
  - destruct (nth_error _ _); [|discriminate]. apply if_some in H as [_ H]. eauto.
  - destruct (nth_error _ _); [|discriminate]. apply if_some in H as [_ H]. eauto.
  - apply if_some in H as [_ H]. eauto.
  - apply if_some in H as [_ H]. destruct (nth_error _ _); [|discriminate].
    destruct y; eauto. destruct (nth_error _ _); [|discriminate]. eauto.
  - destruct (t_code (g_thr g j)); [discriminate|]. injection H as <-. auto.
  - destruct (t_code (g_thr g j)); [discriminate|]. destruct (nth_error _ _); [|discriminate]. injection H as <-. auto.
  - destruct (t_code (g_thr g j)); [discriminate|]. destruct (t_code (g_thr g k)) eqn:Ek; [discriminate|].
    apply if_some in H as [_ H]. injection H as <-. cbn. unfold upd at 1. destruct (Nat.eqb_spec i k) as [->|]; [cbn; congruence|].
    rewrite Hu. auto.
  - destruct (t_code (g_thr g j)); [discriminate|]. injection H as <-. cbn. unfold upd. destruct (Nat.eqb_spec i (g_n g)) as [->|]; auto.
    destruct I as (rho & eta & I). cbn. rewrite (iv_out _ _ _ _ _ I) by lia. auto.
Qed.

Definition all_sane g : Prop := forall i, sane g i.
Lemma sane_step g j m g' : inv g -> all_sane g -> step So tof g j m = Some g' -> all_sane g'.
Proof.
  intros I HS H i. destruct (Nat.eq_dec j i) as [->|N]; [eapply sane_own; eauto|].
  intros c Hc. rewrite (code_other _ _ _ _ _ I H N) in Hc. destruct (HS i c Hc) as (h & Sf & Hh). exists h. split; auto.
  intros a E. destruct (Hh a E) as (r & Ha & Hl & Hp). exists r. split; [eapply untouched; eauto|auto].
Qed.

(** ** A poisoned context is never changed *)
Definition frozen g (a : nat) (c : nat) (i : inner F) : Prop :=
  exists r, g_arc g a = Some r /\ a_cid r = c /\ a_inner r = i /\ a_poison r = true.

Lemma frozen_step g j m g' a c i : inv g -> all_sane g -> frozen g a c i -> step So tof g j m = Some g' -> frozen g' a c i.
Proof.
  intros I HS (r & Ha & Hr1 & Hr2 & Hp) H. destruct (match m with Go => true | _ => false end) eqn:Em.
  2: { exists r. rewrite (calls_arc _ _ _ _ H); [auto|]. intros ->. discriminate. }
  destruct m; try discriminate. unfold step in H. apply if_some in H as [_ H]. unfold micro in H.
  destruct (t_code (g_thr g j)) as [cd|] eqn:Hc; [|discriminate].
  destruct cd as [ro|k|d k|k|d b k|d k|b k|k|b k|b k|b k|b f k|b p k].
  - injection H as <-. exists r. auto.
  - injection H as <-. exists r. auto.
  - injection H as <-. exists r. cbn. rewrite upd_ne; auto. intros ->. destruct I as (rho & eta & I).
    rewrite (iv_addr _ _ _ _ _ I) in Ha by lia. discriminate.
  - destruct (g_mlock g); [discriminate|]. injection H as <-. exists r. auto.
  - injection H as <-. exists r. auto.
  - injection H as <-. exists r. auto.
  - destruct (g_arc g b); [|discriminate]. injection H as <-. exists r. auto.
  - injection H as <-. exists r. auto.
  - destruct (owned g b); injection H as <-; exists r; auto.
  - injection H as <-. exists r. auto.
  - destruct (g_arc g b) as [q|] eqn:Eb; [|discriminate]. destruct (a_lock q) eqn:El; [discriminate|]. injection H as <-.
    unfold frozen. cbn. unfold upd. destruct (Nat.eqb_spec a b) as [->|]; [|exists r; auto].
    assert (q = r) as -> by congruence. eexists. split; [reflexivity|]. cbn. auto.
  - destruct (HS j _ Hc) as (h & [-> _] & Hh). destruct (Hh b eq_refl) as (q & Eb & El & Ep).
    rewrite Eb in H. injection H as <-. unfold frozen. cbn. unfold upd. destruct (Nat.eqb_spec a b) as [->|]; [|exists r; auto].
    congruence.
  - destruct (g_arc g b) as [q|] eqn:Eb; [|discriminate]. injection H as <-.
    unfold frozen. cbn. unfold upd. destruct (Nat.eqb_spec a b) as [->|]; [|exists r; auto].
    assert (q = r) as -> by congruence. eexists. split; [reflexivity|]. cbn. rewrite Hp. auto.
Qed.

Lemma sane_play s : forall g g', inv g -> all_sane g -> play So tof g s = Some g' -> all_sane g'.
Proof.
  induction s as [|[j m] s IH]; cbn; intros g g' I HS P; [injection P as <-; auto|].
  destruct (step So tof g j m) as [g1|] eqn:E; [|discriminate]. apply (IH g1); auto; [eapply inv_step; eauto|eapply sane_step; eauto].
Qed.
Lemma sane0 : all_sane sys0.
Proof. intros i c H. discriminate. Qed.
Lemma reachable_sane g : reachable So tof g -> all_sane g.
Proof.
  intros [s P]. apply (sane_play s sys0); auto; [|apply sane0].
  exists (fun _ => RNone), (fun _ => HNone). apply inv0.
Qed.

Lemma frozen_play s : forall g g' a c i, inv g -> all_sane g -> frozen g a c i -> play So tof g s = Some g' -> frozen g' a c i.
Proof.
  induction s as [|[j m] s IH]; cbn; intros g g' a c i I HS Fr P; [injection P as <-; auto|].
  destruct (step So tof g j m) as [g1|] eqn:E; [|discriminate].
  apply (IH g1); auto; [eapply inv_step; eauto|eapply sane_step; eauto|eapply frozen_step; eauto].
Qed.

Theorem poisoned_frozen g g' a r : later So tof g g' -> g_arc g a = Some r -> a_poison r = true ->
  exists r', g_arc g' a = Some r' /\ a_cid r' = a_cid r /\ a_inner r' = a_inner r /\ a_poison r' = true.
Proof.
  intros [R [s P]] Ha Hp. pose proof (reach_inv So tof _ R) as I.
  eapply (frozen_play s g g' a); eauto; [apply reachable_sane; auto|]. exists r. auto.
Qed.

(** ** Calls on a poisoned context *)
Section Calls.
Context (a0 c0 : nat) (i0 : inner F) (Q : ret S F -> Prop).

(** every way to run the code, [a0] (number [c0]) being poisoned, returns something in [Q] *)
Fixpoint pp (c : code) : Prop :=
  match c with
  | Ret o => Q o
  | Fetch k => forall c, pp (k c)
  | Alloc _ k => forall a, pp (k a)
  | MLock k | MInsert _ _ k | MRemove _ k | MUnlock k | Unlock _ _ k => pp k
  | MGet c k => pp (k None) /\ forall a, (c = c0 -> a = a0) -> pp (k (Some a))
  | Upgrade _ k | Decr _ k => forall b, pp (k b)
  | Lock a k => pp (k true) /\ (a <> a0 -> pp (k false))
  | Access _ _ k => forall c i, pp (k c i)
  end.

Lemma pp_step g i c g' : inv g -> frozen g a0 c0 i0 -> t_code (g_thr g i) = Some c -> pp c ->
  micro g i = Some g' -> t_code (g_thr g' i) = None \/ exists c', t_code (g_thr g' i) = Some c' /\ pp c'.
Proof.
  intros I (r0 & Ha0 & Hr1 & Hr2 & Hp) Hc HW E. unfold micro in E. rewrite Hc in E.
  destruct c as [ro|k|c k|k|c a k|c k|a k|k|a k|a k|a k|a f k|a p k]; cbn [pp] in HW.
  - injection E as <-. left. cbn. now rewrite upd_eq.
  - injection E as <-. right. cbn. rewrite upd_eq. cbn. eexists. split; [reflexivity|]. apply HW.
  - injection E as <-. right. cbn. rewrite upd_eq. cbn. eexists. split; [reflexivity|]. apply HW.
  - destruct (g_mlock g); [discriminate|]. injection E as <-. right. cbn. rewrite upd_eq. cbn. eexists. split; [reflexivity|]. apply HW.
  - injection E as <-. right. cbn. rewrite upd_eq. cbn. eexists. split; [reflexivity|]. apply HW.
  - injection E as <-. right. cbn. rewrite upd_eq. cbn. eexists. split; [reflexivity|].
    destruct (g_map g c) as [a|] eqn:Em; [|apply HW]. apply HW. intros ->.
    destruct (entries_exact _ _ _ _ _ I Em) as (r & E1 & E2 & _). eapply (ids_unique So tof g a a0 r r0); eauto. congruence.
  - destruct (g_arc g a); [|discriminate]. injection E as <-. right. cbn. rewrite upd_eq. cbn. eexists. split; [reflexivity|]. apply HW.
  - injection E as <-. right. cbn. rewrite upd_eq. cbn. eexists. split; [reflexivity|]. apply HW.
  - destruct (owned g a); injection E as <-; right; cbn; rewrite upd_eq; cbn; eexists; (split; [reflexivity|]); apply HW.
  - injection E as <-. right. cbn. rewrite upd_eq. cbn. eexists. split; [reflexivity|]. apply HW.
  - destruct (g_arc g a) as [r|] eqn:Ea; [|discriminate]. destruct (a_lock r); [discriminate|].
    injection E as <-. right. cbn. rewrite upd_eq. cbn. eexists. split; [reflexivity|].
    destruct (a_poison r) eqn:Ep; [apply HW|]. apply HW. intros ->. congruence.
  - destruct (g_arc g a) as [r|] eqn:Ea; [|discriminate]. injection E as <-. right. cbn. rewrite upd_eq. cbn.
    eexists. split; [reflexivity|]. apply HW.
  - destruct (g_arc g a) as [r|] eqn:Ea; [|discriminate]. injection E as <-. right. cbn. rewrite upd_eq. cbn.
    eexists. split; [reflexivity|]. apply HW.
Qed.

Lemma pp_play i s : forall g g', inv g -> all_sane g -> frozen g a0 c0 i0 -> i < g_n g -> carries_on i s ->
  play So tof g s = Some g' ->
  (t_code (g_thr g i) = None \/ exists c, t_code (g_thr g i) = Some c /\ pp c) ->
  (t_code (g_thr g' i) = None \/ exists c, t_code (g_thr g' i) = Some c /\ pp c).
Proof.
  induction s as [|[j m] s IH]; cbn; intros g g' I HS Fr Hi C P H.
  - injection P as <-. exact H.
  - destruct (step So tof g j m) as [g1|] eqn:E; [|discriminate]. inversion C as [|? ? [C1 C2] C3]; subst. cbn in *.
    apply (IH g1); auto.
    + eapply inv_step; eauto.
    + eapply sane_step; eauto.
    + eapply frozen_step; eauto.
    + apply n_mono in E. lia.
    + destruct (Nat.eq_dec j i) as [->|N].
      * rewrite C1 in E by auto. unfold step in E. apply if_some in E as [_ E].
        destruct H as [H|(c & H & HW)].
        -- unfold micro in E. rewrite H in E. discriminate.
        -- eapply pp_step; eauto.
      * rewrite (code_other _ _ _ _ _ I E N). exact H.
Qed.

Lemma pp_returns g i m r g' c : frozen g a0 c0 i0 -> returns So tof g i m r g' ->
  (forall g1, step So tof g i m = Some g1 -> begin g i c = Some g1) -> pp c -> Q r.
Proof.
  intros Fr (R & g1 & s & E & C & P & HR) HB HW.
  pose proof (reach_inv So tof _ R) as I. specialize (HB _ E). pose proof (inv_step _ _ _ _ _ _ E I) as I1.
  pose proof (reachable_sane _ R) as HS.
  pose proof (sane_step _ _ _ _ I HS E) as HS1. pose proof (frozen_step _ _ _ _ _ _ _ I HS Fr E) as Fr1.
  assert (i < g_n g) as Hi by (clear - E; unfold step in E; apply if_some in E as [E _]; apply Nat.ltb_lt in E; exact E).
  unfold begin in HB. destruct (t_code (g_thr g i)); [discriminate|]. injection HB as <-.
  destruct (pp_play i s _ _ I1 HS1 Fr1 Hi C P) as [H|(c' & H & HQ)].
  - right. exists c. cbn. rewrite upd_eq. split; [reflexivity|exact HW].
  - congruence.
  - rewrite HR in H. injection H as <-. exact HQ.
Qed.

Lemma pp_crit_poisoned {B} (body : nat -> inner F -> res (B * inner F)) (k : res B -> code) :
  pp (k (Panic PUnwrap)) -> pp (crit a0 body k).
Proof. intros H. cbn. split; [exact H|]. congruence. Qed.
Lemma pp_crit {B} a (body : nat -> inner F -> res (B * inner F)) (k : res B -> code) :
  pp (k (Panic PUnwrap)) -> (a <> a0 -> forall r, pp (k r)) -> pp (crit a body k).
Proof.
  intros H H'. cbn. split; [exact H|]. intros N c i. destruct (body c i) as [[b i']|p]; cbn; apply H'; auto.
Qed.
Lemma pp_drop a k : pp k -> pp (c_drop a k).
Proof. intros H. cbn. intros [|]; cbn; auto. Qed.
Lemma pp_lookup (k : option nat -> code) : pp (k None) -> pp (k (Some a0)) -> pp (c_from_cid c0 k).
Proof.
  intros H1 H2. cbn. split; [exact H1|]. intros a E. rewrite (E eq_refl). intros [|]; cbn; auto.
Qed.
End Calls.

Lemma call_panics g i m p g' a r : returns So tof g i m p g' -> g_arc g a = Some r -> a_poison r = true ->
  (m = DoTape a \/ exists n, m = DoIndep a n \/ m = DoDep a n) -> p = RPanic PUnwrap.
Proof.
  intros HR Ha Hp Hm. assert (frozen g a (a_cid r) (a_inner r)) as Fr by (exists r; auto).
  pose proof (fun c => pp_returns a (a_cid r) (a_inner r) (fun p => p = RPanic PUnwrap) g i m p g' c Fr HR) as HQ.
  destruct (returns_call _ _ _ _ _ _ _ HR) as (g1 & E).
  destruct Hm as [->|(n & [-> | ->])].
  - apply (HQ (c_tape a)); [|apply pp_crit_poisoned; reflexivity].
    intros g2 E2. unfold step in E2. apply if_some in E2 as [_ E2]. apply if_some in E2 as [_ E2]. exact E2.
  - unfold step in E. apply if_some in E as [_ E]. destruct (nth_error (g_vars g) n) as [x|] eqn:En; [|discriminate].
    apply (HQ (c_set_indep tof a x)); [|apply pp_crit_poisoned; reflexivity].
    intros g2 E2. unfold step in E2. apply if_some in E2 as [_ E2]. rewrite En in E2. apply if_some in E2 as [_ E2]. exact E2.
  - unfold step in E. apply if_some in E as [_ E]. destruct (nth_error (g_vars g) n) as [x|] eqn:En; [|discriminate].
    apply (HQ (c_set_dep tof a x)); [|apply pp_crit_poisoned; reflexivity].
    intros g2 E2. unfold step in E2. apply if_some in E2 as [_ E2]. rewrite En in E2. apply if_some in E2 as [_ E2]. exact E2.
Qed.

(** the result of an operation: a panic or a detached variable *)
Definition lost (p : ret S F) : Prop := (exists q, p = RPanic q) \/ exists v, p = RVar v /\ af_ctx v = None.

Lemma pp_op a c oc x y : (exists k, af_ctx x = Some (c, k)) \/ (exists z k, y = Some z /\ af_ctx z = Some (c, k)) ->
  pp a c lost (c_from_op So tof oc x y).
Proof.
  intros Hx. assert (forall q, lost (RPanic q)) as LP by (intros q; left; eauto).
  unfold c_from_op. destruct (zero_order_value _ _ _ _) as [v|p]; [|apply LP].
  destruct (first_order_value _ _ _ _ _ _) as [dv|p]; [|apply LP].
  destruct (pick_cid x y) as [[d|]|p] eqn:Ep; [|right; eexists; split; reflexivity|apply LP].
  assert (d = c) as ->.
  { unfold pick_cid in Ep. destruct Hx as [(k & E)|(z & k & -> & E)].
    - rewrite E in Ep. destruct y as [z|]; [|congruence]. destruct (af_ctx z) as [[c2 k2]|]; [|congruence].
      destruct (c2 =? c) eqn:Ec; cbn in Ep; congruence.
    - rewrite E in Ep. destruct (af_ctx x) as [[c1 k1]|]; [|congruence].
      destruct (c =? c1) eqn:Ec; cbn in Ep; [|discriminate]. apply Nat.eqb_eq in Ec. congruence. }
  apply pp_lookup; [right; eexists; split; reflexivity|].
  assert (forall q, pp a c lost (c_drop a (Ret (RPanic q)))) as DP by (intros q; apply pp_drop; apply LP).
  assert (forall i1 i2, pp a c lost (crit a (body_record tof oc v (Some i1) i2) (fun r =>
    match r with Panic p => c_drop a (Ret (RPanic p)) | Ok vid => c_drop a (Ret (RVar (mkAF v dv (Some (c, vid))))) end))) as HL.
  { intros i1 i2. apply pp_crit_poisoned. apply DP. }
  assert (forall z (k : res nat -> code), pp a c lost (k (Panic PUnwrap)) -> (forall n, pp a c lost (k (Ok n))) -> pp a c lost (c_ensure tof a z k)) as HE.
  { intros z k H1 H2. unfold c_ensure. destruct (af_ctx z) as [[? n]|]; [apply H2|]. apply pp_crit_poisoned, H1. }
  apply HE; [apply DP|]. intros i1. destruct y as [y'|]; [|apply HL]. apply HE; [apply DP|]. intros i2. apply HL.
Qed.

Theorem op_lost g i oc n y p g' a r x : returns So tof g i (DoOp oc n y) p g' -> g_arc g a = Some r -> a_poison r = true ->
  (y = None /\ nth_error (g_vars g) n = Some x \/ exists m, y = Some m /\ (nth_error (g_vars g) n = Some x \/ nth_error (g_vars g) m = Some x)) ->
  (exists k, af_ctx x = Some (a_cid r, k)) ->
  (exists q, p = RPanic q) \/ exists v, p = RVar v /\ af_ctx v = None.
Proof.
  intros HR Ha Hp Hv Hx. assert (frozen g a (a_cid r) (a_inner r)) as Fr by (exists r; auto).
  pose proof (fun c => pp_returns a (a_cid r) (a_inner r) lost g i _ p g' c Fr HR) as HQ.
  destruct (returns_call _ _ _ _ _ _ _ HR) as (g1 & E). unfold step in E. apply if_some in E as [_ E]. apply if_some in E as [_ E].
  destruct (nth_error (g_vars g) n) as [x1|] eqn:En; [|discriminate].
  destruct Hv as [[-> Hn]|(m & -> & Hm)].
  - injection Hn as ->. apply (HQ (c_from_op So tof oc x None)).
    + intros g2 E2. unfold step in E2. apply if_some in E2 as [_ E2]. apply if_some in E2 as [_ E2]. rewrite En in E2. exact E2.
    + apply pp_op. auto.
  - destruct (nth_error (g_vars g) m) as [x2|] eqn:Em; [|discriminate].
    apply (HQ (c_from_op So tof oc x1 (Some x2))).
    + intros g2 E2. unfold step in E2. apply if_some in E2 as [_ E2]. apply if_some in E2 as [_ E2]. rewrite En, Em in E2. exact E2.
    + apply pp_op. destruct Hx as [k Hx]. destruct Hm as [Hm|Hm]; injection Hm as ->; [left|right]; eauto.
Qed.
End Poison.
