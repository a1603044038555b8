(** Proofs for C89. *)
From Coq Require Import List Arith ZArith Bool Lia.
From Verif Require Import Base Float Operation Tape AContext AContextFacts Spec Ffi Concurrent ConcSpec ConcFacts ConcInv ConcMain
  ConcBound ConcWrite ConcErase.
Import ListNotations.

(** ** Recordings only grow, and snapshots consist of initial parts of them *)
Section Grow.
Context {S F : Type} (So : Fops S) (tof : S -> option F).
Notation code := (code S F). Notation sys := (sys S F).

Definition below (i j : inner F) : Prop :=
  prefix (i_indeps i) (i_indeps j) /\ prefix (i_deps i) (i_deps j) /\ prefix (i_ops i) (i_ops j) /\
  prefix (i_vals i) (i_vals j).
Lemma prefix_refl {A} (l : list A) : prefix l l.
Proof. exists []. rewrite app_nil_r. auto. Qed.
Lemma prefix_trans {A} (l m n : list A) : prefix l m -> prefix m n -> prefix l n.
Proof. intros [a ->] [b ->]. exists (a ++ b). rewrite app_assoc. auto. Qed.
Lemma prefix_app {A} (l m : list A) : prefix l (l ++ m).
Proof. exists m. auto. Qed.
Lemma below_refl i : below i i.
Proof. repeat split; apply prefix_refl. Qed.
Lemma below_trans i j k : below i j -> below j k -> below i k.
Proof. intros (A & B & C & D) (A' & B' & C' & D'). repeat split; eapply prefix_trans; eauto. Qed.

(** The call only appends to recordings, and the tape it returns, if any, consists of what it has
    seen in one context; [H]: what it has seen. *)
Fixpoint sok (H : nat -> inner F -> Prop) (c : code) : Prop :=
  match c with
  | Ret (RTape t) => exists a i1 i2 i3 i4, H a i1 /\ H a i2 /\ H a i3 /\ H a i4 /\
      t = mkTape (i_indeps i1) (i_deps i2) (i_ops i3) (i_vals i4)
  | Ret _ => True
  | Fetch k | Alloc _ k => forall n, sok H (k n)
  | MLock k | MInsert _ _ k | MRemove _ k | MUnlock k | Unlock _ _ k => sok H k
  | MGet _ k => forall o, sok H (k o)
  | Upgrade _ k | Decr _ k | Lock _ k => forall b, sok H (k b)
  | Access a f k => (forall c i, below i (f c i)) /\ forall c i, sok (fun b j => H b j \/ (b = a /\ j = i)) (k c i)
  end.

Lemma sok_mono c : forall H H' : nat -> inner F -> Prop, (forall a i, H a i -> H' a i) -> sok H c -> sok H' c.
Proof.
  induction c as [o|k IH|c k IH|k IH|c a k IH|c k IH|a k IH|k IH|a k IH|a k IH|a k IH|a f k IH|a p k IH];
    intros H H' HS; cbn; try (intros HK; intros; eapply IH; eauto; fail).
  - destruct o; auto. intros (a & i1 & i2 & i3 & i4 & A & B & C & D & E). exists a, i1, i2, i3, i4. repeat split; auto.
  - intros [A B]. split; auto. intros c i. apply IH with (2 := B c i). intros b j [X|X]; auto.
Qed.

Lemma sok_crit {B} H a (body : nat -> inner F -> res (B * inner F)) k :
  (forall c i b i', body c i = Ok (b, i') -> below i i') ->
  (forall p, sok H (k (Panic p))) ->
  (forall c i b i', body c i = Ok (b, i') -> sok (fun b j => H b j \/ (b = a /\ j = i)) (k (Ok b))) ->
  sok H (crit a body k).
Proof.
  intros HB HP HK. cbn. intros [|]; cbn; auto. split.
  - intros c i. destruct (body c i) as [[b i']|p] eqn:E; eauto using below_refl.
  - intros c i. destruct (body c i) as [[b i']|p] eqn:E; cbn; eauto. apply sok_mono with (2 := HP p); auto.
Qed.

Lemma below_app i l2 l3 l4 l5 : below i (mkInner (i_indeps i ++ l2) (i_deps i ++ l3) (i_ops i ++ l4) (i_vals i ++ l5)).
Proof. repeat split; apply prefix_app. Qed.

Lemma below_rec oc v a1 a2 c i b i' : body_record tof oc v a1 a2 c i = Ok (b, i') -> below i i'.
Proof.
  unfold body_record. destruct (tof v); cbn; [|discriminate]. intros E. injection E as <- <-.
  repeat split; try apply prefix_app; apply prefix_refl.
Qed.

Lemma sok_drop H a k : sok H k -> sok H (c_drop a k).
Proof. intros HK. cbn. intros [|]; cbn; auto. Qed.
Lemma sok_cid H c k : (forall o, sok H (k o)) -> sok H (c_from_cid c k).
Proof. intros HK. cbn. intros [a|]; cbn; auto. intros [|]; cbn; auto. Qed.
Lemma sok_ensure H a x k : (forall H' r, sok H' (k r)) -> sok H (c_ensure tof a x k).
Proof.
  intros HK. unfold c_ensure. destruct (af_ctx x) as [[c v]|]; auto.
  apply sok_crit; auto. intros. eapply below_rec; eauto.
Qed.

Lemma sok_op H oc x y : sok H (c_from_op So tof oc x y).
Proof.
  unfold c_from_op. destruct (zero_order_value _ _ _ _) as [v|p]; [|exact Logic.I].
  destruct (first_order_value _ _ _ _ _ _) as [dv|p]; [|exact Logic.I].
  destruct (pick_cid x y) as [[c|]|p]; [|exact Logic.I|exact Logic.I].
  apply sok_cid. intros [a|]; [|exact Logic.I].
  assert (forall H p, sok H (c_drop a (Ret (RPanic p)))) as HP by (intros; apply sok_drop; exact Logic.I).
  assert (forall H i1 i2, sok H (crit a (body_record tof oc v (Some i1) i2) (fun r =>
    match r with Panic p => c_drop a (Ret (RPanic p)) | Ok vid => c_drop a (Ret (RVar (mkAF v dv (Some (c, vid))))) end))) as HL.
  { intros H' i1 i2. apply sok_crit; auto.
    - intros. eapply below_rec; eauto.
    - intros. apply sok_drop. exact Logic.I. }
  apply sok_ensure. intros H1 [i1|p]; auto. destruct y as [y|]; auto.
  apply sok_ensure. intros H2 [i2|p]; auto.
Qed.

Lemma sok_tape H a : sok H (c_tape a).
Proof.
  unfold c_tape.
  apply sok_crit; [unfold body_get; intros c i b i' E; injection E as <- <-; apply below_refl|intros; exact Logic.I|].
  intros c1 i1 b1 i1' E1. injection E1 as <- <-.
  apply sok_crit; [unfold body_get; intros c i b i' E; injection E as <- <-; apply below_refl|intros; exact Logic.I|].
  intros c2 i2 b2 i2' E2. injection E2 as <- <-.
  apply sok_crit; [unfold body_get; intros c i b i' E; injection E as <- <-; apply below_refl|intros; exact Logic.I|].
  intros c3 i3 b3 i3' E3. injection E3 as <- <-.
  apply sok_crit; [unfold body_get; intros c i b i' E; injection E as <- <-; apply below_refl|intros; exact Logic.I|].
  intros c4 i4 b4 i4' E4. injection E4 as <- <-.
  cbn. exists a, i1, i2, i3, i4. repeat split; auto 10.
Qed.

Lemma sok_indep H a x : sok H (c_set_indep tof a x).
Proof.
  apply sok_crit; try (intros; exact Logic.I). unfold body_indep. intros c i b i' E.
  destruct (tof (af_v x)); cbn in E; [|discriminate]. injection E as <- <-.
  repeat split; try apply prefix_app; apply prefix_refl.
Qed.
Lemma sok_dep H a x : sok H (c_set_dep tof a x).
Proof.
  apply sok_crit; try (intros; exact Logic.I). unfold body_dep. intros c i b i' E. destruct (af_ctx x) as [[cid v]|].
  - unfold assert in E. destruct (cid =? c); cbn in E; [|discriminate]. injection E as <- <-.
    repeat split; try apply prefix_app; apply prefix_refl.
  - destruct (tof (af_v x)); cbn in E; [|discriminate]. injection E as <- <-.
    repeat split; try apply prefix_app; apply prefix_refl.
Qed.

(** What has been seen in context [a]: an earlier state of it. *)
Definition seen_in (g : sys) (a : nat) (i : inner F) : Prop := exists r, g_arc g a = Some r /\ below i (a_inner r).
(** [g'] has all contexts of [g], with more recorded. *)
Definition grown (g g' : sys) : Prop := forall a r, g_arc g a = Some r ->
  exists r', g_arc g' a = Some r' /\ a_cid r' = a_cid r /\ below (a_inner r) (a_inner r').
Lemma grown_refl g : grown g g.
Proof. intros a r H. exists r. auto using below_refl. Qed.
Lemma grown_trans g h k : grown g h -> grown h k -> grown g k.
Proof.
  intros A B a r H. destruct (A _ _ H) as (s & Hs & E & L). destruct (B _ _ Hs) as (t & Ht & E' & L').
  exists t. split; auto. split; [congruence|]. eapply below_trans; eauto.
Qed.
Lemma grown_seen g h a i : grown g h -> seen_in g a i -> seen_in h a i.
Proof. intros A (r & H & L). destruct (A _ _ H) as (s & Hs & _ & L'). exists s. split; auto. eapply below_trans; eauto. Qed.
Lemma grown_arc g a r r' : g_arc g a = Some r -> a_cid r' = a_cid r -> below (a_inner r) (a_inner r') -> grown g (set_arc g a r').
Proof.
  intros H E L b s Hs. cbn. unfold upd. destruct (Nat.eqb_spec b a) as [->|]; [|exists s; auto using below_refl].
  rewrite H in Hs. injection Hs as <-. eauto.
Qed.

Definition shot (g : sys) (t : tape F) : Prop := exists a r, g_arc g a = Some r /\ snapshot_of t r.
Lemma shot_grown g h t : grown g h -> shot g t -> shot h t.
Proof.
  intros G (a & r & H & (A & B & C & D)). destruct (G _ _ H) as (s & Hs & _ & (A' & B' & C' & D')).
  exists a, s. split; auto. repeat split; eapply prefix_trans; eauto.
Qed.
Lemma seen_shot g c : sok (seen_in g) c -> forall t, c = Ret (RTape t) -> shot g t.
Proof.
  intros H t ->. destruct H as (a & i1 & i2 & i3 & i4 & (r & R & L1 & _) & (r2 & R2 & _ & L2 & _) & (r3 & R3 & _ & _ & L3 & _) &
    (r4 & R4 & _ & _ & _ & L4) & ->).
  rewrite R in R2, R3, R4. injection R2 as <-. injection R3 as <-. injection R4 as <-. exists a, r. repeat split; auto.
Qed.

Record sinv (g : sys) : Prop := {
  si_addr : forall a, g_anext g <= a -> g_arc g a = None;
  si_thr : forall i c, t_code (g_thr g i) = Some c -> sok (seen_in g) c;
  si_tapes : forall t, In t (g_tapes g) -> shot g t
}.

(** A step of thread [i] that grows the contexts. *)
Lemma sinv_next g g' i : sinv g -> grown g g' -> (forall a, g_anext g' <= a -> g_arc g' a = None) ->
  (forall j, j <> i -> forall c, t_code (g_thr g' j) = Some c -> t_code (g_thr g j) = Some c) ->
  (forall c, t_code (g_thr g' i) = Some c -> sok (seen_in g') c) ->
  (forall t, In t (g_tapes g') -> In t (g_tapes g) \/ shot g' t) ->
  sinv g' /\ grown g g'.
Proof.
  intros I G HA HO HC HT. split; auto. split; auto.
  - intros j c Hj. destruct (Nat.eq_dec j i) as [->|N]; auto.
    apply sok_mono with (H := seen_in g); [intros; eapply grown_seen; eauto|]. apply (si_thr _ I j). eauto.
  - intros t Ht. destruct (HT t Ht) as [H|H]; auto. eapply shot_grown; eauto. apply I; auto.
Qed.

Lemma upd_eq' {B} (f : nat -> B) i b : upd f i b i = b.
Proof. unfold upd. rewrite Nat.eqb_refl. auto. Qed.
Lemma upd_ne' {B} (f : nat -> B) i j b : j <> i -> upd f i b j = f j.
Proof. intros H. unfold upd. apply Nat.eqb_neq in H. rewrite H. auto. Qed.

Ltac fields := cbn [set_thr set_arc set_map set_mlock add_var g_next g_map g_mlock g_anext g_arc g_n g_thr g_vars g_tapes] in *.
Ltac others := fields; intros j N c' Hc; rewrite ?upd_ne' in Hc by auto; exact Hc.
Ltac mine := fields; intros c' Hc; rewrite upd_eq' in Hc; cbn [t_code] in Hc; try discriminate Hc; injection Hc as <-.

Lemma micro_grows g i g' : sinv g -> micro g i = Some g' -> sinv g' /\ grown g g'.
Proof.
  intros I E. unfold micro in E. destruct (t_code (g_thr g i)) as [c|] eqn:Ec; [|discriminate].
  pose proof (si_thr _ I i c Ec) as K.
  assert (forall a r, g_arc g a = Some r -> a < g_anext g) as Hlt.
  { intros a r H. destruct (Nat.lt_ge_cases a (g_anext g)); auto. rewrite (si_addr _ I) in H by auto. discriminate. }
  assert (forall a r r', g_arc g a = Some r -> forall b, g_anext g <= b -> upd (g_arc g) a (Some r') b = None) as Harc.
  { intros a r r' H b Hb. apply Hlt in H. rewrite upd_ne' by lia. apply I; auto. }
  destruct c as [r|k|c k|k|c a k|c k|a k|k|a k|a k|a k|a f k|a p k]; cbn [sok] in K.
  - injection E as <-. apply sinv_next with i; auto; [exact (grown_refl g)|apply I|others|mine|].
    fields. intros t. destruct r; auto. rewrite in_app_iff. intros [H|[<-|[]]]; auto. right.
    exact (seen_shot g (Ret (RTape _)) K _ eq_refl).
  - injection E as <-. apply sinv_next with i; auto; [exact (grown_refl g)|apply I|others|mine; apply K].
  - injection E as <-.
    assert (forall h, g_arc h = upd (g_arc g) (g_anext g) (Some (mkArc c (mkInner [] [] [] []) None false)) -> grown g h) as G.
    { intros h Eh a r H. rewrite Eh, upd_ne' by (apply Hlt in H; lia). exists r. auto using below_refl. }
    apply sinv_next with i; auto.
    + fields. intros a Ha. rewrite upd_ne' by lia. apply I. lia.
    + others.
    + mine. apply sok_mono with (2 := K (g_anext g)). intros a' i'. apply grown_seen, G. reflexivity.
  - destruct (g_mlock g); [discriminate|]. injection E as <-.
    apply sinv_next with i; auto; [exact (grown_refl g)|apply I|others|mine; apply K].
  - injection E as <-. apply sinv_next with i; auto; [exact (grown_refl g)|apply I|others|mine; apply K].
  - injection E as <-. apply sinv_next with i; auto; [exact (grown_refl g)|apply I|others|mine; apply K].
  - destruct (g_arc g a) as [r|]; [|discriminate]. injection E as <-.
    apply sinv_next with i; auto; [exact (grown_refl g)|apply I|others|mine; apply K].
  - injection E as <-. apply sinv_next with i; auto; [exact (grown_refl g)|apply I|others|mine; apply K].
  - destruct (owned g a); injection E as <-;
      (apply sinv_next with i; auto; [exact (grown_refl g)|apply I|others|mine; apply K]).
  - injection E as <-. apply sinv_next with i; auto; [exact (grown_refl g)|apply I|others|mine; apply K].
  - destruct (g_arc g a) as [r|] eqn:Ea; [|discriminate]. destruct (a_lock r); [discriminate|]. injection E as <-.
    assert (grown g (set_arc g a (mkArc (a_cid r) (a_inner r) (Some i) (a_poison r)))) as G
      by (eapply grown_arc; eauto using below_refl).
    apply sinv_next with i; auto; [fields; eauto|others|mine].
    apply sok_mono with (2 := K (a_poison r)). intros a' i' X. exact (grown_seen _ _ a' i' G X).
  - destruct (g_arc g a) as [r|] eqn:Ea; [|discriminate]. injection E as <-. destruct K as [K1 K2].
    assert (grown g (set_arc g a (mkArc (a_cid r) (f (a_cid r) (a_inner r)) (a_lock r) (a_poison r)))) as G
      by (eapply grown_arc; eauto; apply K1).
    apply sinv_next with i; auto; [fields; eauto|others|mine].
    apply sok_mono with (2 := K2 (a_cid r) (a_inner r)). intros a' i' [X|[-> ->]].
    + exact (grown_seen _ _ a' i' G X).
    + apply (grown_seen _ _ a (a_inner r) G). exists r. auto using below_refl.
  - destruct (g_arc g a) as [r|] eqn:Ea; [|discriminate]. injection E as <-.
    assert (grown g (set_arc g a (mkArc (a_cid r) (a_inner r) None (a_poison r || p)))) as G
      by (eapply grown_arc; eauto using below_refl).
    apply sinv_next with i; auto; [fields; eauto|others|mine].
    apply sok_mono with (2 := K). intros a' i' X. exact (grown_seen _ _ a' i' G X).
Qed.

Lemma begin_grows g i c g' : sinv g -> (forall H, sok H c) -> begin g i c = Some g' -> sinv g' /\ grown g g'.
Proof.
  intros I HK E. unfold begin in E. destruct (t_code (g_thr g i)); [discriminate|]. injection E as <-.
  apply sinv_next with i; auto; [exact (grown_refl g)|apply I|others|mine; apply HK].
Qed.

Lemma wstep_grows g i m g' : sinv g -> wstep So tof g i m = Some g' -> sinv g' /\ grown g g'.
Proof.
  intros I E.
  assert (forall x, t_code (g_thr g i) = None -> sinv (add_var g x) /\ grown g (add_var g x)) as HV.
  { intros x Hc. apply sinv_next with i; auto; [exact (grown_refl g)|apply I|]. fields. intros c Hx. congruence. }
  destruct m as [m|x v]; cbn [wstep] in E.
  - unfold step in E. destruct (i <? g_n g); [|discriminate].
    destruct m as [| |c|a|a x|a x|a|oc x y|v dv|x dv|a j|].
    + eapply micro_grows; eauto.
    + eapply begin_grows; eauto. intros H. cbn. auto.
    + eapply begin_grows; eauto. intros H. apply sok_cid. intros o. exact Logic.I.
    + destruct (has _ _); [|discriminate]. eapply begin_grows; eauto. intros H. apply sok_drop. exact Logic.I.
    + destruct (nth_error _ _); [|discriminate]. destruct (has _ _); [|discriminate]. eapply begin_grows; eauto using sok_indep.
    + destruct (nth_error _ _); [|discriminate]. destruct (has _ _); [|discriminate]. eapply begin_grows; eauto using sok_dep.
    + destruct (has _ _); [|discriminate]. eapply begin_grows; eauto using sok_tape.
    + destruct (right_arity oc y); [|discriminate]. destruct (nth_error _ x); [|discriminate].
      destruct y as [y|]; [destruct (nth_error _ y); [|discriminate]|]; eapply begin_grows; eauto using sok_op.
    + destruct (t_code (g_thr g i)) eqn:Ec; [discriminate|]. injection E as <-. auto.
    + destruct (t_code (g_thr g i)) eqn:Ec; [discriminate|]. destruct (nth_error _ x); [|discriminate].
      injection E as <-. auto.
    + destruct (t_code (g_thr g i)) eqn:Ec; [discriminate|]. destruct (t_code (g_thr g j)) eqn:Ej; [discriminate|].
      destruct (_ && _); [|discriminate]. injection E as <-.
      apply sinv_next with i; auto; [exact (grown_refl g)|apply I| |].
      * fields. intros l N c Hc. destruct (Nat.eq_dec l j) as [->|N']; [rewrite upd_eq' in Hc; discriminate|].
        rewrite !upd_ne' in Hc by auto. exact Hc.
      * fields. intros c Hc. destruct (Nat.eq_dec i j) as [->|N']; [rewrite upd_eq' in Hc; discriminate|].
        rewrite upd_ne', upd_eq' in Hc by auto. discriminate.
    + destruct (t_code (g_thr g i)) eqn:Ec; [discriminate|]. injection E as <-.
      apply sinv_next with (g_n g); auto; [exact (grown_refl g)|apply I|others|mine].
  - destruct (i <? g_n g); [|discriminate]. destruct (t_code (g_thr g i)) eqn:Ec; [discriminate|].
    destruct (nth_error _ x); [|discriminate]. injection E as <-. auto.
Qed.

Lemma wplay_grows s : forall g g', sinv g -> wplay So tof g s = Some g' -> sinv g' /\ grown g g'.
Proof.
  induction s as [|[i m] s IH]; cbn; intros g g' I E; [injection E as <-; auto using grown_refl|].
  destruct (wstep So tof g i m) as [h|] eqn:Eh; [|discriminate]. destruct (wstep_grows _ _ _ _ I Eh) as [I' G].
  destruct (IH _ _ I' E) as [I'' G']. split; auto. eapply grown_trans; eauto.
Qed.
Lemma sinv0 : sinv sys0.
Proof. split; cbn; auto; try discriminate. intros t []. Qed.
Lemma wreachable_sinv g : wreachable So tof g -> sinv g.
Proof. intros [s E]. apply (wplay_grows s _ _ sinv0 E). Qed.

End Grow.

(** ** Transfer *)
Section Transfer.
Context {S F : Type} (So : Fops S) (tof : S -> option F) (total : forall s, tof s <> None).
Notation sys := (sys S F).
Implicit Types (g : sys) (h : Concurrent.sys unit unit).

Lemma reach_rel g : wreachable So tof g -> exists h, reachable uops Some h /\ grel g h.
Proof.
  intros [s E]. pose proof (play_rel So tof total s _ _ grel0) as R. rewrite E in R. inversion R as [|a b H E1 E2]; subst.
  exists b. split; auto. exists (er_sched s). auto.
Qed.

Lemma wf_er (t : tape F) : wf_tape (er_tape t) -> wf_tape t.
Proof. intros []. split; auto; cbn in *; rewrite map_length in *; auto. Qed.
Lemma recorded_er (i : inner F) : recorded_tape (tape_of (er_inner i)) -> recorded_tape (tape_of i).
Proof.
  intros [A B C D]. split; auto; cbn in *; rewrite ?map_length in *; auto.
  apply wf_er. exact A.
Qed.

Lemma arc_fwd g h a r : grel g h -> g_arc g a = Some r -> g_arc h a = Some (er_arc r).
Proof. intros G E. rewrite (gr_arc _ _ G), E. reflexivity. Qed.
Lemma arc_bwd g h a r' : grel g h -> g_arc h a = Some r' -> exists r, g_arc g a = Some r /\ r' = er_arc r.
Proof. intros G E. rewrite (gr_arc _ _ G) in E. destruct (g_arc g a) as [r|]; [|discriminate]. injection E as <-. eauto. Qed.

Lemma idle_er g h i : grel g h -> idle g i <-> idle h i.
Proof. intros G. unfold idle. destruct (gr_thr _ _ G i) as [_ []]; split; congruence. Qed.
Lemma refs_er g h i : grel g h -> t_refs (g_thr h i) = t_refs (g_thr g i).
Proof. intros G. apply (gr_thr _ _ G i). Qed.
Lemma live_er g h a : grel g h -> live g a <-> live h a.
Proof. intros G. unfold live. split; intros [i H]; exists i; rewrite (refs_er _ _ _ G) in *; auto. Qed.

Lemma code_bwd g h i c' : grel g h -> t_code (g_thr h i) = Some c' -> exists c, t_code (g_thr g i) = Some c /\ crel c c'.
Proof. intros G E. destruct (gr_thr _ _ G i) as [_ R]. rewrite E in R. inversion R; subst. eauto. Qed.
Lemma holds_er g h i : grel g h -> holds g i <-> holds h i.
Proof.
  intros G. unfold holds. rewrite (gr_mlock _ _ G). split; intros [H|(a & r & A & L)]; auto; right.
  - exists a, (er_arc r). split; auto. eapply arc_fwd; eauto.
  - apply (arc_bwd _ _ _ _ G) in A as (s & A & ->). eauto.
Qed.
Lemma waits_er g h i j : grel g h -> waits_for h i j -> waits_for g i j.
Proof.
  intros G [(k & E & L)|(a & k & r & E & A & L)]; apply (code_bwd _ _ _ _ G) in E as (c & E & R).
  - left. inversion R; subst. rewrite (gr_mlock _ _ G) in L. eauto.
  - right. inversion R; subst. apply (arc_bwd _ _ _ _ G) in A as (s & A & ->). exists a. do 2 eexists. eauto.
Qed.
Lemma constructing_er g h i a : grel g h -> constructing h i a -> constructing g i a.
Proof.
  intros G (c & k & [E|E]); apply (code_bwd _ _ _ _ G) in E as (x & E & R); inversion R; subst.
  - match goal with H : crel _ (MInsert _ _ _) |- _ => inversion H; subst end. exists c. eexists. left. eauto.
  - exists c. eexists. right. eauto.
Qed.
Lemma destroying_er g h i a : grel g h -> destroying h i a -> destroying g i a.
Proof.
  intros G (k & [E|E]); apply (code_bwd _ _ _ _ G) in E as (x & E & R); inversion R; subst.
  - match goal with H : crel _ (MRemove _ _) |- _ => inversion H; subst end. eexists. left. eauto.
  - eexists. right. eauto.
Qed.

Lemma step_fwd g h i m g1 : grel g h -> wstep So tof g i m = Some g1 ->
  exists h1, step uops Some h i (er_move m) = Some h1 /\ grel g1 h1.
Proof. intros G E. pose proof (step_rel So tof total g h i m G) as R. rewrite E in R. inversion R; subst. eauto. Qed.
Lemma go_bwd g h i h1 : grel g h -> step uops Some h i Go = Some h1 ->
  exists g1, wstep So tof g i (Plain Go) = Some g1 /\ grel g1 h1.
Proof.
  intros G E. pose proof (step_rel So tof total g h i (Plain Go) G) as R. cbn [er_move] in R. rewrite E in R.
  inversion R; subst. eauto.
Qed.
Lemma play_fwd s g h g1 : grel g h -> wplay So tof g s = Some g1 ->
  exists h1, play uops Some h (er_sched s) = Some h1 /\ grel g1 h1.
Proof. intros G E. pose proof (play_rel So tof total s g h G) as R. rewrite E in R. inversion R; subst. eauto. Qed.

Definition gos (s : list (nat * @move unit)) : list (nat * wmove S) := map (fun m => (fst m, Plain Go)) s.
Lemma gos_bwd s : forall g h h1, grel g h -> only_go s -> play uops Some h s = Some h1 ->
  exists g1, wplay So tof g (gos s) = Some g1 /\ grel g1 h1.
Proof.
  induction s as [|[i m] s IH]; intros g h h1 G O E; cbn in E; [injection E as <-; exists g; split; auto; reflexivity|].
  inversion O as [|x l Em O']; subst. cbn in Em. subst m.
  destruct (step uops Some h i Go) as [h2|] eqn:Eh; [|discriminate].
  destruct (go_bwd _ _ _ _ G Eh) as (g2 & Eg & G2). destruct (IH _ _ _ G2 O' E) as (g1 & E1 & G1).
  exists g1. split; auto. cbn [gos map fst wplay]. rewrite Eg. exact E1.
Qed.
Lemma gos_go s : wonly_go (gos s).
Proof. unfold wonly_go, gos. apply Forall_map. apply Forall_forall. auto. Qed.
Lemma gos_repeat j m : gos (repeat (j, Go) m) = repeat (j, Plain Go) m.
Proof. induction m; cbn; [auto|]. unfold gos in IHm. rewrite IHm. auto. Qed.

Lemma er_carries i s : wcarries_on i s -> carries_on i (@er_sched S s).
Proof.
  intros H. unfold carries_on, er_sched. apply Forall_map. eapply Forall_impl; [|exact H]. intros [j m] [A B]. cbn in *. split.
  - intros E. rewrite (A E). reflexivity.
  - intros a E. destruct m as [m|x v]; [|discriminate]. destruct m; cbn in E; try discriminate. injection E as -> ->.
    apply (B a). reflexivity.
Qed.
Lemma er_rests k s : wrests k s -> rests k (@er_sched S s).
Proof. intros H. apply Forall_map. eapply Forall_impl; [|exact H]. auto. Qed.
Lemma er_go s : wonly_go s -> only_go (@er_sched S s).
Proof. intros H. apply Forall_map. eapply Forall_impl; [|exact H]. intros [j m] E. cbn in *. rewrite E. reflexivity. Qed.
Lemma er_own i s : own_steps i (@er_sched S s) = wown_steps i s.
Proof.
  unfold own_steps, wown_steps. induction s as [|[j m] s IH]; cbn; auto. destruct (j =? i); cbn; auto.
Qed.

Theorem w_contexts g a r : wreachable So tof g -> g_arc g a = Some r -> recorded_tape (tape_of (a_inner r)).
Proof.
  intros R A. destruct (reach_rel _ R) as (h & Rh & G). apply recorded_er.
  exact (proj1 (contexts_good uops Some h a _ (reachable_inv uops Some h Rh) (arc_fwd _ _ _ _ G A))).
Qed.

Theorem w_variables g x c v : wreachable So tof g -> In x (g_vars g) -> af_ctx x = Some (c, v) ->
  exists a r, g_arc g a = Some r /\ a_cid r = c /\ v < length (i_vals (a_inner r)).
Proof.
  intros R I E. destruct (reach_rel _ R) as (h & Rh & G).
  pose proof (variables_agree uops Some h (er_af x) (reachable_inv uops Some h Rh)) as V.
  rewrite (gr_vars _ _ G) in V. specialize (V (in_map er_af _ _ I)). unfold agrees in V. cbn in V. rewrite E in V.
  destruct V as (a & r' & A & C & (fv & _ & N)). apply (arc_bwd _ _ _ _ G) in A as (r & A & ->).
  exists a, r. split; auto. split; auto. assert (nth_error (i_vals (a_inner (er_arc r))) v <> None) as X by congruence.
  apply nth_error_Some in X. cbn in X. rewrite map_length in X. exact X.
Qed.

Theorem w_grow s g g' a r : wreachable So tof g -> wplay So tof g s = Some g' -> g_arc g a = Some r ->
  exists r', g_arc g' a = Some r' /\ a_cid r' = a_cid r /\
    prefix (i_indeps (a_inner r)) (i_indeps (a_inner r')) /\ prefix (i_deps (a_inner r)) (i_deps (a_inner r')) /\
    prefix (i_ops (a_inner r)) (i_ops (a_inner r')) /\ prefix (i_vals (a_inner r)) (i_vals (a_inner r')).
Proof. intros R E A. exact (proj2 (wplay_grows So tof s g g' (wreachable_sinv So tof g R) E) a r A). Qed.

Theorem w_snapshots g t : wreachable So tof g -> In t (g_tapes g) ->
  wf_tape t /\ exists a r, g_arc g a = Some r /\ snapshot_of t r.
Proof.
  intros R I. split; [|exact (si_tapes _ (wreachable_sinv So tof g R) t I)].
  destruct (reach_rel _ R) as (h & Rh & G). apply wf_er.
  apply (tapes_ok uops Some h (er_tape t) (reachable_inv uops Some h Rh)). rewrite (gr_tapes _ _ G). apply in_map. auto.
Qed.

Theorem w_ids g a b r s : wreachable So tof g -> g_arc g a = Some r -> g_arc g b = Some s -> a_cid r = a_cid s -> a = b.
Proof.
  intros R A B E. destruct (reach_rel _ R) as (h & Rh & G).
  exact (ids_unique uops Some h a b _ _ (reachable_inv uops Some h Rh) (arc_fwd _ _ _ _ G A) (arc_fwd _ _ _ _ G B) E).
Qed.

Theorem w_lookup_exact g g1 g2 i c s : wreachable So tof g -> wstep So tof g i (Plain (DoLookup c)) = Some g1 ->
  wcarries_on i s -> wplay So tof g1 s = Some g2 -> idle g2 i ->
  t_refs (g_thr g2 i) = t_refs (g_thr g i) \/
  exists a r, t_refs (g_thr g2 i) = a :: t_refs (g_thr g i) /\ g_arc g2 a = Some r /\ a_cid r = c.
Proof.
  intros R E1 C E2 D. destruct (reach_rel _ R) as (h & Rh & G).
  destruct (step_fwd _ _ _ _ _ G E1) as (h1 & H1 & G1). destruct (play_fwd _ _ _ _ G1 E2) as (h2 & H2 & G2).
  destruct (lookup_exact uops Some h i c _ h1 h2 (reachable_inv uops Some h Rh) H1 (er_carries _ _ C) H2
    (proj1 (idle_er _ _ _ G2) D)) as [H|(a & r & H & A & X)]; rewrite (refs_er _ _ _ G), (refs_er _ _ _ G2) in H; auto.
  right. apply (arc_bwd _ _ _ _ G2) in A as (r0 & A & ->). exists a, r0. auto.
Qed.

Theorem w_lookup_succeeds g g1 g2 i c s k a r : wreachable So tof g -> wstep So tof g i (Plain (DoLookup c)) = Some g1 ->
  wcarries_on i s -> wplay So tof g1 s = Some g2 -> idle g2 i ->
  idle g k -> In a (t_refs (g_thr g k)) -> g_arc g a = Some r -> a_cid r = c -> k = i \/ wrests k s ->
  t_refs (g_thr g2 i) = a :: t_refs (g_thr g i).
Proof.
  intros R E1 C E2 D Dk I A X K. destruct (reach_rel _ R) as (h & Rh & G).
  destruct (step_fwd _ _ _ _ _ G E1) as (h1 & H1 & G1). destruct (play_fwd _ _ _ _ G1 E2) as (h2 & H2 & G2).
  rewrite <- (refs_er _ _ _ G), <- (refs_er _ _ _ G2).
  apply (lookup_succeeds uops Some h i c (er_sched s) h1 h2 k a (er_arc r) (reachable_inv uops Some h Rh)); auto.
  - apply er_carries; auto.
  - apply (idle_er _ _ _ G2); auto.
  - apply (idle_er _ _ _ G); auto.
  - rewrite (refs_er _ _ _ G). auto.
  - eapply arc_fwd; eauto.
  - destruct K; auto. right. apply er_rests; auto.
Qed.

Theorem w_registry g : wreachable So tof g ->
  (forall c a, g_map g c = Some a ->
     exists r, g_arc g a = Some r /\ a_cid r = c /\ (live g a \/ exists i, destroying g i a)) /\
  (forall a, live g a -> exists r, g_arc g a = Some r /\
     (g_map g (a_cid r) = Some a \/ exists i, constructing g i a)).
Proof.
  intros R. destruct (reach_rel _ R) as (h & Rh & G). pose proof (reachable_inv uops Some h Rh) as I. split.
  - intros c a E. rewrite <- (gr_map _ _ G) in E. destruct (entries_exact uops Some h c a I E) as (r' & A & X & L).
    apply (arc_bwd _ _ _ _ G) in A as (r & A & ->). exists r. split; auto. split; auto.
    destruct L as [L|[i L]]; [left; apply (live_er _ _ _ G); auto|right; exists i; eapply destroying_er; eauto].
  - intros a L. apply (live_er _ _ _ G) in L. destruct (live_exists uops Some h a I L) as (r' & A).
    pose proof (live_found uops Some h a r' I L A) as M. apply (arc_bwd _ _ _ _ G) in A as (r & A & ->). exists r. split; auto.
    rewrite (gr_map _ _ G) in M. destruct M as [M|[i M]]; auto. right. exists i. eapply constructing_er; eauto.
Qed.

Theorem w_quiescent g : wreachable So tof g -> (forall i, idle g i) ->
  forall c a, g_map g c = Some a <-> (live g a /\ exists r, g_arc g a = Some r /\ a_cid r = c).
Proof.
  intros R D c a. destruct (reach_rel _ R) as (h & Rh & G).
  rewrite <- (gr_map _ _ G), (live_er _ _ _ G).
  rewrite (quiescent_registry uops Some h (reachable_inv uops Some h Rh)); [|intros i; apply (idle_er _ _ _ G); auto].
  split; intros [L (r & A & X)]; split; auto.
  - apply (arc_bwd _ _ _ _ G) in A as (r0 & A & ->). eauto.
  - exists (er_arc r). split; auto. eapply arc_fwd; eauto.
Qed.

Theorem w_no_deadlock g i : wreachable So tof g -> ~ idle g i ->
  (exists g', wstep So tof g i (Plain Go) = Some g') \/
  (exists j g', j <> i /\ waits_for g i j /\ wstep So tof g j (Plain Go) = Some g').
Proof.
  intros R D. destruct (reach_rel _ R) as (h & Rh & G). rewrite (idle_er _ _ _ G) in D.
  destruct (no_deadlock uops Some h i (reachable_inv uops Some h Rh) D) as [[h' E]|(j & h' & N & W & E)];
    destruct (go_bwd _ _ _ _ G E) as (g' & E' & _); eauto.
  right. exists j, g'. split; auto. split; auto. eapply waits_er; eauto.
Qed.

Theorem w_released g j : wreachable So tof g -> holds g j ->
  exists m g', m <= 3 /\ wplay So tof g (repeat (j, Plain Go) m) = Some g' /\ ~ holds g' j.
Proof.
  intros R H. destruct (reach_rel _ R) as (h & Rh & G). rewrite (holds_er _ _ _ G) in H.
  destruct (lock_released uops Some h j (reachable_inv uops Some h Rh) H) as (m & h' & M & E & N).
  destruct (gos_bwd _ _ _ _ G (go_repeat j m) E) as (g' & E' & G'). rewrite gos_repeat in E'.
  exists m, g'. rewrite (holds_er _ _ _ G'). auto.
Qed.

Theorem w_finish g : wreachable So tof g ->
  exists s g', wonly_go s /\ wplay So tof g s = Some g' /\ forall i, idle g' i.
Proof.
  intros R. destruct (reach_rel _ R) as (h & Rh & G).
  destruct (everything_can_finish uops Some h (reachable_inv uops Some h Rh)) as (s & h' & O & E & D).
  destruct (gos_bwd _ _ _ _ G O E) as (g' & E' & G'). exists (gos s), g'. split; [apply gos_go|]. split; auto.
  intros i. apply (idle_er _ _ _ G'). auto.
Qed.

Theorem w_short g g1 g' i m s : wreachable So tof g -> wstep So tof g i m = Some g1 -> wcarries_on i s ->
  wplay So tof g1 s = Some g' -> wown_steps i s <= 15.
Proof.
  intros R E1 C E2. destruct (reach_rel _ R) as (h & Rh & G).
  destruct (step_fwd _ _ _ _ _ G E1) as (h1 & H1 & G1). destruct (play_fwd _ _ _ _ G1 E2) as (h2 & H2 & G2).
  rewrite <- er_own. exact (calls_are_short uops Some h i _ h1 _ h2 Rh H1 (er_carries _ _ C) H2).
Qed.

Theorem w_no_livelock g g' s : wreachable So tof g -> wonly_go s -> wplay So tof g s = Some g' ->
  length s <= 15 * g_n g /\ ((forall i, wstep So tof g' i (Plain Go) = None) -> forall i, idle g' i).
Proof.
  intros R O E. destruct (reach_rel _ R) as (h & Rh & G). destruct (play_fwd _ _ _ _ G E) as (h2 & H2 & G2).
  destruct (no_livelock uops Some h _ h2 Rh (er_go _ O) H2) as [L D]. rewrite (gr_n _ _ G) in L.
  unfold er_sched in L. rewrite map_length in L. split; auto. intros N i. apply (idle_er _ _ _ G2). apply D.
  intros j. destruct (step uops Some h2 j Go) as [h3|] eqn:X; auto.
  destruct (go_bwd _ _ _ _ G2 X) as (g3 & X' & _). rewrite N in X'. discriminate.
Qed.

End Transfer.
