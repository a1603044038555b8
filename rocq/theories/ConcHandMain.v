(** Proofs for C90. *)
From Coq Require Import List Arith ZArith Bool Lia.
From Verif Require Import Base Float Operation Tape AContext AContextFacts Spec Ffi Concurrent ConcSpec ConcFacts ConcInv ConcMain
  ConcBound ConcWrite ConcErase ConcWriteMain ConcHand ConcShape.
Import ListNotations.

(** ** Recordings only grow, and snapshots consist of initial parts of them *)
Section Grow.
Context {S F : Type} (So : Fops S) (tof : S -> option F).

Lemma sok_record H a oc v a1 a2 : sok H (c_record tof a oc v a1 a2 : code S F).
Proof. apply sok_crit; try (intros; exact Logic.I). intros. eapply below_rec; eauto. Qed.
Lemma hstep_grows (g : sys S F) i m g' : sinv g -> hstep So tof g i m = Some g' -> sinv g' /\ grown g g'.
Proof.
  intros I E. destruct m as [m|a oc v a1 a2]; cbn [hstep] in E; [eapply wstep_grows; eauto|].
  destruct (i <? g_n g); [|discriminate]. destruct (has _ _); [|discriminate].
  eapply begin_grows; eauto. intros H. apply sok_record.
Qed.
Lemma hplay_grows s : forall g g' : sys S F, sinv g -> hplay So tof g s = Some g' -> sinv g' /\ grown g g'.
Proof.
  induction s as [|[i m] s IH]; cbn; intros g g' I E; [injection E as <-; auto using grown_refl|].
  destruct (hstep So tof g i m) as [h|] eqn:Eh; [|discriminate]. destruct (hstep_grows _ _ _ _ I Eh) as [I' G].
  destruct (IH _ _ I' E) as [I'' G']. split; auto. eapply grown_trans; eauto.
Qed.
Lemma hreachable_sinv g : hreachable So tof g -> sinv g.
Proof. intros [s E]. apply (hplay_grows s _ _ sinv0 E). Qed.

Theorem h_grow s (g g' : sys S F) a r : hreachable So tof g -> hplay So tof g s = Some g' -> g_arc g a = Some r ->
  exists r', g_arc g' a = Some r' /\ a_cid r' = a_cid r /\
    prefix (i_indeps (a_inner r)) (i_indeps (a_inner r')) /\ prefix (i_deps (a_inner r)) (i_deps (a_inner r')) /\
    prefix (i_ops (a_inner r)) (i_ops (a_inner r')) /\ prefix (i_vals (a_inner r)) (i_vals (a_inner r')).
Proof. intros R E A. exact (proj2 (hplay_grows s g g' (hreachable_sinv g R) E) a r A). Qed.

Theorem h_snapshots (g : sys S F) t : hreachable So tof g -> In t (g_tapes g) ->
  exists a r, g_arc g a = Some r /\ snapshot_of t r.
Proof. intros R I. exact (si_tapes _ (hreachable_sinv g R) t I). Qed.

End Grow.

(** ** Transfer *)
Section Transfer.
Context {S F : Type} (So : Fops S) (tof : S -> option F) (total : forall s, tof s <> None).
Notation sys := (sys S F).
Implicit Types (g : sys) (h : Concurrent.sys unit unit).

Lemma reach_rel g : hreachable So tof g -> exists h, reachable uops Some h /\ like g h.
Proof.
  intros [s E]. pose proof (play_like So tof total s _ _ like0) as R. rewrite E in R. inversion R as [|a b H E1 E2]; subst.
  exists b. split; auto. exists ((0, DoVar tt tt) :: sh_sched s). exact (eq_sym E2).
Qed.

Lemma arc_fwd g h a r : like g h -> g_arc g a = Some r -> exists r', g_arc h a = Some r' /\ arel r r'.
Proof. intros G E. pose proof (li_arc _ _ G a) as R. rewrite E in R. inversion R; subst. eauto. Qed.
Lemma arc_bwd g h a r' : like g h -> g_arc h a = Some r' -> exists r, g_arc g a = Some r /\ arel r r'.
Proof. intros G E. pose proof (li_arc _ _ G a) as R. rewrite E in R. inversion R; subst. eauto. Qed.

Lemma idle_er g h i : like g h -> idle g i <-> idle h i.
Proof. intros G. unfold idle. destruct (li_thr _ _ G i) as [_ []]; split; congruence. Qed.
Lemma refs_er g h i : like g h -> t_refs (g_thr h i) = t_refs (g_thr g i).
Proof. intros G. apply (li_thr _ _ G i). Qed.
Lemma live_er g h a : like g h -> live g a <-> live h a.
Proof. intros G. unfold live. split; intros [i H]; exists i; rewrite (refs_er _ _ _ G) in *; auto. Qed.

Lemma code_bwd g h i c' : like g h -> t_code (g_thr h i) = Some c' -> exists c, t_code (g_thr g i) = Some c /\ shape c c'.
Proof. intros G E. destruct (li_thr _ _ G i) as [_ R]. rewrite E in R. inversion R; subst. eauto. Qed.
Lemma holds_er g h i : like g h -> holds g i <-> holds h i.
Proof.
  intros G. unfold holds. rewrite (li_mlock _ _ G). split; intros [H|(a & r & A & L)]; auto; right.
  - destruct (arc_fwd _ _ _ _ G A) as (s & B & (_ & E & _)). exists a, s. split; auto. congruence.
  - apply (arc_bwd _ _ _ _ G) in A as (s & A & (_ & E & _)). exists a, s. split; auto. congruence.
Qed.
Lemma waits_er g h i j : like g h -> waits_for h i j -> waits_for g i j.
Proof.
  intros G [(k & E & L)|(a & k & r & E & A & L)]; apply (code_bwd _ _ _ _ G) in E as (c & E & R).
  - left. inversion R; subst. rewrite (li_mlock _ _ G) in L. eauto.
  - right. inversion R; subst. apply (arc_bwd _ _ _ _ G) in A as (s & A & (_ & X & _)). exists a. do 2 eexists. split; eauto. split; eauto. congruence.
Qed.
Lemma constructing_er g h i a : like g h -> constructing h i a -> constructing g i a.
Proof.
  intros G (c & k & [E|E]); apply (code_bwd _ _ _ _ G) in E as (x & E & R); inversion R; subst.
  - match goal with H : shape _ (MInsert _ _ _) |- _ => inversion H; subst end. exists c. eexists. left. eauto.
  - exists c. eexists. right. eauto.
Qed.
Lemma destroying_er g h i a : like g h -> destroying h i a -> destroying g i a.
Proof.
  intros G (k & [E|E]); apply (code_bwd _ _ _ _ G) in E as (x & E & R); inversion R; subst.
  - match goal with H : shape _ (MRemove _ _) |- _ => inversion H; subst end. eexists. left. eauto.
  - eexists. right. eauto.
Qed.

Lemma step_fwd g h i m g1 : like g h -> hstep So tof g i m = Some g1 ->
  exists h1, step uops Some h i (sh_move m) = Some h1 /\ like g1 h1.
Proof. intros G E. pose proof (step_like So tof total g h i m G) as R. rewrite E in R. inversion R; subst. eauto. Qed.
Lemma go_bwd g h i h1 : like g h -> step uops Some h i Go = Some h1 ->
  exists g1, hstep So tof g i go = Some g1 /\ like g1 h1.
Proof.
  intros G E. pose proof (step_like So tof total g h i go G) as R. cbn [sh_move go] in R. rewrite E in R.
  inversion R; subst. eauto.
Qed.
Lemma play_fwd s g h g1 : like g h -> hplay So tof g s = Some g1 ->
  exists h1, play uops Some h (sh_sched s) = Some h1 /\ like g1 h1.
Proof. intros G E. pose proof (play_like So tof total s g h G) as R. rewrite E in R. inversion R; subst. eauto. Qed.

Definition gos (s : list (nat * @move unit)) : list (nat * hmove S) := map (fun m => (fst m, go)) s.
Lemma gos_bwd s : forall g h h1, like g h -> only_go s -> play uops Some h s = Some h1 ->
  exists g1, hplay So tof g (gos s) = Some g1 /\ like g1 h1.
Proof.
  induction s as [|[i m] s IH]; intros g h h1 G O E; cbn in E; [injection E as <-; exists g; split; auto; reflexivity|].
  inversion O as [|x l Em O']; subst. cbn in Em. subst m.
  destruct (step uops Some h i Go) as [h2|] eqn:Eh; [|discriminate].
  destruct (go_bwd _ _ _ _ G Eh) as (g2 & Eg & G2). destruct (IH _ _ _ G2 O' E) as (g1 & E1 & G1).
  exists g1. split; auto. cbn [gos map fst hplay]. rewrite Eg. exact E1.
Qed.
Lemma gos_go s : honly_go (gos s).
Proof. unfold honly_go, gos. apply Forall_map. apply Forall_forall. auto. Qed.
Lemma gos_repeat j m : gos (repeat (j, Go) m) = repeat (j, go) m.
Proof. induction m; cbn; [auto|]. unfold gos in IHm. rewrite IHm. auto. Qed.

Lemma er_carries i s : hcarries_on i s -> carries_on i (@sh_sched S s).
Proof.
  intros H. unfold carries_on, sh_sched. apply Forall_map. eapply Forall_impl; [|exact H]. intros [j m] [A B]. cbn in *. split.
  - intros E. rewrite (A E). reflexivity.
  - intros a E. destruct m as [[m|x v]|]; try discriminate. destruct m; cbn in E; try discriminate. injection E as -> ->.
    apply (B a). reflexivity.
Qed.
Lemma er_rests k s : hrests k s -> rests k (@sh_sched S s).
Proof. intros H. apply Forall_map. eapply Forall_impl; [|exact H]. auto. Qed.
Lemma er_go s : honly_go s -> only_go (@sh_sched S s).
Proof. intros H. apply Forall_map. eapply Forall_impl; [|exact H]. intros [j m] E. cbn in *. rewrite E. reflexivity. Qed.
Lemma er_own i s : own_steps i (@sh_sched S s) = hown_steps i s.
Proof.
  unfold own_steps, hown_steps. induction s as [|[j m] s IH]; cbn; auto. destruct (j =? i); cbn; auto.
Qed.

Theorem h_ids g a b r s : hreachable So tof g -> g_arc g a = Some r -> g_arc g b = Some s -> a_cid r = a_cid s -> a = b.
Proof.
  intros R A B E. destruct (reach_rel _ R) as (h & Rh & G).
  destruct (arc_fwd _ _ _ _ G A) as (r' & A' & (X & _)). destruct (arc_fwd _ _ _ _ G B) as (s' & B' & (Y & _)).
  apply (ids_unique uops Some h a b r' s' (reachable_inv uops Some h Rh) A' B'). congruence.
Qed.

Theorem h_lookup_exact g g1 g2 i c s : hreachable So tof g -> hstep So tof g i (Api (Plain (DoLookup c))) = Some g1 ->
  hcarries_on i s -> hplay So tof g1 s = Some g2 -> idle g2 i ->
  t_refs (g_thr g2 i) = t_refs (g_thr g i) \/
  exists a r, t_refs (g_thr g2 i) = a :: t_refs (g_thr g i) /\ g_arc g2 a = Some r /\ a_cid r = c.
Proof.
  intros R E1 C E2 D. destruct (reach_rel _ R) as (h & Rh & G).
  destruct (step_fwd _ _ _ _ _ G E1) as (h1 & H1 & G1). destruct (play_fwd _ _ _ _ G1 E2) as (h2 & H2 & G2).
  destruct (lookup_exact uops Some h i c _ h1 h2 (reachable_inv uops Some h Rh) H1 (er_carries _ _ C) H2
    (proj1 (idle_er _ _ _ G2) D)) as [H|(a & r & H & A & X)]; rewrite (refs_er _ _ _ G), (refs_er _ _ _ G2) in H; auto.
  right. apply (arc_bwd _ _ _ _ G2) in A as (r0 & A & (Y & _)). exists a, r0. split; auto. split; auto. congruence.
Qed.

Theorem h_lookup_succeeds g g1 g2 i c s k a r : hreachable So tof g -> hstep So tof g i (Api (Plain (DoLookup c))) = Some g1 ->
  hcarries_on i s -> hplay So tof g1 s = Some g2 -> idle g2 i ->
  idle g k -> In a (t_refs (g_thr g k)) -> g_arc g a = Some r -> a_cid r = c -> k = i \/ hrests k s ->
  t_refs (g_thr g2 i) = a :: t_refs (g_thr g i).
Proof.
  intros R E1 C E2 D Dk I A X K. destruct (reach_rel _ R) as (h & Rh & G).
  destruct (step_fwd _ _ _ _ _ G E1) as (h1 & H1 & G1). destruct (play_fwd _ _ _ _ G1 E2) as (h2 & H2 & G2).
  rewrite <- (refs_er _ _ _ G), <- (refs_er _ _ _ G2).
  destruct (arc_fwd _ _ _ _ G A) as (r' & A' & (Y & _)).
  apply (lookup_succeeds uops Some h i c (sh_sched s) h1 h2 k a r' (reachable_inv uops Some h Rh)); auto.
  - apply er_carries; auto.
  - apply (idle_er _ _ _ G2); auto.
  - apply (idle_er _ _ _ G); auto.
  - rewrite (refs_er _ _ _ G). auto.
  - congruence.
  - destruct K; auto. right. apply er_rests; auto.
Qed.

Theorem h_registry g : hreachable So tof g ->
  (forall c a, g_map g c = Some a ->
     exists r, g_arc g a = Some r /\ a_cid r = c /\ (live g a \/ exists i, destroying g i a)) /\
  (forall a, live g a -> exists r, g_arc g a = Some r /\
     (g_map g (a_cid r) = Some a \/ exists i, constructing g i a)).
Proof.
  intros R. destruct (reach_rel _ R) as (h & Rh & G). pose proof (reachable_inv uops Some h Rh) as I. split.
  - intros c a E. rewrite <- (li_map _ _ G) in E. destruct (entries_exact uops Some h c a I E) as (r' & A & X & L).
    apply (arc_bwd _ _ _ _ G) in A as (r & A & (Y & _)). exists r. split; auto. split; [congruence|].
    destruct L as [L|[i L]]; [left; apply (live_er _ _ _ G); auto|right; exists i; eapply destroying_er; eauto].
  - intros a L. apply (live_er _ _ _ G) in L. destruct (live_exists uops Some h a I L) as (r' & A).
    pose proof (live_found uops Some h a r' I L A) as M. apply (arc_bwd _ _ _ _ G) in A as (r & A & (Y & _)). exists r. split; auto.
    rewrite (li_map _ _ G), Y in M. destruct M as [M|[i M]]; auto. right. exists i. eapply constructing_er; eauto.
Qed.

Theorem h_quiescent g : hreachable So tof g -> (forall i, idle g i) ->
  forall c a, g_map g c = Some a <-> (live g a /\ exists r, g_arc g a = Some r /\ a_cid r = c).
Proof.
  intros R D c a. destruct (reach_rel _ R) as (h & Rh & G).
  rewrite <- (li_map _ _ G), (live_er _ _ _ G).
  rewrite (quiescent_registry uops Some h (reachable_inv uops Some h Rh)); [|intros i; apply (idle_er _ _ _ G); auto].
  split; intros [L (r & A & X)]; split; auto.
  - apply (arc_bwd _ _ _ _ G) in A as (r0 & A & (Y & _)). exists r0. split; auto. congruence.
  - destruct (arc_fwd _ _ _ _ G A) as (s & B & (Y & _)). exists s. split; auto. congruence.
Qed.

Theorem h_no_deadlock g i : hreachable So tof g -> ~ idle g i ->
  (exists g', hstep So tof g i go = Some g') \/
  (exists j g', j <> i /\ waits_for g i j /\ hstep So tof g j go = Some g').
Proof.
  intros R D. destruct (reach_rel _ R) as (h & Rh & G). rewrite (idle_er _ _ _ G) in D.
  destruct (no_deadlock uops Some h i (reachable_inv uops Some h Rh) D) as [[h' E]|(j & h' & N & W & E)];
    destruct (go_bwd _ _ _ _ G E) as (g' & E' & _); eauto.
  right. exists j, g'. split; auto. split; auto. eapply waits_er; eauto.
Qed.

Theorem h_released g j : hreachable So tof g -> holds g j ->
  exists m g', m <= 3 /\ hplay So tof g (repeat (j, go) m) = Some g' /\ ~ holds g' j.
Proof.
  intros R H. destruct (reach_rel _ R) as (h & Rh & G). rewrite (holds_er _ _ _ G) in H.
  destruct (lock_released uops Some h j (reachable_inv uops Some h Rh) H) as (m & h' & M & E & N).
  destruct (gos_bwd _ _ _ _ G (go_repeat j m) E) as (g' & E' & G'). rewrite gos_repeat in E'.
  exists m, g'. rewrite (holds_er _ _ _ G'). auto.
Qed.

Theorem h_finish g : hreachable So tof g ->
  exists s g', honly_go s /\ hplay So tof g s = Some g' /\ forall i, idle g' i.
Proof.
  intros R. destruct (reach_rel _ R) as (h & Rh & G).
  destruct (everything_can_finish uops Some h (reachable_inv uops Some h Rh)) as (s & h' & O & E & D).
  destruct (gos_bwd _ _ _ _ G O E) as (g' & E' & G'). exists (gos s), g'. split; [apply gos_go|]. split; auto.
  intros i. apply (idle_er _ _ _ G'). auto.
Qed.

Theorem h_short g g1 g' i m s : hreachable So tof g -> hstep So tof g i m = Some g1 -> hcarries_on i s ->
  hplay So tof g1 s = Some g' -> hown_steps i s <= 15.
Proof.
  intros R E1 C E2. destruct (reach_rel _ R) as (h & Rh & G).
  destruct (step_fwd _ _ _ _ _ G E1) as (h1 & H1 & G1). destruct (play_fwd _ _ _ _ G1 E2) as (h2 & H2 & G2).
  rewrite <- er_own. exact (calls_are_short uops Some h i _ h1 _ h2 Rh H1 (er_carries _ _ C) H2).
Qed.

Theorem h_no_livelock g g' s : hreachable So tof g -> honly_go s -> hplay So tof g s = Some g' ->
  length s <= 15 * g_n g /\ ((forall i, hstep So tof g' i go = None) -> forall i, idle g' i).
Proof.
  intros R O E. destruct (reach_rel _ R) as (h & Rh & G). destruct (play_fwd _ _ _ _ G E) as (h2 & H2 & G2).
  destruct (no_livelock uops Some h _ h2 Rh (er_go _ O) H2) as [L D]. rewrite (li_n _ _ G) in L.
  unfold sh_sched in L. rewrite map_length in L. split; auto. intros N i. apply (idle_er _ _ _ G2). apply D.
  intros j. destruct (step uops Some h2 j Go) as [h3|] eqn:X; auto.
  destruct (go_bwd _ _ _ _ G2 X) as (g3 & X' & _). rewrite N in X'. discriminate.
Qed.

End Transfer.
