(** Proof of C57: the simulation of whole programs, and the schedules. *)
From Coq Require Import List Arith ZArith Bool Lia Permutation.
From Verif Require Import Base Float Operation Tape TapeFacts AContext AContextFacts Spec Param Api ApiFacts Ffi Concurrent
  ConcSpec ConcInv Client IsoFacts IsoOthers IsoSelf IsoSeq.
Import ListNotations.

Section Main.
Context {S F : Type} (So : Fops S) (tof : S -> option F) (me : nat).
Notation code := (code S F). Notation view := (@view F). Notation lwp := (@lwp S F me).
Notation sys := (sys S F).

Definition somes (l : list (option nat)) : list nat :=
  flat_map (fun o => match o with Some a => [a] | None => [] end) l.

Record sim (rho alpha : nat -> nat) (V : view) (l : @locals S F) (s : api S F) : Prop := {
  si_w : wsim rho alpha V (a_world s) (Api.a_poison s);
  si_h : l_handles l = map (option_map alpha) (a_handles s);
  si_refs : Permutation (v_refs V) (somes (l_handles l));
  si_own : forall c, Api.owned (a_handles s) c = true <-> w_ctx (a_world s) c <> None;
  si_x : l_vars l = map (ren rho) (a_vars s);
  si_xd : forall x, In x (a_vars s) -> in_dom (a_world s) x;
  si_len : length (a_dirty s) = length (a_vars s);
  si_t : l_tapes l = a_tapes s
}.

Lemma somes_app l l' : somes (l ++ l') = somes l ++ somes l'.
Proof. unfold somes. apply flat_map_app. Qed.

Lemma in_somes a l : In a (somes l) <-> In (Some a) l.
Proof.
  unfold somes. rewrite in_flat_map. split.
  - intros (o & H & Ho). destruct o as [b|]; [destruct Ho as [<-|[]]; auto|destruct Ho].
  - intros H. exists (Some a). split; auto. left; auto.
Qed.

Lemma owned_in hs c : Api.owned hs c = true <-> In (Some c) hs.
Proof.
  unfold Api.owned. rewrite existsb_exists. split.
  - intros ([d|] & H & E); [|discriminate]. apply Nat.eqb_eq in E. subst. auto.
  - intros H. exists (Some c). rewrite Nat.eqb_refl. auto.
Qed.

Lemma sim_dom rho alpha V l s c : sim rho alpha V l s -> In (Some c) (a_handles s) -> dom (a_world s) c.
Proof.
  intros H Hc. apply (ws_dom _ _ _ _ _ (si_w _ _ _ _ _ H)). apply (si_own _ _ _ _ _ H). apply owned_in. auto.
Qed.

(** The references of the thread to a context are its handles. *)
Lemma sim_has rho alpha V l s c : sim rho alpha V l s -> dom (a_world s) c ->
  (has (alpha c) (v_refs V) = true <-> Api.owned (a_handles s) c = true).
Proof.
  intros H D. rewrite has_in, owned_in. split.
  - intros Hi. eapply Permutation_in in Hi; [|apply (si_refs _ _ _ _ _ H)]. apply in_somes in Hi.
    rewrite (si_h _ _ _ _ _ H) in Hi. apply in_map_iff in Hi as ([d|] & E & Hd); [|discriminate].
    injection E as E. apply (ws_alpha _ _ _ _ _ (si_w _ _ _ _ _ H)) in E; auto; [congruence|].
    eapply sim_dom; eauto.
  - intros Hi. eapply Permutation_in; [symmetry; apply (si_refs _ _ _ _ _ H)|]. apply in_somes.
    rewrite (si_h _ _ _ _ _ H). apply in_map_iff. exists (Some c). auto.
Qed.

Lemma sim_handle rho alpha V l s h : sim rho alpha V l s -> lhandle l h = option_map alpha (handle s h).
Proof.
  intros H. unfold lhandle, handle. rewrite (si_h _ _ _ _ _ H), nth_error_map.
  destruct (nth_error (a_handles s) h) as [[c|]|]; auto.
Qed.

Lemma sim_var rho alpha V l s x : sim rho alpha V l s ->
  nth_error (l_vars l) x = option_map (ren rho) (nth_error (a_vars s) x).
Proof. intros H. rewrite (si_x _ _ _ _ _ H). apply nth_error_map. Qed.

Lemma sim_dirty rho alpha V l s x v : sim rho alpha V l s -> nth_error (a_vars s) x = Some v ->
  exists d, nth_error (a_dirty s) x = Some d.
Proof.
  intros H Hx. destruct (nth_error (a_dirty s) x) eqn:E; eauto. apply nth_error_None in E.
  assert (x < length (a_vars s)) by (apply nth_error_Some; congruence). rewrite (si_len _ _ _ _ _ H) in E. lia.
Qed.

Lemma map_update {A B} (f : A -> B) l i a : map f (update l i a) = update (map f l) i (f a).
Proof. revert i; induction l as [|b l IH]; intros [|i]; cbn; auto. rewrite IH. auto. Qed.

Lemma in_update {A} (l : list A) i a b : In b (update l i a) -> b = a \/ In b l.
Proof. revert i; induction l as [|c l IH]; intros [|i]; cbn; auto; intros [<-|H]; auto. apply IH in H as [H|H]; auto. Qed.

(** What is seen of the variables is the same. *)
Lemma sim_looks rho alpha V l s p : sim rho alpha V l s -> lseen l p = looks s p.
Proof.
  intros H. unfold lseen, looks. rewrite (si_x _ _ _ _ _ H), (si_t _ _ _ _ _ H), map_map. reflexivity.
Qed.

Lemma sim_push rho alpha V V' l s w' po' v d : sim rho alpha V l s -> wsim rho alpha V' w' po' -> v_refs V' = v_refs V ->
  w_next w' = w_next (a_world s) -> (forall c, w_ctx w' c <> None <-> w_ctx (a_world s) c <> None) -> in_dom w' v ->
  sim rho alpha V' (lpush l (ren rho v))
    (mkApi w' (a_handles s) po' (a_vars s ++ [v]) (a_dirty s ++ [d]) (a_tapes s) (a_created s)).
Proof.
  intros [H1 H2 H3 H4 H5 H6 H7 H8] W Er En Ec Dv. constructor; cbn; auto.
  - rewrite Er. auto.
  - intros c. rewrite H4, Ec. tauto.
  - rewrite map_app, H5. auto.
  - intros x Hx. apply in_app_or in Hx as [Hx|[<-|[]]]; auto. specialize (H6 x Hx). unfold in_dom, dom in *.
    rewrite En. auto.
  - rewrite !app_length, H7. auto.
Qed.

Lemma sim_put rho alpha V V' l s w' po' x v d : sim rho alpha V l s -> wsim rho alpha V' w' po' -> v_refs V' = v_refs V ->
  w_next w' = w_next (a_world s) -> (forall c, w_ctx w' c <> None <-> w_ctx (a_world s) c <> None) -> in_dom w' v ->
  sim rho alpha V' (lput l x (ren rho v))
    (mkApi w' (a_handles s) po' (update (a_vars s) x v) (update (a_dirty s) x d) (a_tapes s) (a_created s)).
Proof.
  intros [H1 H2 H3 H4 H5 H6 H7 H8] W Er En Ec Dv. constructor; cbn; auto.
  - rewrite Er. auto.
  - intros c. rewrite H4, Ec. tauto.
  - rewrite map_update, H5. auto.
  - intros y Hy. apply in_update in Hy as [->|Hy]; auto. specialize (H6 y Hy). unfold in_dom, dom in *.
    rewrite En. auto.
  - rewrite !update_length. auto.
Qed.

Lemma sim_world rho alpha V V' l s w' po' : sim rho alpha V l s -> wsim rho alpha V' w' po' -> v_refs V' = v_refs V ->
  w_next w' = w_next (a_world s) -> (forall c, w_ctx w' c <> None <-> w_ctx (a_world s) c <> None) ->
  sim rho alpha V' l
    (mkApi w' (a_handles s) po' (a_vars s) (a_dirty s) (a_tapes s) (a_created s)).
Proof.
  intros [H1 H2 H3 H4 H5 H6 H7 H8] W Er En Ec. constructor; cbn; auto.
  - rewrite Er. auto.
  - intros c. rewrite H4, Ec. tauto.
  - intros y Hy. specialize (H6 y Hy). unfold in_dom, dom in *. rewrite En. auto.
Qed.

Lemma api_eta (s : api S F) : mkApi (a_world s) (a_handles s) (Api.a_poison s) (a_vars s) (a_dirty s) (a_tapes s) (a_created s) = s.
Proof. destruct s; auto. Qed.

Lemma ctx_same (w : world F) c j j' : w_ctx w c = Some j ->
  forall k, w_ctx (upd_ctx w c (Some j')) k <> None <-> w_ctx w k <> None.
Proof. intros H k. cbn. destruct (Nat.eqb_spec k c) as [->|]; [|tauto]. split; congruence. Qed.

Lemma somes_update l h a : nth_error l h = Some (Some a) -> Permutation (somes l) (a :: somes (update l h None)).
Proof.
  revert h; induction l as [|o l IH]; intros [|h]; cbn; try discriminate.
  - intros [= ->]. cbn. auto.
  - intros H. apply IH in H. unfold somes in *. rewrite H. destruct o; cbn; auto. apply perm_swap.
Qed.

(** What an operation does to the set of contexts: nothing. *)
Lemma left_same oc x y (w : world F) c w' : from_op_left So tof oc x y w = Some (c, w') ->
  w_next w' = w_next w /\ forall k, w_ctx w' k <> None <-> w_ctx w k <> None.
Proof.
  assert (forall c x w k w1, ensure_id tof c x w = Ok (k, w1) ->
            w_next w1 = w_next w /\ forall k, w_ctx w1 k <> None <-> w_ctx w k <> None) as HE.
  { intros c0 x0 w0 k w1. unfold ensure_id. destruct (af_ctx x0) as [[c1 v1]|].
    - intros [= _ <-]. split; [auto|tauto].
    - unfold record, with_ctx. destruct (w_ctx w0 c0) as [j|] eqn:Ej; [|discriminate].
      destruct (tof (af_v x0)); cbn [unwrap bind]; [|discriminate]. intros [= _ <-].
      split; auto. apply ctx_same with (j := j); auto. }
  unfold from_op_left. destruct (zero_order_value _ _ _ _); [|discriminate].
  destruct (first_order_value _ _ _ _ _ _); [|discriminate]. destruct (pick_cid x y) as [[c0|]|]; try discriminate.
  destruct (w_ctx w c0); [|discriminate]. destruct (ensure_id tof c0 x w) as [[k1 w1]|] eqn:E1.
  - destruct y as [y|].
    + destruct (ensure_id tof c0 y w1) as [[k2 w2]|] eqn:E2; intros [= <- <-].
      * apply HE in E1 as [A1 B1]. apply HE in E2 as [A2 B2]. split; [congruence|]. intros k. rewrite B2. auto.
      * eauto.
    + intros [= <- <-]. eauto.
  - intros [= <- <-]. split; [auto|tauto].
Qed.

Lemma from_op_same oc x y (w : world F) r w' : from_op So tof oc x y w = Ok (r, w') ->
  w_next w' = w_next w /\ (forall k, w_ctx w' k <> None <-> w_ctx w k <> None) /\
  (forall c v, af_ctx r = Some (c, v) -> w_ctx w c <> None).
Proof.
  intros E. pose proof (from_op_ctxs So tof _ _ _ _ _ _ E) as [En Ek]. split; [auto|]. split; [auto|].
  intros c v Hr. apply from_op_spec in E as (_ & _ & D).
  destruct D as [-> Er _ | c0 j i1 i2 v1 v2 fv Ep Ec O1 O2 Et Er Ch]; congruence.
Qed.

Lemma call_sim rho alpha V l s k (Q : view -> ret S F -> Prop) go :
  sim rho alpha V l s -> wf_call k -> (forall c, k <> CLookup c) ->
  match Api.step So tof s k with
  | None => forall V', Q V' RUnit
  | Some (s', p) => forall rho' alpha' V' l', sim rho' alpha' V' l' s' -> lwp Q V' (go l' p)
  end ->
  lwp Q V (c_call So tof k l go).
Proof.
  intros HS Wk Hk H. pose proof HS as [SW SH SR SO SX SXD SL ST].
  destruct k as [|h|c|h x|h x|h|v dv|x|x v|x dv|oc x y]; cbn [c_call Api.step] in *.
  - (* new *)
    cbn in H. cbn. intros c Hc. split; [apply upd_eq|]. intros a Ha Hr. split; [apply upd_eq|].
    split; [rewrite upd_eq; discriminate|].
    set (n := w_next (a_world s)) in *.
    apply (H (upd rho n c) (upd alpha n a)). unfold set_vmap; cbn.
    destruct SW as [W1 W2 W3 W4 W5 W6 W7 W8].
    assert (forall d, dom (a_world s) d -> rho d <> c) as Nc by (intros d Hd E; rewrite <- E, W2 in Hc; auto; discriminate).
    assert (forall d, dom (a_world s) d -> alpha d <> a) as Na
      by (intros d Hd E; destruct (W5 d Hd) as (r & R & _); rewrite E, Ha in R; discriminate).
    assert (forall d, 1 <= d < n + 1 -> d <> n -> dom (a_world s) d) as Dn by (unfold dom, n; intros; lia).
    assert (forall d, dom (a_world s) d -> d <> n) as Dn' by (unfold dom, n; intros; lia).
    assert (w_ctx (a_world s) n = None) as Hn.
    { destruct (w_ctx (a_world s) n) eqn:E; auto. exfalso.
      assert (dom (a_world s) n) as Hd by (apply W7; congruence). apply Dn' in Hd. auto. }
    assert (map (option_map (upd alpha n a)) (a_handles s) = map (option_map alpha) (a_handles s)) as EH.
    { apply map_ext_in. intros [d|] Hd; auto. cbn. rewrite upd_ne; auto. apply Dn'. eapply sim_dom; eauto. }
    assert (map (ren (upd rho n c)) (a_vars s) = map (ren rho) (a_vars s)) as EX.
    { apply map_ext_in. intros x Hx. unfold ren. specialize (SXD x Hx). unfold in_dom in SXD.
      destruct (af_ctx x) as [[d v]|]; auto. rewrite upd_ne; eauto. }
    constructor; cbn.
    + constructor; unfold dom; cbn; fold n.
      * lia.
      * intros d Hd. unfold upd at 2. destruct (Nat.eqb_spec d n) as [->|Hne]; [apply upd_eq|].
        rewrite upd_ne by auto. auto.
      * intros d d' Hd Hd'. unfold upd. destruct (Nat.eqb_spec d n) as [->|Hne], (Nat.eqb_spec d' n) as [->|Hne']; auto;
          intros E; exfalso; [apply (Nc d'); auto | apply (Nc d); auto].
      * intros d d' Hd Hd'. unfold upd. destruct (Nat.eqb_spec d n) as [->|Hne], (Nat.eqb_spec d' n) as [->|Hne']; auto;
          intros E; exfalso; [apply (Na d'); auto | apply (Na d); auto].
      * intros d Hd. unfold upd at 2. unfold upd at 2. destruct (Nat.eqb_spec d n) as [->|Hne].
        -- exists (mkArc c (mkInner [] [] [] []) None false). rewrite upd_eq. cbn. rewrite W8 by (unfold n; lia).
           repeat split. intros j [= <-]. auto.
        -- rewrite upd_ne by auto. auto.
      * intros d Hd. unfold upd at 3. unfold upd at 3. destruct (Nat.eqb_spec d n) as [->|Hne].
        -- rewrite upd_eq. auto.
        -- rewrite !upd_ne by auto. auto.
      * intros d. destruct (Nat.eqb_spec d n) as [->|Hne]; [unfold n; lia|]. intros Hd. apply W7 in Hd.
        unfold dom in Hd. unfold n; lia.
      * intros d Hd. apply W8. unfold n in *; lia.
    + rewrite map_app, SH, EH. cbn. rewrite upd_eq. auto.
    + rewrite somes_app. cbn. rewrite SR. apply Permutation_cons_append.
    + intros d. rewrite owned_app, orb_true_iff, SO. rewrite (Nat.eqb_sym n d). fold n. destruct (Nat.eqb_spec d n) as [->|Hne].
      * split; [discriminate|auto].
      * split; [intros [?|?]; [auto|discriminate]|auto].
    + rewrite SX, EX. auto.
    + intros x Hx. specialize (SXD x Hx). intros d v Hd. specialize (SXD d v Hd). unfold dom in *; cbn. lia.
    + auto.
    + auto.
  - (* drop *)
    rewrite (sim_handle _ _ _ _ _ h HS). destruct (handle s h) as [c|] eqn:Eh; cbn [option_map].
    2:{ cbn. auto. }
    assert (nth_error (a_handles s) h = Some (Some c)) as Eh'.
    { unfold handle in Eh. destruct (nth_error (a_handles s) h) as [[d|]|]; congruence. }
    assert (In (Some c) (a_handles s)) as Hin by (eapply nth_error_In; eauto).
    assert (dom (a_world s) c) as D by (eapply sim_dom; eauto).
    destruct (ws_arc _ _ _ _ _ SW c D) as (r & R1 & R2 & R3 & R4 & R5).
    assert (nth_error (l_handles l) h = Some (Some (alpha c))) as El by (rewrite SH, nth_error_map, Eh'; auto).
    set (hs := update (a_handles s) h None) in *.
    set (refs := remove1 (alpha c) (v_refs V)).
    assert (update (l_handles l) h None = map (option_map alpha) hs) as Hhs by (unfold hs; rewrite map_update, SH; auto).
    assert (Permutation refs (somes (update (l_handles l) h None))) as HR.
    { apply Permutation_cons_inv with (a := alpha c). rewrite <- (somes_update _ _ _ El), <- SR. symmetry.
      apply has_remove1. apply has_in. rewrite SR. apply in_somes. eapply nth_error_In; eauto. }
    assert (has (alpha c) refs = Api.owned hs c) as Hlast.
    { apply eq_true_iff_eq. rewrite has_in, owned_in. split.
      - intros Hi. eapply Permutation_in in Hi; [|exact HR]. apply in_somes in Hi.
        rewrite Hhs in Hi. apply in_map_iff in Hi as ([d|] & E & Hd); [|discriminate].
        injection E as E. apply (ws_alpha _ _ _ _ _ SW) in E; auto; [congruence|].
        unfold hs in Hd. apply in_update in Hd as [Hd|Hd]; [discriminate|]. eapply sim_dom; eauto.
      - intros Hi. eapply Permutation_in; [symmetry; exact HR|]. apply in_somes.
        rewrite Hhs. apply in_map_iff. exists (Some c). auto. }
    unfold c_drop. cbn [IsoSelf.lwp]. split; [congruence|]. fold refs. rewrite Hlast.
    destruct (Api.owned hs c) eqn:Eo; cbn [negb].
    + apply (H rho alpha). constructor; cbn; auto.
      * apply wsim_refs. auto.
      * intros d. rewrite <- SO. destruct (Nat.eq_dec d c) as [->|Hne].
        -- rewrite Eo. rewrite owned_in. tauto.
        -- unfold hs. rewrite (owned_update _ _ c); [tauto|auto|auto].
    + cbn. exists r. rewrite R2. split; [auto|]. split; [apply (ws_id _ _ _ _ _ SW); auto|].
      apply (H rho alpha). destruct SW as [W1 W2 W3 W4 W5 W6 W7 W8]. constructor; cbn; auto.
      * constructor; unfold dom in *; cbn; auto.
        -- intros d Hd. destruct (W5 d Hd) as (r' & ? & ? & ? & ? & ?). exists r'. repeat split; auto.
           intros j. destruct (d =? c); [discriminate|auto].
        -- intros d Hd. destruct (Nat.eqb_spec d c) as [->|Hne]; [apply upd_eq|]. rewrite upd_ne; auto.
        -- intros d. destruct (d =? c); [congruence|auto].
      * intros d. destruct (Nat.eqb_spec d c) as [->|Hne].
        -- rewrite Eo. split; [discriminate|congruence].
        -- rewrite <- SO. unfold hs. rewrite (owned_update _ _ c); [tauto|auto|auto].
  - destruct (Hk c eq_refl).
  - (* set_indep *)
    rewrite (sim_handle _ _ _ _ _ h HS), (sim_var _ _ _ _ _ x HS).
    destruct (handle s h) as [c|] eqn:Eh; cbn [option_map]; [|cbn; auto].
    destruct (nth_error (a_vars s) x) as [v|] eqn:Ex; cbn [option_map]; [|cbn; auto].
    pose proof (handle_owned _ _ _ Eh) as Ho. pose proof (proj1 (SO c) Ho) as Hc.
    destruct (w_ctx (a_world s) c) as [j|] eqn:Ec; [|congruence].
    assert (dom (a_world s) c) as D by (apply (ws_dom _ _ _ _ _ SW); congruence).
    unfold c_set_indep. apply lwp_bind. apply (wsim_crit me rho alpha _ V (a_world s) (Api.a_poison s) c j); auto.
    destruct (Api.a_poison s c) eqn:Ep.
    + intros V' Hr W'. cbn. apply (H rho alpha). rewrite <- (api_eta s).
      eapply sim_world; eauto; tauto.
    + unfold set_indep, with_ctx in H. rewrite Ec in H. unfold body_indep. rewrite ren_v.
      destruct (tof (af_v v)) as [fv|]; cbn [unwrap bind] in H |- *.
      * intros V' Hr W'. cbn. apply (H rho alpha). unfold put_var, set_world; cbn.
        apply (sim_put rho alpha V V' l s _ _ x (mkAF (af_v v) (af_dv v) (Some (c, length (i_vals j)))) false); auto.
        -- apply ctx_same with (j := j). auto.
        -- intros d w [= <- <-]. exact D.
      * intros V' Hr W'. cbn. apply (H rho alpha). unfold set_poison. eapply sim_world; eauto; tauto.
  - (* set_dep *)
    rewrite (sim_handle _ _ _ _ _ h HS), (sim_var _ _ _ _ _ x HS).
    destruct (handle s h) as [c|] eqn:Eh; cbn [option_map]; [|cbn; auto].
    destruct (nth_error (a_vars s) x) as [v|] eqn:Ex; cbn [option_map]; [|cbn; auto].
    pose proof (handle_owned _ _ _ Eh) as Ho. pose proof (proj1 (SO c) Ho) as Hc.
    destruct (w_ctx (a_world s) c) as [j|] eqn:Ec; [|congruence].
    assert (dom (a_world s) c) as D by (apply (ws_dom _ _ _ _ _ SW); congruence).
    assert (in_dom (a_world s) v) as Dv by (apply SXD; eapply nth_error_In; eauto).
    unfold c_set_dep. apply lwp_bind. apply (wsim_crit me rho alpha _ V (a_world s) (Api.a_poison s) c j); auto.
    destruct (Api.a_poison s c) eqn:Ep.
    + intros V' Hr W'. cbn. apply (H rho alpha). rewrite <- (api_eta s).
      eapply sim_world; eauto; tauto.
    + assert (body_dep tof (ren rho v) (rho c) j = body_dep tof v c j) as ->.
      { unfold body_dep. rewrite ren_ctx. unfold in_dom in Dv. destruct (af_ctx v) as [[d k]|]; auto.
        assert ((rho d =? rho c) = (d =? c)) as ->; auto.
        destruct (Nat.eqb_spec d c) as [->|Hne]; [apply Nat.eqb_refl|]. apply Nat.eqb_neq. intros E. apply Hne.
        eapply (ws_rho _ _ _ _ _ SW); eauto. }
      unfold set_dep, with_ctx in H. rewrite Ec in H. fold (body_dep tof v c j) in H.
      destruct (body_dep tof v c j) as [[[] j']|p].
      * intros V' Hr W'. cbn. apply (H rho alpha). unfold set_world; cbn. eapply sim_world; eauto.
        apply ctx_same with (j := j). auto.
      * intros V' Hr W'. cbn. apply (H rho alpha). unfold set_poison. eapply sim_world; eauto; tauto.
  - (* tape *)
    rewrite (sim_handle _ _ _ _ _ h HS). destruct (handle s h) as [c|] eqn:Eh; cbn [option_map]; [|cbn; auto].
    pose proof (handle_owned _ _ _ Eh) as Ho. pose proof (proj1 (SO c) Ho) as Hc.
    destruct (w_ctx (a_world s) c) as [j|] eqn:Ec; [|congruence].
    unfold c_tape. apply lwp_bind. apply (wsim_crit me rho alpha _ V (a_world s) (Api.a_poison s) c j); auto.
    unfold ctx_tape, with_ctx in H. rewrite Ec in H.
    destruct (Api.a_poison s c) eqn:Ep.
    + intros V' Hr W'. cbn. apply (H rho alpha). rewrite <- (api_eta s).
      eapply sim_world; eauto; tauto.
    + assert (forall k, w_ctx (upd_ctx (a_world s) c (Some j)) k = w_ctx (a_world s) k) as Hs by (apply upd_ctx_same; auto).
      assert (forall V', wsim rho alpha V' (upd_ctx (a_world s) c (Some j)) (Api.a_poison s) ->
                wsim rho alpha V' (a_world s) (Api.a_poison s)) as HE by (intros V' W'; eapply wsim_ext; eauto).
      unfold body_get at 1. intros V1 Hr1 W1. apply HE in W1.
      apply (wsim_crit me rho alpha _ V1 (a_world s) (Api.a_poison s) c j); auto. rewrite Ep.
      unfold body_get at 1. intros V2 Hr2 W2. apply HE in W2.
      apply (wsim_crit me rho alpha _ V2 (a_world s) (Api.a_poison s) c j); auto. rewrite Ep.
      unfold body_get at 1. intros V3 Hr3 W3. apply HE in W3.
      apply (wsim_crit me rho alpha _ V3 (a_world s) (Api.a_poison s) c j); auto. rewrite Ep.
      unfold body_get at 1. intros V4 Hr4 W4. apply HE in W4.
      assert (v_refs V4 = v_refs V) as Hr by congruence.
      cbn. apply (H rho alpha). constructor; cbn; auto.
      * rewrite Hr. auto.
      * rewrite ST. auto.
  - cbn. apply (H rho alpha). unfold push_var.
    apply (sim_push rho alpha V V l s _ _ (af_new v dv) false); auto; [tauto|]. intros c w; discriminate.
  - rewrite (sim_var _ _ _ _ _ x HS). destruct (nth_error (a_vars s) x) as [v|] eqn:Ex; cbn [option_map]; [|cbn; auto].
    destruct (sim_dirty _ _ _ _ _ _ _ HS Ex) as [d Hd]. rewrite Hd in H. apply (H rho alpha).
    apply (sim_push rho alpha V V l s _ _ v d); auto; [tauto|]. apply SXD. eapply nth_error_In; eauto.
  - rewrite (sim_var _ _ _ _ _ x HS). destruct (nth_error (a_vars s) x) as [a|] eqn:Ex; cbn [option_map]; [|cbn; auto].
    apply (H rho alpha).
    apply (sim_put rho alpha V V l s _ _ x (mkAF v (af_dv a) (af_ctx a))); auto; [tauto|].
    apply (SXD a). eapply nth_error_In; eauto.
  - rewrite (sim_var _ _ _ _ _ x HS). destruct (nth_error (a_vars s) x) as [a|] eqn:Ex; cbn [option_map]; [|cbn; auto].
    destruct (sim_dirty _ _ _ _ _ _ _ HS Ex) as [d Hd]. rewrite Hd in H. apply (H rho alpha).
    apply (sim_put rho alpha V V l s _ _ x (mkAF (af_v a) dv (af_ctx a))); auto; [tauto|].
    apply (SXD a). eapply nth_error_In; eauto.
  - (* operation *)
    rewrite (sim_var _ _ _ _ _ x HS). destruct (nth_error (a_vars s) x) as [a|] eqn:Ex; cbn [option_map]; [|cbn; auto].
    assert (match y with
            | None => Some None
            | Some j => match nth_error (l_vars l) j with Some b => Some (Some b) | None => None end
            end =
            option_map (option_map (ren rho))
            match y with
            | None => Some None
            | Some j => match nth_error (a_vars s) j with Some b => Some (Some b) | None => None end
            end) as ->.
    { destruct y as [j|]; auto. rewrite (sim_var _ _ _ _ _ j HS). destruct (nth_error (a_vars s) j); auto. }
    destruct (match y with
            | None => Some None
            | Some j => match nth_error (a_vars s) j with Some b => Some (Some b) | None => None end
            end) as [b|] eqn:Eb; cbn [option_map]; [|cbn; auto].
    assert (arity_ok oc b) as Ha.
    { cbn in Wk. destruct y as [j|].
      - destruct (nth_error (a_vars s) j); [|discriminate]. injection Eb as <-. exact Wk.
      - injection Eb as <-. exact Wk. }
    assert (in_dom (a_world s) a) as Da by (apply SXD; eapply nth_error_In; eauto).
    assert (forall y', b = Some y' -> in_dom (a_world s) y') as Db.
    { intros y' ->. destruct y as [j|]; [|discriminate]. destruct (nth_error (a_vars s) j) eqn:Ej; [|discriminate].
      injection Eb as <-. apply SXD; eapply nth_error_In; eauto. }
    apply lwp_bind. apply (lwp_from_op So tof me rho alpha _ V (a_world s) (Api.a_poison s) oc a b); auto.
    { intros c Hc. eapply sim_has; eauto. apply (ws_dom _ _ _ _ _ SW); auto. apply SO; auto. }
    destruct (match pick_cid a b with
              | Ok (Some c) => match w_ctx (a_world s) c with Some _ => Api.a_poison s c | None => false end
              | _ => false
              end) eqn:Ep.
    { intros V' Hr W'. apply (H rho alpha). rewrite <- (api_eta s). eapply sim_world; eauto; tauto. }
    destruct (from_op So tof oc a b (a_world s)) as [[r w']|p] eqn:Ef.
    + apply from_op_same in Ef as (En & Ek & Er). intros V' Hr W'. apply (H rho alpha).
      unfold push_var, set_world; cbn. apply (sim_push rho alpha V V' l s w' _ r false); auto.
      intros c v Hc. apply (ws_dom _ _ _ _ _ W'). apply Ek. eauto.
    + destruct (from_op_left So tof oc a b (a_world s)) as [[c w']|] eqn:El.
      * apply left_same in El as [En Ek]. intros V' Hr W'. apply (H rho alpha).
        unfold set_poison, set_world; cbn. eapply sim_world; eauto.
      * intros V' Hr W'. apply (H rho alpha). rewrite <- (api_eta s). eapply sim_world; eauto; tauto.
Qed.

Lemma client_sim p : forall rho alpha V l s, sim rho alpha V l s -> private p ->
  lwp (fun _ r => r = alone So tof p s) V (c_client So tof p l).
Proof.
  induction p as [r|k next IH]; intros rho alpha V l s HS HP; cbn [c_client alone].
  - cbn. auto.
  - assert (wf_call k /\ (forall c, k <> CLookup c) /\ forall o, private (next o)) as (Wk & Nk & Pn)
      by (destruct k; cbn in HP; try contradiction; destruct HP; repeat split; auto; discriminate).
    eapply call_sim; eauto. destruct (Api.step So tof s k) as [[s' r]|]; auto.
    intros rho' alpha' V' l' HS'. rewrite (sim_looks _ _ _ _ _ r HS'). eapply IH; eauto.
Qed.

Definition view0 : view := mkView (fun _ => false) (fun _ => None) (fun _ => None) [].

Lemma sim0 : sim (fun c => c) (fun c => c) view0 locals0 api0.
Proof.
  constructor; cbn; auto.
  - constructor; unfold dom; cbn; auto; try lia; try congruence.
  - intros c. unfold Api.owned; cbn. split; [discriminate|congruence].
  - intros x [].
Qed.

Lemma alone_no_var p : forall s, private p -> forall x, alone So tof p s <> RVar x.
Proof.
  induction p as [r|k next IH]; intros s HP x; cbn [alone].
  - destruct r; cbn in HP; try contradiction; discriminate.
  - destruct (Api.step So tof s k) as [[s' r]|]; [|discriminate]. apply IH.
    destruct k; cbn in HP; try contradiction; apply HP.
Qed.

(** Everybody's invariant before the program begins. *)
Notation none := (fun _ : nat => False).

Lemma others0 : others none none none (sys0 (S := S) (F := F)).
Proof. constructor; cbn; try contradiction; try discriminate. Qed.

Lemma play_others s : forall g g', others none none none g -> lookups_ok So tof given_out g s ->
  play So tof g s = Some g' -> others none none none g'.
Proof.
  induction s as [|[j m] s IH]; intros g g' O HL HP; cbn in *.
  - injection HP as <-. auto.
  - destruct HL as [HL HS]. destruct (Concurrent.step So tof g j m) as [g1|] eqn:E; [|discriminate].
    eapply IH; [|exact HS|exact HP].
    eapply (step_other_frame So tof none none none g j m g1); eauto.
    intros c Hc. split; [apply HL; auto|auto].
Qed.

Lemma step_mono (g g' : sys) j m : Concurrent.step So tof g j m = Some g' -> g_next g <= g_next g' /\ g_anext g <= g_anext g'.
Proof.
  assert (forall c, begin g j c = Some g' -> g_next g <= g_next g' /\ g_anext g <= g_anext g') as HB.
  { intros c. unfold begin. destruct (t_code _); [discriminate|]. intros [= <-]. cbn. lia. }
  unfold Concurrent.step. destruct (j <? g_n g); [|discriminate].
  destruct m as [| |c|a|a x|a x|a|oc x y|v dv|x dv|a l|]; eauto.
  - unfold micro. destruct (t_code (g_thr g j)) as [[r|k|c k|k|c a k|c k|a k|k|a k|a k|a k|a f k|a p k]|];
      try discriminate; try (intros [= <-]; cbn; lia).
    + destruct (g_mlock g); [discriminate|]. intros [= <-]; cbn; lia.
    + destruct (g_arc g a); [|discriminate]. intros [= <-]; cbn; lia.
    + destruct (Concurrent.owned g a); intros [= <-]; cbn; lia.
    + destruct (g_arc g a) as [r|]; [|discriminate]. destruct (a_lock r); [discriminate|]. intros [= <-]; cbn; lia.
    + destruct (g_arc g a); [|discriminate]. intros [= <-]; cbn; lia.
    + destruct (g_arc g a); [|discriminate]. intros [= <-]; cbn; lia.
  - destruct (has _ _); eauto. discriminate.
  - destruct (nth_error _ _); [|discriminate]. destruct (has _ _); eauto. discriminate.
  - destruct (nth_error _ _); [|discriminate]. destruct (has _ _); eauto. discriminate.
  - destruct (has _ _); eauto. discriminate.
  - destruct (right_arity _ _); [|discriminate]. destruct (nth_error _ x); [|discriminate]. destruct y as [y|]; eauto.
    destruct (nth_error _ y); eauto. discriminate.
  - destruct (t_code _); [discriminate|]. intros [= <-]; cbn; lia.
  - destruct (t_code _); [discriminate|]. destruct (nth_error _ _); [|discriminate]. intros [= <-]; cbn; lia.
  - destruct (t_code _); [discriminate|]. destruct (t_code _); [discriminate|].
    destruct (has _ _ && _); [|discriminate]. intros [= <-]; cbn; lia.
  - destruct (t_code _); [discriminate|]. intros [= <-]; cbn; lia.
Qed.

Lemma play_mine n (Q : view -> ret S F -> Prop) base : (forall V r, Q V r -> forall x, r <> RVar x) -> forall s V g g',
  mine (S := S) me n Q base V g -> carries_on me s -> lookups_ok So tof (not_of me n) g s ->
  play So tof g s = Some g' -> exists V', mine me n Q base V' g'.
Proof.
  intros NV. induction s as [|[j m] s IH]; intros V g g' M HC HL HP; cbn in *.
  - injection HP as <-. eauto.
  - destruct HL as [HL HS]. destruct (Concurrent.step So tof g j m) as [g1|] eqn:E; [|discriminate].
    apply Forall_cons_iff in HC as [[HC1 HC2] HC]. cbn in *.
    assert (exists V', mine me n Q base V' g1) as [V1 M1].
    { destruct (Nat.eq_dec j me) as [->|Hne].
      - rewrite (HC1 eq_refl) in E. unfold Concurrent.step in E. destruct (_ <? _); [|discriminate].
        eapply self_step; eauto.
      - pose proof (step_mono _ _ _ _ E) as [L1 L2]. pose proof (m_others _ _ _ _ _ _ M) as O.
        exists V. eapply (step_other_frame So tof (eq me) (vI V) (vA V) g j m g1) in E as [O1 F1]; auto.
        + eapply mine_frame; eauto.
        + intros a l -> <-. apply (HC2 a); auto.
        + intros c ->. destruct (HL c eq_refl) as [Hc|(l & a & r & Hl & Ha & Hr & <-)].
          * split; [pose proof (m_n _ _ _ _ _ _ M); lia|]. intros Hi. apply (m_ids _ _ _ _ _ _ M) in Hi. lia.
          * destruct (o_refs _ _ _ g O l a) as [_ Hn]; auto.
            destruct (o_arc _ _ _ g O a r Hr) as (_ & Hc & Hi). split; auto. }
    eapply IH; eauto.
Qed.

Theorem private_as_alone s0 g p s g' r :
  play So tof sys0 s0 = Some g -> lookups_ok So tof given_out sys0 s0 ->
  me < g_n g -> idle g me -> private p -> carries_on me s ->
  lookups_ok So tof (not_of me (g_next g)) (start So tof g me p) s ->
  play So tof (start So tof g me p) s = Some g' ->
  t_code (g_thr g' me) = Some (Ret r) -> r = alone So tof p api0.
Proof.
  intros H0 L0 Hm Hi HP HC HL H HR.
  pose proof (play_others _ _ _ others0 L0 H0) as O.
  assert (mine me (g_next g) (fun _ r => r = alone So tof p api0) (t_refs (g_thr g me)) view0 (start So tof g me p)) as M.
  { constructor; cbn; try discriminate; auto.
    - destruct O as [OT OR OV OA OM OI OAA ON]. constructor; cbn; try discriminate.
      + intros j c Hj. rewrite upd_ne by congruence. intros Hc.
        eapply only_mono; [| |apply (OT j c); auto]; intros d [? _]; split; auto; discriminate.
      + intros j a Hj. rewrite upd_ne by congruence. intros Ha. destruct (OR j a) as [? _]; auto.
        split; [auto|]. unfold vA; cbn; auto.
      + intros x Hx. eapply af_only_mono; [|apply OV; auto]. intros d [? _]; split; auto; discriminate.
      + intros a r0 Ha. destruct (OA a r0 Ha) as (? & ? & _). repeat split; auto. discriminate.
      + intros c a Hc. destruct (OM c a Hc) as [? HQ]. split; auto. intros _. destruct HQ as [? _]; auto.
        split; [auto|]. unfold vA; cbn; auto.
      + unfold vA; cbn. contradiction.
      + intros j <-. auto.
    - rewrite upd_eq. auto.
    - contradiction.
    - intros a Ha. split; [|unfold vA; cbn; auto]. cbn.
      destruct (o_refs _ _ _ g O me a) as [? _]; auto.
    - intros c. rewrite upd_eq. cbn. intros [= <-]. eapply client_sim; eauto. apply sim0. }
  destruct (play_mine _ _ _ (fun V r E x => eq_ind_r (fun r => r <> RVar x) (alone_no_var p api0 HP x) E) s _ _ _ M HC HL H)
    as [V' M'].
  apply (m_code _ _ _ _ _ _ M' _ HR).
Qed.

(** Sufficient for the conditions on lookups. *)
Lemma lookups_by (ids : sys -> nat -> Prop) s : Forall (fun m => forall c, snd m = DoLookup c -> forall g, ids g c) s ->
  forall g, lookups_ok So tof ids g s.
Proof.
  induction 1 as [|[j m] s H HF IH]; intros g; cbn; auto. split; [intros c Hc; apply (H c Hc)|].
  destruct (Concurrent.step So tof g j m); auto.
Qed.

End Main.
