(** Invariants of API histories. *)
From Coq Require Import List Arith ZArith Bool Lia.
From Verif Require Import Base Float Operation Tape AContext Methods Function Spec Param
  TapeFacts AContextFacts Api.
Import ListNotations.

Section Inv.
Context {Sc F : Type} (So : Fops Sc) (tof : Sc -> option F).
Notation step := (step So tof).
Notation history := (history So tof).
Notation valid_af := (valid_af tof).

Record inv (s : api Sc F) : Prop := {
  inv_world : wf_world (a_world s);
  inv_len : length (a_dirty s) = length (a_vars s);
  inv_vars : forall i x d, nth_error (a_vars s) i = Some x -> nth_error (a_dirty s) i = Some d ->
             valid_af (negb d) (a_world s) x;
  inv_handles : forall c, owned (a_handles s) c = true <-> w_ctx (a_world s) c <> None;
  inv_next : 1 <= w_next (a_world s);
  inv_created : a_created s = seq 1 (w_next (a_world s) - 1);
  inv_tapes : forall t, In t (a_tapes s) -> recorded_tape t
}.

Lemma inv0 : inv api0.
Proof.
  constructor; cbn; auto.
  - intros c i H; discriminate.
  - intros [|i] x d H; discriminate.
  - intros c. unfold owned; cbn. split; congruence.
  - intros t [].
Qed.

Lemma valid_af_weaken w x d : valid_af true w x -> valid_af d w x.
Proof.
  unfold AContextFacts.valid_af. destruct (af_ctx x) as [[c v]|]; auto.
  intros [H1 H2]. split; auto. intros i Hi. destruct (H2 i Hi) as [A B]. split; auto.
Qed.

Lemma vars_mono s w' :
  wext (a_world s) w' ->
  (forall i x d, nth_error (a_vars s) i = Some x -> nth_error (a_dirty s) i = Some d ->
             valid_af (negb d) (a_world s) x) ->
  (forall i x d, nth_error (a_vars s) i = Some x -> nth_error (a_dirty s) i = Some d ->
             valid_af (negb d) w' x).
Proof. intros X H i x d H1 H2. eapply valid_af_mono; eauto. Qed.

Lemma handle_owned (s : api Sc F) h c : handle s h = Some c -> owned (a_handles s) c = true.
Proof.
  unfold handle, owned. destruct (nth_error (a_handles s) h) as [[c'|]|] eqn:E; try discriminate.
  intros [= ->]. apply existsb_exists. exists (Some c). split.
  - eapply nth_error_In; eauto.
  - apply Nat.eqb_refl.
Qed.

Lemma owned_app hs h c :
  owned (hs ++ [h]) c = owned hs c || match h with Some c' => c' =? c | None => false end.
Proof. unfold owned. rewrite existsb_app. cbn. rewrite orb_false_r. auto. Qed.

Lemma owned_update hs h c c' :
  nth_error hs h = Some (Some c) -> c' <> c -> owned (update hs h None) c' = owned hs c'.
Proof.
  unfold owned.
  revert h; induction hs as [|a hs IH]; intros [|h]; cbn; intros H Hne; try discriminate.
  - injection H as ->. apply Nat.eqb_neq in Hne. rewrite Nat.eqb_sym in Hne. rewrite Hne. auto.
  - rewrite IH; auto.
Qed.

Lemma owned_update_sub hs h c : owned (update hs h None) c = true -> owned hs c = true.
Proof.
  unfold owned. revert h; induction hs as [|a hs IH]; intros [|h]; cbn; auto.
  - intros H. rewrite H. apply orb_true_r.
  - intros H. apply orb_true_iff in H as [->|H]; auto.
    rewrite (IH h H). apply orb_true_r.
Qed.

Lemma set_indep_spec c (x : AF Sc) (w : world F) r w' :
  set_indep tof c x w = Ok (r, w') ->
  exists i fv, w_ctx w c = Some i /\ tof (af_v x) = Some fv /\
    r = mkAF (af_v x) (af_dv x) (Some (c, length (i_vals i))) /\
    w' = upd_ctx w c (Some (push_indep i fv)).
Proof.
  unfold set_indep, with_ctx. destruct (w_ctx w c) as [i|] eqn:E; [|discriminate].
  destruct (tof (af_v x)) as [fv|] eqn:Ev; cbn; [|discriminate].
  intros [= <- <-]. exists i, fv. auto.
Qed.

Lemma set_dep_spec c (x : AF Sc) (w : world F) w' :
  set_dep tof c x w = Ok (tt, w') ->
  exists i, w_ctx w c = Some i /\
    ((exists v, af_ctx x = Some (c, v) /\ w' = upd_ctx w c (Some (push_dep i v))) \/
     (exists fv, af_ctx x = None /\ tof (af_v x) = Some fv /\
        w' = upd_ctx w c (Some (push_dep (push_op i Const None None fv) (length (i_vals i)))))).
Proof.
  unfold set_dep, with_ctx. destruct (w_ctx w c) as [i|] eqn:E; [|discriminate].
  intros H. exists i. split; auto. destruct (af_ctx x) as [[c' v]|].
  - left. unfold assert in H. destruct (Nat.eqb_spec c' c); cbn in H; [|discriminate].
    subst c'. injection H as <-. exists v; auto.
  - right. destruct (tof (af_v x)) as [fv|] eqn:Ev; cbn in H; [|discriminate].
    injection H as <-. exists fv; auto.
Qed.

Lemma ctx_same_owned (s : api Sc F) w' c i i' :
  changes c i i' (a_world s) w' ->
  (forall c, owned (a_handles s) c = true <-> w_ctx (a_world s) c <> None) ->
  forall k, owned (a_handles s) k = true <-> w_ctx w' k <> None.
Proof.
  intros (_ & A & B & C) H k. rewrite H. destruct (Nat.eq_dec k c) as [->|Hne].
  - rewrite A, B. split; congruence.
  - rewrite C; auto. tauto.
Qed.

(** What a successful [from_op] does to the set of live contexts. *)
Lemma from_op_ctxs oc (x : AF Sc) y (w : world F) r w' :
  from_op So tof oc x y w = Ok (r, w') ->
  w_next w' = w_next w /\ forall k, w_ctx w' k <> None <-> w_ctx w k <> None.
Proof.
  intros H. apply from_op_spec in H as (_ & _ & D).
  destruct D as [-> _ _ | c i i1 i2 v1 v2 fv Ep Ec O1 O2 Et Er (A & B & C & D)].
  - split; auto. tauto.
  - split; auto. intros k. destruct (Nat.eq_dec k c) as [->|Hne].
    + rewrite B, C. split; congruence.
    + rewrite D; auto. tauto.
Qed.

(** A context to which constants were added. *)
Inductive consts_added : inner F -> inner F -> Prop :=
| ca_none i : consts_added i i
| ca_push i i' fv : consts_added i i' -> consts_added i (push_op i' Const None None fv).

Lemma consts_ext i i' : consts_added i i' -> ext i i'.
Proof.
  induction 1 as [i|i i' fv H IH]; [apply ext_refl|]. eapply ext_trans; [exact IH|apply ext_push_op].
Qed.
Lemma consts_recorded i i' : consts_added i i' -> recorded_tape (tape_of i) -> recorded_tape (tape_of i').
Proof.
  induction 1 as [i|i i' fv H IH]; auto. intros R. apply recorded_push_op; cbn; auto; try congruence; lia.
Qed.
Lemma operand_consts i i1 (x : AF Sc) v i2 : consts_added i i1 -> operand tof i1 x v i2 -> consts_added i i2.
Proof.
  unfold operand. intros C. destruct (af_ctx x) as [[? ?]|].
  - intros [_ ->]. auto.
  - intros (fv & _ & _ & ->). constructor. auto.
Qed.

(** What a panicking [from_op] leaves behind. *)
Lemma from_op_left_spec oc (x : AF Sc) y (w : world F) c w' :
  from_op_left So tof oc x y w = Some (c, w') ->
  pick_cid x y = Ok (Some c) /\ exists i i', consts_added i i' /\ changes c i i' w w'.
Proof.
  unfold from_op_left. destruct (zero_order_value _ _ _ _) as [v|]; [|discriminate].
  destruct (first_order_value _ _ _ _ _ _) as [dv|]; [|discriminate].
  destruct (pick_cid x y) as [[c0|]|] eqn:Ep; try discriminate.
  destruct (w_ctx w c0) as [i|] eqn:Ec; [|discriminate].
  assert (changes c0 i i w w) as C0 by (repeat split; auto).
  destruct (ensure_id tof c0 x w) as [[v1 w1]|] eqn:E1.
  - destruct (ensure_id_spec _ _ _ _ _ _ _ Ec E1) as (i1 & O1 & C1).
    pose proof (operand_consts _ _ _ _ _ (ca_none i) O1) as A1.
    destruct y as [y|].
    + assert (w_ctx w1 c0 = Some i1) as Ec1 by apply C1.
      destruct (ensure_id tof c0 y w1) as [[v2 w2]|] eqn:E2; intros [= <- <-]; split; auto.
      * destruct (ensure_id_spec _ _ _ _ _ _ _ Ec1 E2) as (i2 & O2 & C2).
        exists i, i2. split; [eapply operand_consts; eauto|eapply changes_trans; eauto].
      * eauto.
    + intros [= <- <-]. split; auto. eauto.
  - intros [= <- <-]. split; auto. exists i, i. split; auto. constructor.
Qed.

Definition api_ext (s s' : api Sc F) : Prop := wext (a_world s) (a_world s').

Lemma nth_update_cases {A} (l : list A) i j a b :
  nth_error (update l i a) j = Some b ->
  (i = j /\ b = a) \/ (i <> j /\ nth_error l j = Some b).
Proof.
  intros H. destruct (Nat.eq_dec i j) as [->|Hne].
  - left. split; auto. rewrite nth_error_update_eq in H; [congruence|].
    rewrite <- (update_length l j a). apply nth_error_Some; congruence.
  - right. split; auto. rewrite nth_error_update_neq in H; auto.
Qed.

Lemma nth_snoc_cases {A} (l : list A) a j b :
  nth_error (l ++ [a]) j = Some b -> nth_error l j = Some b \/ (j = length l /\ b = a).
Proof.
  intros H. destruct (Nat.lt_ge_cases j (length l)) as [L|L].
  - rewrite nth_error_app1 in H; auto.
  - rewrite nth_error_app2 in H; auto. destruct (j - length l) as [|m] eqn:E.
    + right. split; [lia|]. cbn in H. congruence.
    + destruct m; discriminate.
Qed.

Theorem step_inv s k s' r :
  inv s -> wf_call k -> step s k = Some (s', r) -> inv s' /\ api_ext s s'.
Proof.
  intros I Wk. destruct I as [IW IL IV IH IN IC IT].
  destruct k as [|h|cid|h x|h x|h|v dv|x|x v|x dv|oc x y]; cbn [Api.step].
  - (* new *)
    cbn. intros [= <- <-]. unfold api_ext; cbn.
    assert (w_ctx (a_world s) (w_next (a_world s)) = None) as Hf.
    { destruct (w_ctx (a_world s) (w_next (a_world s))) as [i|] eqn:E; auto.
      apply IW in E. destruct E; lia. }
    assert (X : wext (a_world s) (mkWorld (w_next (a_world s) + 1)
       (fun k => if k =? w_next (a_world s) then Some (mkInner [] [] [] []) else
                 w_ctx (a_world s) k))).
    { split; cbn; [lia|]. intros c i' Hc H. destruct (Nat.eqb_spec c (w_next (a_world s))); [lia|].
      exists i'. split; auto. apply ext_refl. }
    split; auto. constructor; cbn; auto.
    + intros c i. cbn. destruct (Nat.eqb_spec c (w_next (a_world s))) as [->|Hne].
      * intros [= <-]. split; [lia|]. apply recorded_empty.
      * intros H. apply IW in H as [H1 H2]. split; auto. lia.
    + eapply vars_mono; eauto.
    + intros c. rewrite owned_app, orb_true_iff, IH.
      rewrite (Nat.eqb_sym (w_next (a_world s)) c).
      destruct (Nat.eqb_spec c (w_next (a_world s))) as [->|Hne].
      * split; [congruence|auto].
      * split; [intros [?|?]; [auto|discriminate]|auto].
    + lia.
    + rewrite IC. replace (w_next (a_world s) + 1 - 1) with (S (w_next (a_world s) - 1)) by lia.
      rewrite seq_S. f_equal. f_equal. lia.
  - (* drop *)
    destruct (handle s h) as [c|] eqn:Eh; [|discriminate].
    intros [= <- <-]. unfold api_ext; cbn.
    assert (nth_error (a_handles s) h = Some (Some c)) as Eh'.
    { unfold handle in Eh. destruct (nth_error (a_handles s) h) as [[?|]|]; congruence. }
    destruct (owned (update (a_handles s) h None) c) eqn:Eo.
    + split; [|apply wext_refl]. constructor; cbn; auto.
      intros k. destruct (Nat.eq_dec k c) as [->|Hne].
      * rewrite Eo. rewrite <- IH. split; auto. intros _. eapply handle_owned; eauto.
      * rewrite (owned_update _ _ c); auto.
    + assert (X : wext (a_world s) (upd_ctx (a_world s) c None)).
      { split; cbn; auto. intros k i' Hk H. destruct (Nat.eqb_spec k c); [discriminate|].
        exists i'; split; auto. apply ext_refl. }
      split; auto. constructor; cbn; auto.
      * intros k i. cbn. destruct (Nat.eqb_spec k c); [discriminate|]. apply IW.
      * eapply vars_mono; eauto.
      * intros k. destruct (Nat.eqb_spec k c) as [->|Hne].
        -- rewrite Eo. split; congruence.
        -- rewrite (owned_update _ _ c); auto.
  - (* lookup *)
    cbn. intros [= <- <-]. unfold api_ext. split; [|apply wext_refl]. constructor; cbn; auto.
    intros k. rewrite owned_app, orb_true_iff, IH.
    destruct (w_ctx (a_world s) cid) as [i|] eqn:E.
    + split; auto. intros [H|H]; auto. apply Nat.eqb_eq in H. subst k. congruence.
    + split; auto. intros [H|H]; auto. discriminate.
  - (* set_indep *)
    destruct (handle s h) as [c|] eqn:Eh; [|discriminate].
    destruct (nth_error (a_vars s) x) as [a|] eqn:Ea; [|discriminate].
    destruct (a_poison s c).
    { intros [= <- <-]. split; [constructor; auto|apply wext_refl]. }
    destruct (set_indep tof c a (a_world s)) as [[a' w']|p] eqn:E.
    2:{ intros [= <- <-]. split; [constructor; auto|apply wext_refl]. }
    intros [= <- <-]. unfold api_ext; cbn.
    apply set_indep_spec in E as (i & fv & Ec & Ev & -> & ->).
    pose proof (changes_upd c i (push_indep i fv) (a_world s) Ec) as Ch.
    pose proof (changes_wext _ _ _ _ _ Ch (ext_push_indep i fv)) as X.
    split; auto. constructor; cbn; auto.
    + eapply changes_wf; eauto. apply recorded_push_indep. apply (IW c i Ec).
    + rewrite !update_length; auto.
    + intros j b d H1 H2.
      apply nth_update_cases in H1 as [[<- ->]|[Hne H1]].
      * apply nth_update_cases in H2 as [[_ ->]|[? _]]; [|contradiction].
        unfold AContextFacts.valid_af; cbn. split.
        { apply (IW c i Ec). }
        intros i'. rewrite Nat.eqb_refl. intros [= <-]. split.
        -- cbn. rewrite app_length; cbn; lia.
        -- intros _. exists fv; split; auto. cbn. rewrite nth_error_app2, Nat.sub_diag; auto.
      * apply nth_update_cases in H2 as [[? _]|[_ H2]]; [contradiction|].
        eapply valid_af_mono; eauto.
    + exact (ctx_same_owned s _ c i _ Ch IH).
  - (* set_dep *)
    destruct (handle s h) as [c|] eqn:Eh; [|discriminate].
    destruct (nth_error (a_vars s) x) as [a|] eqn:Ea; [|discriminate].
    destruct (a_poison s c).
    { intros [= <- <-]. split; [constructor; auto|apply wext_refl]. }
    destruct (set_dep tof c a (a_world s)) as [[[] w']|p] eqn:E.
    2:{ intros [= <- <-]. split; [constructor; auto|apply wext_refl]. }
    intros [= <- <-]. unfold api_ext; cbn.
    apply set_dep_spec in E as (i & Ec & H).
    destruct (IW c i Ec) as [Hlt Hrec].
    assert (exists i', changes c i i' (a_world s) w' /\ ext i i' /\ recorded_tape (tape_of i'))
      as (i' & Ch & X & R).
    { destruct H as [(v & Hx & ->)|(fv & Hx & Ev & ->)].
      - exists (push_dep i v). split; [apply changes_upd; auto|]. split; [apply ext_push_dep|].
        apply recorded_push_dep; auto.
        destruct (nth_error (a_dirty s) x) as [d|] eqn:Ed.
        + specialize (IV x a d Ea Ed). unfold AContextFacts.valid_af in IV. rewrite Hx in IV.
          destruct IV as [_ IV]. apply (IV i Ec).
        + apply nth_error_None in Ed. assert (x < length (a_vars s)).
          { apply nth_error_Some; congruence. } lia.
      - exists (push_dep (push_op i Const None None fv) (length (i_vals i))).
        split; [apply changes_upd; auto|].
        split; [eapply ext_trans; [apply ext_push_op|apply ext_push_dep]|].
        apply recorded_push_dep.
        + apply recorded_push_op; cbn; auto; try congruence; lia.
        + cbn. rewrite app_length; cbn; lia. }
    pose proof (changes_wext _ _ _ _ _ Ch X) as XX.
    split; auto. constructor; cbn; auto.
    + eapply changes_wf; eauto.
    + eapply vars_mono; eauto.
    + exact (ctx_same_owned s _ c i _ Ch IH).
    + destruct Ch as (-> & _); auto.
    + destruct Ch as (-> & _); auto.
  - (* tape *)
    destruct (handle s h) as [c|] eqn:Eh; [|discriminate].
    destruct (a_poison s c).
    { intros [= <- <-]. split; [constructor; auto|apply wext_refl]. }
    unfold ctx_tape, with_ctx. destruct (w_ctx (a_world s) c) as [i|] eqn:E.
    + intros [= <- <-]. split; [|apply wext_refl]. constructor; cbn; auto.
      intros t Ht. apply in_app_or in Ht as [Ht|[<-|[]]]; auto. apply (IW c i E).
    + intros [= <- <-]. split; [constructor; auto|apply wext_refl].
  - (* var *)
    intros [= <- <-]. split; [|apply wext_refl]. constructor; cbn; auto.
    + rewrite !app_length; cbn; lia.
    + intros i a d H1 H2. apply nth_snoc_cases in H1 as [H1|[-> ->]].
      * apply nth_snoc_cases in H2 as [H2|[-> ->]]; [eauto|].
        exfalso. assert (length (a_dirty s) < length (a_vars s)) by (apply nth_error_Some; congruence).
        lia.
      * exact I.
  - (* copy *)
    destruct (nth_error (a_vars s) x) as [a|] eqn:Ea; [|discriminate].
    destruct (nth_error (a_dirty s) x) as [d0|] eqn:Ed; [|discriminate].
    intros [= <- <-]. split; [|apply wext_refl]. constructor; cbn; auto.
    + rewrite !app_length; cbn; lia.
    + intros i b d H1 H2. apply nth_snoc_cases in H1 as [H1|[E1 ->]];
        apply nth_snoc_cases in H2 as [H2|[E2 ->]]; eauto.
      * exfalso. assert (i < length (a_vars s)) by (apply nth_error_Some; congruence).
        lia.
      * exfalso. assert (i < length (a_dirty s)) by (apply nth_error_Some; congruence).
        lia.
  - (* value_mut *)
    destruct (nth_error (a_vars s) x) as [a|] eqn:Ea; [|discriminate].
    intros [= <- <-]. split; [|apply wext_refl]. constructor; cbn; auto.
    + rewrite !update_length; auto.
    + intros i b d H1 H2. apply nth_update_cases in H1 as [[<- ->]|[Hne H1]].
      * apply nth_update_cases in H2 as [[_ ->]|[? _]]; [|contradiction].
        destruct (nth_error (a_dirty s) x) as [d0|] eqn:Ed.
        -- specialize (IV x a d0 Ea Ed). unfold AContextFacts.valid_af in *. cbn.
           destruct (af_ctx a) as [[c v']|]; cbn; auto.
           destruct IV as [IV1 IV2]. split; auto. intros i Hi.
           destruct (IV2 i Hi) as [A _]. split; auto. discriminate.
        -- apply nth_error_None in Ed. assert (x < length (a_vars s)).
           { apply nth_error_Some; congruence. } lia.
      * apply nth_update_cases in H2 as [[? _]|[_ H2]]; [contradiction|]. eauto.
  - (* dvalue_mut *)
    destruct (nth_error (a_vars s) x) as [a|] eqn:Ea; [|discriminate].
    destruct (nth_error (a_dirty s) x) as [d0|] eqn:Ed; [|discriminate].
    intros [= <- <-]. split; [|apply wext_refl]. constructor; cbn; auto.
    + rewrite !update_length; auto.
    + intros i b d H1 H2. apply nth_update_cases in H1 as [[<- ->]|[Hne H1]].
      * apply nth_update_cases in H2 as [[_ ->]|[? _]]; [|contradiction].
        exact (IV x a d0 Ea Ed).
      * apply nth_update_cases in H2 as [[? _]|[_ H2]]; [contradiction|]. eauto.
  - (* operation *)
    destruct (nth_error (a_vars s) x) as [a|] eqn:Ea; [|discriminate].
    remember (match y with
              | None => Some None
              | Some j => match nth_error (a_vars s) j with Some b => Some (Some b) | None => None end
              end) as ob eqn:Eb.
    destruct ob as [b|]; [|discriminate].
    match goal with |- (if ?P then _ else _) = _ -> _ => destruct P end.
    { intros [= <- <-]. split; [constructor; auto|apply wext_refl]. }
    destruct (from_op So tof oc a b (a_world s)) as [[r0 w']|p] eqn:E.
    2:{ destruct (from_op_left So tof oc a b (a_world s)) as [[c w']|] eqn:EL; intros [= <- <-].
        2:{ split; [constructor; auto|apply wext_refl]. }
        apply from_op_left_spec in EL as (_ & i & i' & CA & Ch).
        pose proof (changes_wext _ _ _ _ _ Ch (consts_ext _ _ CA)) as X.
        unfold api_ext; cbn. split; auto. constructor; cbn; auto.
        - eapply changes_wf; eauto. apply (consts_recorded i); auto. destruct Ch as (_ & Hc & _). apply (IW c i Hc).
        - eapply vars_mono; eauto.
        - exact (ctx_same_owned s _ c i _ Ch IH).
        - destruct Ch as (-> & _); auto.
        - destruct Ch as (-> & _); auto. }
    intros [= <- <-].
    assert (Hv : forall j z, nth_error (a_vars s) j = Some z -> valid_af false (a_world s) z).
    { intros j z Hj. destruct (nth_error (a_dirty s) j) as [d|] eqn:Ed.
      - specialize (IV j z d Hj Ed). unfold AContextFacts.valid_af in *.
        destruct (af_ctx z) as [[c v]|]; auto. destruct IV as [A B]. split; auto.
        intros i Hi. destruct (B i Hi). split; auto. discriminate.
      - apply nth_error_None in Ed. assert (j < length (a_vars s)).
        { apply nth_error_Some; congruence. } lia. }
    assert (Vb : forall y', b = Some y' -> valid_af false (a_world s) y').
    { intros y' ->. destruct y as [j|]; [|discriminate].
      destruct (nth_error (a_vars s) j) as [z|] eqn:Ez; [|discriminate].
      injection Eb as <-. eapply Hv; eauto. }
    assert (Ha : arity_ok oc b).
    { cbn in Wk. destruct y as [j|].
      - destruct (nth_error (a_vars s) j); [|discriminate]. injection Eb as ->. exact Wk.
      - injection Eb as ->. exact Wk. }
    destruct (from_op_inv So tof false oc a b (a_world s) r0 w' IW (Hv _ _ Ea) Vb Ha E)
      as (W' & X & V').
    destruct (from_op_ctxs _ _ _ _ _ _ E) as [En Ek].
    assert (Vr : valid_af true w' r0).
    { apply from_op_spec in E as (Hz & Hf & D).
      destruct D as [-> Er _ | c i i1 i2 v1 v2 fv Ep Ec O1 O2 Et Er Ch].
      - unfold AContextFacts.valid_af; rewrite Er; exact I.
      - unfold AContextFacts.valid_af in *. rewrite Er in *. destruct V' as [V1 V2].
        split; auto. intros j Hj. destruct (V2 j Hj) as [A _]. split; auto. intros _.
        exists fv. split; auto. destruct Ch as (_ & _ & C & _).
        rewrite C in Hj. injection Hj as <-. cbn. rewrite nth_error_app2, Nat.sub_diag; auto. }
    unfold api_ext; cbn. split; auto. constructor; cbn; auto.
    + rewrite !app_length; cbn; lia.
    + intros i z d H1 H2. apply nth_snoc_cases in H1 as [H1|[-> ->]].
      * apply nth_snoc_cases in H2 as [H2|[-> ->]]; [eapply valid_af_mono; eauto|].
        exfalso. assert (length (a_dirty s) < length (a_vars s)) by (apply nth_error_Some; congruence).
        lia.
      * apply valid_af_weaken; auto.
    + intros c. rewrite Ek. auto.
    + rewrite En; auto.
    + rewrite En; auto.
Qed.

Theorem history_inv s ks s' : inv s -> history s ks s' -> inv s' /\ api_ext s s'.
Proof.
  intros I H. induction H as [|ks s1 k s2 r H IH Wk Hs].
  - split; auto. apply wext_refl.
  - destruct IH as [I1 X1]. destruct (step_inv _ _ _ _ I1 Wk Hs) as [I2 X2].
    split; auto. eapply wext_trans; eauto.
Qed.

Theorem reachable_inv s : reachable So tof s -> inv s.
Proof. intros [ks H]. destruct (history_inv _ _ _ inv0 H); auto. Qed.

Lemma history_app s ks1 s1 ks2 s2 :
  history s ks1 s1 -> history s1 ks2 s2 -> history s (ks1 ++ ks2) s2.
Proof.
  intros H1 H2. induction H2 as [|ks s' k s'' r H IH Wk Hs].
  - rewrite app_nil_r; auto.
  - rewrite app_assoc. econstructor; eauto.
Qed.

Lemma history_one s k s' r : wf_call k -> step s k = Some (s', r) -> history s [k] s'.
Proof. intros W E. apply (hist_step _ _ s [] s k s' r); auto. constructor. Qed.

(** Created ids only grow in number. *)
Lemma step_created s k s' r :
  step s k = Some (s', r) ->
  a_created s' = a_created s \/ (k = CNew /\ a_created s' = a_created s ++ [w_next (a_world s)]).
Proof.
  destruct k as [|h|cid|h x|h x|h|v dv|x|x v|x dv|oc x y]; cbn [Api.step].
  - cbn. intros [= <- <-]. right; auto.
  - destruct (handle s h); [|discriminate]. intros [= <- <-]; auto.
  - cbn. intros [= <- <-]; auto.
  - destruct (handle s h); [|discriminate]. destruct (nth_error _ _); [|discriminate].
    destruct (a_poison s n); [intros [= <- <-]; auto|].
    destruct (set_indep _ _ _ _) as [[? ?]|]; intros [= <- <-]; auto.
  - destruct (handle s h); [|discriminate]. destruct (nth_error _ _); [|discriminate].
    destruct (a_poison s n); [intros [= <- <-]; auto|].
    destruct (set_dep _ _ _ _) as [[? ?]|]; intros [= <- <-]; auto.
  - destruct (handle s h); [|discriminate].
    destruct (a_poison s n); [intros [= <- <-]; auto|].
    destruct (ctx_tape _ _) as [[? ?]|]; intros [= <- <-]; auto.
  - intros [= <- <-]; auto.
  - destruct (nth_error _ _); [|discriminate]. destruct (nth_error _ _); [|discriminate].
    intros [= <- <-]; auto.
  - destruct (nth_error _ _); [|discriminate]. intros [= <- <-]; auto.
  - destruct (nth_error _ _); [|discriminate]. destruct (nth_error _ _); [|discriminate].
    intros [= <- <-]; auto.
  - destruct (nth_error _ _); [|discriminate].
    match goal with |- match ?X with Some _ => _ | None => _ end = _ -> _ => destruct X end;
      [|discriminate].
    match goal with |- (if ?P then _ else _) = _ -> _ => destruct P end;
      [intros [= <- <-]; auto|].
    destruct (from_op _ _ _ _ _ _) as [[? ?]|]; [intros [= <- <-]; auto|].
    destruct (from_op_left _ _ _ _ _ _) as [[? ?]|]; intros [= <- <-]; auto.
Qed.

End Inv.
