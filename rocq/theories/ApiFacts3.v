(** Facts behind C04, C07-C10: permutation form of well-formedness, isolation, mixing contexts,
    outliving a context. *)
From Coq Require Import List Arith ZArith Bool Lia Permutation Sorted.
From Verif Require Import Base Float Operation Tape AContext Methods Function Spec Param
  TapeFacts AContextFacts Instances FunctionFacts RecordFacts ReplayFacts Api ApiFacts.
Import ListNotations.

(** ** Well-formedness: every id is defined exactly once *)
Lemma recorded_permutation {F} (t : tape F) :
  recorded_tape t -> Permutation (t_indeps t ++ map vid (t_ops t)) (seq 0 (length (t_vals t))).
Proof.
  intros [W NN RC CV].
  assert (def_ids (t_ops t) = map vid (t_ops t)) as E.
  { unfold def_ids. f_equal. clear -NN. induction (t_ops t) as [|o l IH]; cbn; auto.
    destruct (is_nop o) eqn:N; cbn.
    - apply is_nop_iff in N. exfalso. apply (NN o); cbn; auto.
    - f_equal. apply IH. intros o' H. apply NN; cbn; auto. }
  rewrite <- E. apply NoDup_Permutation.
  - assert (forall a b : list nat, NoDup a -> NoDup b -> (forall k, In k a -> ~ In k b) ->
      NoDup (a ++ b)) as G.
    { clear. induction a as [|k a IH]; intros b Ha Hb H; cbn; auto.
      inversion Ha as [|? ? Hk Ha']; subst. constructor.
      - intros Hi. apply in_app_or in Hi as [Hi|Hi]; [contradiction|]. apply (H k); cbn; auto.
      - apply IH; auto. intros j Hj. apply H; cbn; auto. }
    apply G; [apply W|apply sorted_NoDup; apply W|apply (wf_indep_def _ W)].
  - apply seq_NoDup.
  - intros k. rewrite in_app_iff, in_seq. split.
    + intros [H|H]; [apply (wf_indep_range _ W) in H|apply (def_ids_lt t k W) in H]; lia.
    + intros H. apply CV. lia.
Qed.

Section Iso.
Context {Sc F : Type} (So : Fops Sc) (tof : Sc -> option F).
Notation step := (step So tof).

(** The context a variable is attached to. *)
Definition attached (s : api Sc F) (x : nat) : option nat :=
  match nth_error (a_vars s) x with
  | Some a => option_map fst (af_ctx a)
  | None => None
  end.

(** The context a call is about. *)
Definition touches (s : api Sc F) (k : call Sc) (c : nat) : Prop :=
  match k with
  | CNew => c = w_next (a_world s)
  | CDrop h | CIndep h _ | CDep h _ => handle s h = Some c
  | COp _ x y => attached s x = Some c \/ exists j, y = Some j /\ attached s j = Some c
  | CLookup _ | CTape _ | CVar _ _ | CCopy _ | CSetV _ _ | CSetD _ _ => False
  end.

Lemma step_isolated s k s' r c :
  step s k = Some (s', r) -> ~ touches s k c ->
  w_ctx (a_world s') c = w_ctx (a_world s) c.
Proof.
  destruct k as [|h|cid|h x|h x|h|v dv|x|x v|x dv|oc x y]; cbn [Api.step touches]; intros E NT.
  - cbn in E. injection E as <- <-. cbn. destruct (Nat.eqb_spec c (w_next (a_world s))); auto.
    contradiction.
  - destruct (handle s h) as [c'|]; [|discriminate]. injection E as <- <-. cbn.
    destruct (owned _ _); auto. cbn. destruct (Nat.eqb_spec c c'); auto. congruence.
  - cbn in E. injection E as <- <-; auto.
  - destruct (handle s h) as [c'|]; [|discriminate].
    destruct (nth_error (a_vars s) x) as [a|]; [|discriminate].
    destruct (a_poison s c'); [injection E as <- <-; auto|].
    destruct (set_indep tof c' a (a_world s)) as [[a' w']|p] eqn:E1;
      injection E as <- <-; auto.
    apply set_indep_spec in E1 as (i & fv & _ & _ & _ & ->). cbn.
    destruct (Nat.eqb_spec c c'); auto. congruence.
  - destruct (handle s h) as [c'|]; [|discriminate].
    destruct (nth_error (a_vars s) x) as [a|]; [|discriminate].
    destruct (a_poison s c'); [injection E as <- <-; auto|].
    destruct (set_dep tof c' a (a_world s)) as [[[] w']|p] eqn:E1;
      injection E as <- <-; auto.
    apply set_dep_spec in E1 as (i & _ & [(? & _ & ->)|(? & _ & _ & ->)]); cbn;
      (destruct (Nat.eqb_spec c c'); auto; congruence).
  - destruct (handle s h) as [c'|]; [|discriminate].
    destruct (a_poison s c'); [injection E as <- <-; auto|].
    unfold ctx_tape, with_ctx in E. destruct (w_ctx (a_world s) c');
      injection E as <- <-; auto.
  - injection E as <- <-; auto.
  - destruct (nth_error (a_vars s) x); [|discriminate].
    destruct (nth_error (a_dirty s) x); [|discriminate]. injection E as <- <-; auto.
  - destruct (nth_error (a_vars s) x); [|discriminate]. injection E as <- <-; auto.
  - destruct (nth_error (a_vars s) x); [|discriminate].
    destruct (nth_error (a_dirty s) x); [|discriminate]. injection E as <- <-; auto.
  - destruct (nth_error (a_vars s) x) as [a|] eqn:Ea; [|discriminate].
    remember (match y with
              | None => Some None
              | Some j => match nth_error (a_vars s) j with Some b => Some (Some b) | None => None end
              end) as ob eqn:Eb.
    destruct ob as [b|]; [|discriminate].
    match type of E with (if ?P then _ else _) = _ => destruct P end;
      [injection E as <- <-; auto|].
    assert (pick_cid a b <> Ok (Some c)) as NP.
    { intros Ep. apply NT. destruct (pick_cid_some _ _ _ Ep) as (_ & _ & (k & [H|(y' & -> & H)])).
      + left. unfold attached. rewrite Ea, H. auto.
      + right. destruct y as [j|]; [|discriminate].
        exists j. split; auto. unfold attached.
        destruct (nth_error (a_vars s) j) as [z|]; [|discriminate].
        injection Eb as <-. rewrite H. auto. }
    destruct (from_op So tof oc a b (a_world s)) as [[r0 w']|p] eqn:E1.
    + injection E as <- <-; auto. cbn.
      apply from_op_spec in E1 as (_ & _ & D).
      destruct D as [-> _ _ | c' i i1 i2 v1 v2 fv Ep Ec O1 O2 Et Er (_ & _ & _ & Ch)]; auto.
      apply Ch. congruence.
    + destruct (from_op_left So tof oc a b (a_world s)) as [[c' w']|] eqn:EL;
        injection E as <- <-; auto. cbn.
      apply from_op_left_spec in EL as (Ep & i & i' & _ & (_ & _ & _ & Ch)). apply Ch. congruence.
Qed.

Lemma step_append s k s' r c i i' :
  inv tof s -> wf_call k -> step s k = Some (s', r) ->
  w_ctx (a_world s) c = Some i -> w_ctx (a_world s') c = Some i' -> ext i i'.
Proof.
  intros I Wk E H H'. destruct (step_inv So tof _ _ _ _ I Wk E) as [_ [_ X]].
  destruct (X c i') as (i0 & H0 & X0); auto.
  - apply (inv_world _ _ I c i H).
  - congruence.
Qed.

Lemma step_alive s k s' r c i :
  step s k = Some (s', r) -> w_ctx (a_world s) c = Some i ->
  w_ctx (a_world s') c = None ->
  exists h, k = CDrop h /\ handle s h = Some c /\ owned (a_handles s') c = false.
Proof.
  destruct k as [|h|cid|h x|h x|h|v dv|x|x v|x dv|oc x y]; cbn [Api.step]; intros E H H'.
  - cbn in E. injection E as <- <-. cbn in H'.
    destruct (Nat.eqb_spec c (w_next (a_world s))); congruence.
  - destruct (handle s h) as [c'|] eqn:Eh; [|discriminate]. injection E as <- <-. cbn in H'.
    destruct (owned (update (a_handles s) h None) c') eqn:Eo; [congruence|]. cbn in H'.
    destruct (Nat.eqb_spec c c') as [->|]; [|congruence]. exists h. auto.
  - cbn in E. injection E as <- <-; cbn in H'; congruence.
  - destruct (handle s h) as [c'|]; [|discriminate].
    destruct (nth_error (a_vars s) x) as [a|]; [|discriminate].
    destruct (a_poison s c'); [injection E as <- <-; congruence|].
    destruct (set_indep tof c' a (a_world s)) as [[a' w']|p] eqn:E1;
      injection E as <- <-; [|cbn in H'; congruence].
    apply set_indep_spec in E1 as (? & fv & _ & _ & _ & ->). cbn in H'.
    destruct (Nat.eqb_spec c c'); congruence.
  - destruct (handle s h) as [c'|]; [|discriminate].
    destruct (nth_error (a_vars s) x) as [a|]; [|discriminate].
    destruct (a_poison s c'); [injection E as <- <-; congruence|].
    destruct (set_dep tof c' a (a_world s)) as [[[] w']|p] eqn:E1;
      injection E as <- <-; [|cbn in H'; congruence].
    apply set_dep_spec in E1 as (? & _ & [(? & _ & ->)|(? & _ & _ & ->)]); cbn in H';
      (destruct (Nat.eqb_spec c c'); congruence).
  - destruct (handle s h) as [c'|]; [|discriminate].
    destruct (a_poison s c'); [injection E as <- <-; congruence|].
    unfold ctx_tape, with_ctx in E. destruct (w_ctx (a_world s) c');
      injection E as <- <-; cbn in H'; congruence.
  - injection E as <- <-; cbn in H'; congruence.
  - destruct (nth_error (a_vars s) x); [|discriminate].
    destruct (nth_error (a_dirty s) x); [|discriminate]. injection E as <- <-; cbn in H'; congruence.
  - destruct (nth_error (a_vars s) x); [|discriminate]. injection E as <- <-; cbn in H'; congruence.
  - destruct (nth_error (a_vars s) x); [|discriminate].
    destruct (nth_error (a_dirty s) x); [|discriminate]. injection E as <- <-; cbn in H'; congruence.
  - destruct (nth_error (a_vars s) x) as [a|] eqn:Ea; [|discriminate].
    match type of E with match ?X with Some _ => _ | None => _ end = _ => destruct X as [b|] end;
      [|discriminate].
    match type of E with (if ?P then _ else _) = _ => destruct P end;
      [injection E as <- <-; congruence|].
    destruct (from_op So tof oc a b (a_world s)) as [[r0 w']|p] eqn:E1.
    + injection E as <- <-. cbn in H'.
      destruct (from_op_ctxs So tof _ _ _ _ _ _ E1) as [_ X].
      exfalso. apply (proj2 (X c)); congruence.
    + destruct (from_op_left So tof oc a b (a_world s)) as [[c' w']|] eqn:EL;
        injection E as <- <-; cbn in H'; [|congruence].
      apply from_op_left_spec in EL as (_ & j & j' & _ & (_ & A & B & Ch)). exfalso.
      destruct (Nat.eq_dec c c') as [->|Hne]; [congruence|]. rewrite Ch in H'; congruence.
Qed.

(** An operation marks nothing. *)
Lemma from_op_io oc x y (w : world F) r w' c i i' :
  from_op So tof oc x y w = Ok (r, w') -> w_ctx w c = Some i -> w_ctx w' c = Some i' ->
  i_indeps i' = i_indeps i /\ i_deps i' = i_deps i.
Proof.
  intros H Hi Hi'. apply from_op_spec in H as (_ & _ & D).
  destruct D as [-> _ _ | c' j i1 i2 v1 v2 fv Ep Ec O1 O2 Et Er (_ & _ & C1 & C2)].
  - assert (i = i') by congruence. subst; auto.
  - destruct (Nat.eq_dec c c') as [->|Hne].
    + assert (j = i) by congruence. subst j. rewrite C1 in Hi'. injection Hi' as <-. cbn.
      assert (i_indeps i1 = i_indeps i /\ i_deps i1 = i_deps i) as [E1 E2].
      { unfold operand in O1. destruct (af_ctx x) as [[? ?]|].
        - destruct O1 as [_ ->]; auto.
        - destruct O1 as (? & _ & _ & ->); auto. }
      assert (i_indeps i2 = i_indeps i1 /\ i_deps i2 = i_deps i1) as [E3 E4].
      { unfold operand2, operand in O2. destruct y as [y|], v2; try contradiction.
        - destruct (af_ctx y) as [[? ?]|].
          + destruct O2 as [_ ->]; auto.
          + destruct O2 as (? & _ & _ & ->); auto.
        - subst; auto. }
      split; congruence.
    + rewrite C2 in Hi' by auto. assert (i = i') by congruence. subst; auto.
Qed.

(** ** Mixing contexts *)
Lemma mix_op oc (x y : AF Sc) c1 v1 c2 v2 (w : world F) :
  arity_ok oc (Some y) -> af_ctx x = Some (c1, v1) -> af_ctx y = Some (c2, v2) -> c1 <> c2 ->
  from_op So tof oc x (Some y) w = Panic PAssert.
Proof.
  intros Ha H1 H2 Hne. unfold from_op, mbind, mlift. cbn [option_map].
  destruct (zero_order_value_total So oc (af_v x) (Some (af_v y))) as [v ->].
  { right; split; auto; discriminate. }
  destruct (first_order_value_total So oc (af_v x) (Some (af_v y)) (af_dv x) (Some (af_dv y)))
    as [dv ->].
  { right; repeat split; auto; discriminate. }
  unfold pick_cid. rewrite H1, H2. unfold assert.
  destruct (Nat.eqb_spec c2 c1); [congruence|]. reflexivity.
Qed.

Lemma step_mix_op oc x y (a b : AF Sc) c1 v1 c2 v2 s :
  binary_oc oc = true -> nth_error (a_vars s) x = Some a -> nth_error (a_vars s) y = Some b ->
  af_ctx a = Some (c1, v1) -> af_ctx b = Some (c2, v2) -> c1 <> c2 ->
  step s (COp oc x (Some y)) = Some (s, Some PAssert).
Proof.
  intros Ho Hx Hy H1 H2 Hne. cbn [Api.step]. rewrite Hx, Hy.
  assert (pick_cid a (Some b) = Panic PAssert) as Ep.
  { unfold pick_cid. rewrite H1, H2. unfold assert.
    destruct (Nat.eqb_spec c2 c1); [congruence|]. reflexivity. }
  rewrite Ep, (mix_op oc a b c1 v1 c2 v2) by auto. unfold from_op_left. rewrite Ep.
  destruct (zero_order_value _ _ _ _); auto. destruct (first_order_value _ _ _ _ _ _); auto.
Qed.

Lemma step_mix_dep h x (a : AF Sc) c c2 v2 s :
  inv tof s -> handle s h = Some c -> a_poison s c = false ->
  nth_error (a_vars s) x = Some a -> af_ctx a = Some (c2, v2) -> c2 <> c ->
  step s (CDep h x) = Some (set_poison s c, Some PAssert).
Proof.
  intros I Hh Hp Hx H2 Hne. cbn [Api.step]. rewrite Hh, Hx, Hp.
  unfold set_dep, with_ctx.
  assert (w_ctx (a_world s) c <> None) as Hc.
  { apply (inv_handles _ _ I). eapply handle_owned; eauto. }
  destruct (w_ctx (a_world s) c); [|congruence]. rewrite H2. unfold assert.
  destruct (Nat.eqb_spec c2 c); [congruence|]. reflexivity.
Qed.

(** A live attached operand gives an attached result. *)
Lemma live_op1 oc (x : AF Sc) y c k (w : world F) r w' i :
  from_op So tof oc x y w = Ok (r, w') -> af_ctx x = Some (c, k) -> w_ctx w c = Some i ->
  (exists k', af_ctx r = Some (c, k')) /\ forall c', w_ctx w c' <> None -> w_ctx w' c' <> None.
Proof.
  intros H Hx Hc. pose proof (from_op_ctxs So tof _ _ _ _ _ _ H) as [_ X].
  split; [|intros c' Hc'; apply X; auto].
  apply from_op_spec in H as (_ & _ & D).
  destruct D as [-> _ [P|(c' & P & Hd)] | c' i' i1 i2 v1 v2 fv Ep Ec O1 O2 Et Er Ch].
  - unfold pick_cid in P. rewrite Hx in P. destruct y as [y|]; [|discriminate].
    destruct (af_ctx y) as [[? ?]|]; [|discriminate]. unfold assert in P.
    destruct (_ =? _); discriminate.
  - unfold pick_cid in P. rewrite Hx in P. destruct y as [y|].
    + destruct (af_ctx y) as [[c2 ?]|]; [|congruence]. unfold assert in P.
      destruct (Nat.eqb_spec c2 c); [|discriminate]. cbn in P. congruence.
    + congruence.
  - destruct (pick_cid_some _ _ _ Ep) as (P & _). rewrite Hx in P. subst c'.
    exists (length (i_vals i2)). auto.
Qed.

Lemma mix_methods b (x y : AF Sc) c1 v1 c2 v2 (w : world F) :
  (forall a, tof a <> None) -> b <> BUnsupported ->
  af_ctx x = Some (c1, v1) -> af_ctx y = Some (c2, v2) -> c1 <> c2 ->
  w_ctx w c1 <> None -> w_ctx w c2 <> None ->
  meth2 So (from_op So tof) (af_const So) b x y w = Panic PAssert.
Proof.
  intros Ht Hb H1 H2 Hne L1 L2.
  assert (forall oc (x' y' : AF Sc) k1 k2 w', binary_oc oc = true ->
    af_ctx x' = Some (c1, k1) -> af_ctx y' = Some (c2, k2) ->
    from_op So tof oc x' (Some y') w' = Panic PAssert) as M.
  { intros; eapply mix_op; eauto. }
  destruct (w_ctx w c1) as [i1|] eqn:E1; [|congruence].
  destruct (w_ctx w c2) as [i2|] eqn:E2; [|congruence].
  destruct b; cbn [meth2]; try congruence;
    unfold m_add, m_sub, m_mul, m_div, m_powf, m_log, m_max, m_min, m_abs_sub, m_hypot, m_add,
      m_ln, m_powi, m_powf, m_sub, m_div;
    try (unfold mbind; rewrite (M _ x y v1 v2); auto; fail).
  - unfold mbind.
    destruct (from_op_total So tof Ln x None w Ht eq_refl) as [(p & P & _)|(r1 & w1 & R1)].
    { unfold pick_cid in P. rewrite H1 in P. discriminate. }
    rewrite R1. destruct (live_op1 _ _ _ _ _ _ _ _ _ R1 H1 E1) as [[k1 K1] X1].
    destruct (w_ctx w1 c2) as [i2'|] eqn:E2'; [|exfalso; apply (X1 c2); congruence].
    destruct (from_op_total So tof Ln y None w1 Ht eq_refl) as [(p & P & _)|(r2 & w2 & R2)].
    { unfold pick_cid in P. rewrite H2 in P. discriminate. }
    rewrite R2. destruct (live_op1 _ _ _ _ _ _ _ _ _ R2 H2 E2') as [[k2 K2] _].
    eapply M; eauto.
  - unfold mbind.
    assert (forall z w0 c k i, af_ctx z = Some (c, k) -> w_ctx w0 c = Some i ->
      exists r w', from_op So tof Powf z (Some (af_const So (f_of_Z So 2))) w0 = Ok (r, w')) as T.
    { intros z w0 c k i Hz Hi.
      destruct (from_op_total So tof Powf z (Some (af_const So (f_of_Z So 2))) w0 Ht eq_refl)
        as [(p & P & _)|R]; auto.
      unfold pick_cid in P. rewrite Hz in P. discriminate. }
    destruct (T x w c1 v1 i1 H1 E1) as (r1 & w1 & R1).
    rewrite R1. destruct (live_op1 _ _ _ _ _ _ _ _ _ R1 H1 E1) as [[k1 K1] X1].
    destruct (w_ctx w1 c2) as [i2'|] eqn:E2'; [|exfalso; apply (X1 c2); congruence].
    destruct (T y w1 c2 v2 i2' H2 E2') as (r2 & w2 & R2).
    rewrite R2. destruct (live_op1 _ _ _ _ _ _ _ _ _ R2 H2 E2') as [[k2 K2] _].
    rewrite (M Add r1 r2 k1 k2); auto.
Qed.

(** ** Operations in detail *)
Definition op_vals (oc : OpCode) (x : AF Sc) (y : option (AF Sc)) (v dv : Sc) : Prop :=
  zero_order_value So oc (af_v x) (option_map af_v y) = Ok v /\
  first_order_value So oc (af_v x) (option_map af_v y) (af_dv x) (option_map af_dv y) = Ok dv.

Lemma op_nothing oc (x : AF Sc) y v dv (w : world F) :
  op_vals oc x y v dv ->
  (forall c k, af_ctx x = Some (c, k) -> w_ctx w c = None) ->
  (forall b c k, y = Some b -> af_ctx b = Some (c, k) -> w_ctx w c = None) ->
  (forall b c k c' k', y = Some b -> af_ctx x = Some (c, k) -> af_ctx b = Some (c', k') -> c = c') ->
  from_op So tof oc x y w = Ok (mkAF v dv None, w).
Proof.
  intros [Hv Hd] Hx Hy Hm. unfold from_op, mbind, mlift. rewrite Hv, Hd.
  unfold pick_cid, from_cid. destruct (af_ctx x) as [[c k]|] eqn:Ex.
  - destruct y as [b|].
    + destruct (af_ctx b) as [[c' k']|] eqn:Eb.
      * rewrite <- (Hm b c k c' k' eq_refl eq_refl Eb). unfold assert. rewrite Nat.eqb_refl. cbn.
        rewrite (Hx c k eq_refl). reflexivity.
      * rewrite (Hx c k eq_refl). reflexivity.
    + rewrite (Hx c k eq_refl). reflexivity.
  - destruct y as [b|]; auto. destruct (af_ctx b) as [[c' k']|] eqn:Eb; auto.
    rewrite (Hy b c' k' eq_refl Eb). reflexivity.
Qed.

(** [w'] is [w] with context [c] replaced by [i']. *)
Definition only_ctx (w w' : world F) (c : nat) (i' : inner F) : Prop :=
  w_next w' = w_next w /\ w_ctx w' c = Some i' /\ forall k, k <> c -> w_ctx w' k = w_ctx w k.

Lemma changes_only c i i' w w' : changes c i i' w w' -> only_ctx w w' c i'.
Proof. intros (A & _ & B & C). repeat split; auto. Qed.

Lemma op_attached1 oc (x : AF Sc) c k v dv fv (w : world F) i :
  op_vals oc x None v dv -> tof v = Some fv ->
  af_ctx x = Some (c, k) -> w_ctx w c = Some i ->
  exists w', from_op So tof oc x None w = Ok (mkAF v dv (Some (c, length (i_vals i))), w') /\
    only_ctx w w' c (mkInner (i_indeps i) (i_deps i)
      (i_ops i ++ [mkOp oc (length (i_vals i)) (Some k) None]) (i_vals i ++ [fv])).
Proof.
  intros [Hv Hd] Ht Hx Hc. unfold from_op, mbind, mlift. rewrite Hv, Hd.
  unfold pick_cid, from_cid, ensure_id, mret. rewrite Hx, Hc. 
  destruct (record_ok tof c oc v (Some k) None w i fv Hc Ht) as (w' & -> & Ch).
  exists w'. split; auto. apply changes_only in Ch; auto.
Qed.

Lemma op_attached2 oc (x y : AF Sc) c k k2 v dv fv (w : world F) i :
  op_vals oc x (Some y) v dv -> tof v = Some fv ->
  af_ctx x = Some (c, k) -> af_ctx y = Some (c, k2) -> w_ctx w c = Some i ->
  exists w', from_op So tof oc x (Some y) w = Ok (mkAF v dv (Some (c, length (i_vals i))), w') /\
    only_ctx w w' c (mkInner (i_indeps i) (i_deps i)
      (i_ops i ++ [mkOp oc (length (i_vals i)) (Some k) (Some k2)]) (i_vals i ++ [fv])).
Proof.
  intros [Hv Hd] Ht Hx Hy Hc. unfold from_op, mbind, mlift. rewrite Hv, Hd.
  unfold pick_cid, from_cid, ensure_id, mret, assert. rewrite Hx, Hy, Nat.eqb_refl. cbn.
  rewrite Hc.
  destruct (record_ok tof c oc v (Some k) (Some k2) w i fv Hc Ht) as (w' & -> & Ch).
  exists w'. split; auto. apply changes_only in Ch; auto.
Qed.

Lemma op_attached_detached oc (x y : AF Sc) c k v dv fv fy (w : world F) i :
  op_vals oc x (Some y) v dv -> tof v = Some fv -> tof (af_v y) = Some fy ->
  af_ctx x = Some (c, k) -> af_ctx y = None -> w_ctx w c = Some i ->
  exists w', from_op So tof oc x (Some y) w = Ok (mkAF v dv (Some (c, length (i_vals i) + 1)), w') /\
    only_ctx w w' c (mkInner (i_indeps i) (i_deps i)
      (i_ops i ++ [mkOp Const (length (i_vals i)) None None;
                   mkOp oc (length (i_vals i) + 1) (Some k) (Some (length (i_vals i)))])
      (i_vals i ++ [fy; fv])).
Proof.
  intros [Hv Hd] Ht Hty Hx Hy Hc. unfold from_op, mbind, mlift. rewrite Hv, Hd.
  unfold pick_cid, from_cid, ensure_id, mret. rewrite Hx, Hy, Hc.
  destruct (record_ok tof c Const (af_v y) None None w i fy Hc Hty) as (w1 & -> & Ch1).
  assert (w_ctx w1 c = Some (push_op i Const None None fy)) as Hc1 by apply Ch1.
  destruct (record_ok tof c oc v (Some k) (Some (length (i_vals i))) w1 _ fv Hc1 Ht) as (w' & -> & Ch).
  exists w'. cbn. rewrite app_length. cbn. split; auto.
  pose proof (changes_only _ _ _ _ _ (changes_trans _ _ _ _ _ _ _ Ch1 Ch)) as G.
  unfold push_op in G; cbn in G. rewrite app_length in G. cbn in G.
  rewrite <- !app_assoc in G. exact G.
Qed.

Lemma op_detached_attached oc (x y : AF Sc) c k v dv fv fx (w : world F) i :
  op_vals oc x (Some y) v dv -> tof v = Some fv -> tof (af_v x) = Some fx ->
  af_ctx x = None -> af_ctx y = Some (c, k) -> w_ctx w c = Some i ->
  exists w', from_op So tof oc x (Some y) w = Ok (mkAF v dv (Some (c, length (i_vals i) + 1)), w') /\
    only_ctx w w' c (mkInner (i_indeps i) (i_deps i)
      (i_ops i ++ [mkOp Const (length (i_vals i)) None None;
                   mkOp oc (length (i_vals i) + 1) (Some (length (i_vals i))) (Some k)])
      (i_vals i ++ [fx; fv])).
Proof.
  intros [Hv Hd] Ht Hty Hx Hy Hc. unfold from_op, mbind, mlift. rewrite Hv, Hd.
  unfold pick_cid, from_cid, ensure_id, mret. rewrite Hx, Hy, Hc.
  destruct (record_ok tof c Const (af_v x) None None w i fx Hc Hty) as (w1 & -> & Ch1).
  assert (w_ctx w1 c = Some (push_op i Const None None fx)) as Hc1 by apply Ch1.
  destruct (record_ok tof c oc v (Some (length (i_vals i))) (Some k) w1 _ fv Hc1 Ht) as (w' & -> & Ch).
  exists w'. cbn. rewrite app_length. cbn. split; auto.
  pose proof (changes_only _ _ _ _ _ (changes_trans _ _ _ _ _ _ _ Ch1 Ch)) as G.
  unfold push_op in G; cbn in G. rewrite app_length in G. cbn in G.
  rewrite <- !app_assoc in G. exact G.
Qed.

End Iso.

(** ** Whole functions on variables of one context, alive or not *)
Section OneCtx.
Context {F : Type} (Fo : Fops F) (c : nat).

Definition belongs (x : AF F) : Prop := af_ctx x = None \/ exists k, af_ctx x = Some (c, k).
Definition vd (x : AF F) : F * F := (af_v x, af_dv x).

(** A property of the world that recording on context [c] does not affect. *)
Context (G : world F -> Prop).
Hypothesis HG : forall w w' i i', changes c i i' w w' -> G w -> G w'.

Definition RSone (_ : unit) (w : world F) (_ : unit) : Prop := G w.
Definition RVone (_ : unit) (x : AF F) (p : F * F) : Prop := belongs x /\ vd x = p.

Lemma pick_belongs x y : belongs x -> (forall b, y = Some b -> belongs b) ->
  pick_cid x y = Ok None \/ pick_cid x y = Ok (Some c).
Proof.
  intros Hx Hy. unfold pick_cid.
  destruct Hx as [->|[k ->]]; destruct y as [b|]; auto;
    destruct (Hy b eq_refl) as [->|[k' ->]]; auto.
  unfold assert. rewrite Nat.eqb_refl. auto.
Qed.

Lemma sim_one_fop u oc x1 y1 x2 y2 :
  arity_ok oc y1 -> RVone u x1 x2 -> orel (RVone u) y1 y2 ->
  simM true (fun _ _ => True) RSone RVone u (from_op Fo Some oc x1 y1) (d_fop Fo oc x2 y2).
Proof.
  intros Ha [Bx <-] Hy w [] Hw.
  assert (By : forall b, y1 = Some b -> belongs b).
  { intros b ->. destruct y2; cbn in Hy; [apply Hy|contradiction]. }
  assert (option_map vd y1 = y2) as <-.
  { destruct y1, y2; cbn in *; try contradiction; auto. destruct Hy as [_ <-]; auto. }
  clear Hy.
  destruct (from_op_total Fo Some oc x1 y1 w) as [(p & P & _)|(r & w' & E)]; auto; [congruence| |].
  { destruct (pick_belongs x1 y1 Bx By); congruence. }
  rewrite E. pose proof (from_op_spec _ _ _ _ _ _ _ _ E) as (Hz & Hf & D).
  exists (vd r), tt, tt. split; [|split; [exact I|]].
  - unfold d_fop, mbind, mlift, vd. cbn [fst snd].
    assert (option_map fst (option_map (fun x => (af_v x, af_dv x)) y1) = option_map af_v y1) as ->
      by (destruct y1; auto).
    assert (option_map snd (option_map (fun x => (af_v x, af_dv x)) y1) = option_map af_dv y1) as ->
      by (destruct y1; auto).
    rewrite Hz, Hf. reflexivity.
  - destruct D as [-> Er _ | c' i i1 i2 v1 v2 fv Ep Ec O1 O2 Et Er Ch].
    + split; auto. split; auto. left; auto.
    + assert (c' = c) as -> by (destruct (pick_belongs x1 y1 Bx By); congruence).
      split; [|split; [right; eauto|auto]].
      unfold RSone in *. eauto.
Qed.

Theorem eval_one_ctx f env w :
  Forall belongs env -> G w ->
  match d_eval Fo f (map vd env) with
  | Ok yd => exists outs w', eval Fo f env w = Ok (outs, w') /\ map vd outs = yd /\
               Forall belongs outs /\ G w'
  | Panic p => eval Fo f env w = Panic p
  end.
Proof.
  intros HB HS.
  assert (H : simM true (fun _ _ => True) RSone (RVs RVone) tt
    (eval Fo f env) (feval Fo (d_fop Fo) (d_cst Fo) fst f (map vd env))).
  { apply sim_feval; auto.
    - intros [] oc x1 y1 x2 y2. apply sim_one_fop.
    - intros [] v. split; auto. left; auto.
    - left. intros ? ? ? [_ <-]; auto.
    - unfold RVs. clear HS. induction HB; constructor; auto. split; auto. }
  specialize (H w tt HS). unfold d_eval.
  destruct (eval Fo f env w) as [[outs w']|p].
  - destruct H as (yd & [] & [] & -> & _ & HS' & HR). cbn. exists outs, w'.
    split; [auto|]. clear -HR HS'. unfold RVs in HR.
    assert (map vd outs = yd /\ Forall belongs outs) as [A B].
    { induction HR as [|x p l1 l2 [B <-] HF [IH1 IH2]]; cbn; auto. split; [f_equal; auto|auto]. }
    auto.
  - rewrite (H eq_refl). reflexivity.
Qed.

End OneCtx.

(** ** Taking the same branches *)
Section Agree.
Context {F : Type} (Fo : Fops F).

(** [p] makes the same decisions on the inputs [e1] and [e2]: wherever it inspects a value, it
    continues in the same way. *)
Fixpoint agree (p : prog F) (e1 e2 : list F) : Prop :=
  match p with
  | Ret _ | Abort => True
  | LetC c p' => agree p' (e1 ++ [c]) (e2 ++ [c])
  | Let1 u a p' =>
      forall x1 x2 r1 r2, nth_error e1 a = Some x1 -> nth_error e2 a = Some x2 ->
      meth1 Fo (v_fop Fo) (fun c => c) u x1 tt = Ok (r1, tt) ->
      meth1 Fo (v_fop Fo) (fun c => c) u x2 tt = Ok (r2, tt) ->
      agree p' (e1 ++ [r1]) (e2 ++ [r2])
  | Let2 b a1 a2 p' =>
      forall x1 x2 y1 y2 r1 r2, nth_error e1 a1 = Some x1 -> nth_error e2 a1 = Some x2 ->
      nth_error e1 a2 = Some y1 -> nth_error e2 a2 = Some y2 ->
      meth2 Fo (v_fop Fo) (fun c => c) b x1 y1 tt = Ok (r1, tt) ->
      meth2 Fo (v_fop Fo) (fun c => c) b x2 y2 tt = Ok (r2, tt) ->
      agree p' (e1 ++ [r1]) (e2 ++ [r2])
  | LetMulAdd a1 a2 a3 p' =>
      forall x1 x2 y1 y2 z1 z2, nth_error e1 a1 = Some x1 -> nth_error e2 a1 = Some x2 ->
      nth_error e1 a2 = Some y1 -> nth_error e2 a2 = Some y2 ->
      nth_error e1 a3 = Some z1 -> nth_error e2 a3 = Some z2 ->
      agree p' (e1 ++ [f_add Fo (f_mul Fo x1 y1) z1]) (e2 ++ [f_add Fo (f_mul Fo x2 y2) z2])
  | Inspect a k =>
      forall v1 v2, nth_error e1 a = Some v1 -> nth_error e2 a = Some v2 ->
      k v1 = k v2 /\ agree (k v1) e1 e2
  end.

Fixpoint agree_f (f : func F) (x1 x2 : list F) : Prop :=
  match f with
  | Simple _ _ p | AdvFn _ _ p => agree p x1 x2
  | Chain fs =>
      (fix go (l : list (func F)) (x1 x2 : list F) : Prop :=
         match l with
         | [] => True
         | g :: l' => agree_f g x1 x2 /\
             forall y1 y2, v_eval Fo g x1 = Ok y1 -> v_eval Fo g x2 = Ok y2 -> go l' y1 y2
         end) fs x1 x2
  end.

Lemma nth_same_length (e1 e2 : list F) a :
  length e1 = length e2 ->
  (exists v1 v2, nth_error e1 a = Some v1 /\ nth_error e2 a = Some v2) \/
  (nth_error e1 a = None /\ nth_error e2 a = None).
Proof.
  intros L. destruct (nth_error e1 a) as [v1|] eqn:E1.
  - destruct (nth_error e2 a) as [v2|] eqn:E2; [left; eauto|].
    apply nth_error_None in E2. assert (a < length e1) by (apply nth_error_Some; congruence). lia.
  - right. split; auto. apply nth_error_None in E1. apply nth_error_None. lia.
Qed.

Lemma meth1_shape u (x1 x2 : F) :
  (exists r1 r2, meth1 Fo (v_fop Fo) (fun c => c) u x1 tt = Ok (r1, tt) /\
     meth1 Fo (v_fop Fo) (fun c => c) u x2 tt = Ok (r2, tt)) \/
  (exists p, meth1 Fo (v_fop Fo) (fun c => c) u x1 tt = Panic p /\
     meth1 Fo (v_fop Fo) (fun c => c) u x2 tt = Panic p).
Proof. destruct u; cbn; eauto 6. Qed.

Lemma meth2_shape b (x1 x2 y1 y2 : F) :
  (exists r1 r2, meth2 Fo (v_fop Fo) (fun c => c) b x1 y1 tt = Ok (r1, tt) /\
     meth2 Fo (v_fop Fo) (fun c => c) b x2 y2 tt = Ok (r2, tt)) \/
  (exists p, meth2 Fo (v_fop Fo) (fun c => c) b x1 y1 tt = Panic p /\
     meth2 Fo (v_fop Fo) (fun c => c) b x2 y2 tt = Panic p).
Proof. destruct b; cbn; eauto 6. Qed.

Lemma agree_resolve p : forall e1 e2,
  length e1 = length e2 -> agree p e1 e2 -> resolve Fo p e1 = resolve Fo p e2.
Proof.
  induction p as [outs|c p IH|u a p IH|b a1 a2 p IH|a1 a2 a3 p IH|a k IH| ];
    intros e1 e2 L A; cbn [agree resolve] in *; auto.
  - f_equal. apply IH; auto. rewrite !app_length; cbn; lia.
  - f_equal. unfold mbind, mlift, get.
    destruct (nth_same_length e1 e2 a L) as [(v1 & v2 & H1 & H2)|[H1 H2]];
      rewrite H1, H2; auto.
    destruct (meth1_shape u v1 v2) as [(r1 & r2 & R1 & R2)|(q & R1 & R2)]; rewrite R1, R2; auto.
    apply IH; [rewrite !app_length; cbn; lia|]. eapply A; eauto.
  - f_equal. unfold mbind, mlift, get.
    destruct (nth_same_length e1 e2 a1 L) as [(v1 & v2 & H1 & H2)|[H1 H2]];
      rewrite H1, H2; auto.
    destruct (nth_same_length e1 e2 a2 L) as [(u1 & u2 & G1 & G2)|[G1 G2]];
      rewrite G1, G2; auto.
    destruct (meth2_shape b v1 v2 u1 u2) as [(r1 & r2 & R1 & R2)|(q & R1 & R2)];
      rewrite R1, R2; auto.
    apply IH; [rewrite !app_length; cbn; lia|]. eapply A; eauto.
  - f_equal. unfold mbind, mlift, get.
    destruct (nth_same_length e1 e2 a1 L) as [(v1 & v2 & H1 & H2)|[H1 H2]];
      rewrite H1, H2; auto.
    destruct (nth_same_length e1 e2 a2 L) as [(u1 & u2 & G1 & G2)|[G1 G2]];
      rewrite G1, G2; auto.
    destruct (nth_same_length e1 e2 a3 L) as [(t1 & t2 & K1 & K2)|[K1 K2]];
      rewrite K1, K2; auto.
    cbn. apply IH; [rewrite !app_length; cbn; lia|]. eapply A; eauto.
  - unfold get. destruct (nth_same_length e1 e2 a L) as [(v1 & v2 & H1 & H2)|[H1 H2]];
      rewrite H1, H2; auto.
    destruct (A v1 v2 H1 H2) as [E B]. rewrite <- E. apply IH; auto.
Qed.

(** Straight functions succeed or panic, and return vectors of a length, independently of the
    values. *)
Lemma straight_shape f x1 x2 :
  straight_f f -> length x1 = length x2 ->
  (exists y1 y2, v_eval Fo f x1 = Ok y1 /\ v_eval Fo f x2 = Ok y2 /\ length y1 = length y2) \/
  (exists p, v_eval Fo f x1 = Panic p /\ v_eval Fo f x2 = Panic p).
Proof.
  intros HS L.
  assert (H : simM true (fun _ _ => True) (fun (_ _ _ : unit) => True)
      (RVs (fun (_ : unit) (_ _ : F) => True)) tt
      (feval Fo (v_fop Fo) (fun c => c) (fun v => v) f x1)
      (feval Fo (v_fop Fo) (fun c => c) (fun v => v) f x2)).
  { apply sim_feval; auto.
    - intros [] oc a1 b1 a2 b2 Ha _ Hb [] [] _. unfold v_fop, mlift.
      assert (unary_oc oc = true \/ binary_oc oc = true /\ b1 <> None) as S1.
      { destruct b1; cbn in Ha; [right; split; auto; discriminate|auto]. }
      assert (unary_oc oc = true \/ binary_oc oc = true /\ b2 <> None) as S2.
      { destruct S1 as [S1|[S1 S1']]; auto. right; split; auto.
        destruct b1, b2; cbn in Hb; try contradiction; congruence. }
      destruct (zero_order_value_total Fo oc a1 b1 S1) as [r1 ->].
      destruct (zero_order_value_total Fo oc a2 b2 S2) as [r2 ->].
      exists r2, tt, tt; auto.
    - unfold RVs. revert x2 L; induction x1; intros [|? x2] L; cbn in L; try discriminate;
        constructor; auto. }
  specialize (H tt tt I). unfold v_eval.
  destruct (feval Fo (v_fop Fo) (fun c => c) (fun v => v) f x1 tt) as [[y1 []]|p].
  - destruct H as (y2 & [] & [] & -> & _ & _ & HR). left. exists y1, y2.
    split; [auto|]. split; [auto|]. eapply Forall2_length_eq; eauto.
  - rewrite (H eq_refl). right. exists p; auto.
Qed.

Lemma agree_f_path f : forall x1 x2,
  length x1 = length x2 -> agree_f f x1 x2 -> same_path Fo f x1 x2.
Proof.
  unfold same_path.
  induction f as [n m p|n m p|fs IH] using func_ind'; intros x1 x2 L A; cbn [resolve_f agree_f] in *.
  - f_equal. apply agree_resolve; auto.
  - f_equal. apply agree_resolve; auto.
  - f_equal. revert x1 x2 L A. induction fs as [|g fs IHf]; intros x1 x2 L A; auto.
    inversion IH as [|g' fs' IHg IHall]; subst. destruct A as [A1 A2].
    pose proof (IHg x1 x2 L A1) as E. f_equal; auto.
    rewrite !(v_eval_resolve Fo g). rewrite <- E.
    destruct (straight_shape (resolve_f Fo g x1) x1 x2 (resolve_f_straight Fo g x1) L)
      as [(y1 & y2 & E1 & E2 & Ly)|(q & E1 & E2)]; rewrite E1, E2; auto.
    apply IHf; auto. apply A2; rewrite v_eval_resolve; [auto|rewrite <- E; auto].
Qed.

End Agree.
