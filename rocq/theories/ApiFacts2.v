(** API histories, continued: stored values are consistent unless value_mut is used; user
    functions and [Function::tape] are histories. *)
From Coq Require Import List Arith ZArith Bool Lia.
From Verif Require Import Base Float Operation Tape AContext Methods Function Spec Param
  TapeFacts AContextFacts Instances FunctionFacts RecordFacts ReplayFacts Api ApiFacts.
Import ListNotations.

Section Clean.
Context {F : Type} (Fo : Fops F).
Notation step := (step Fo (Some : F -> option F)).
Notation history := (history Fo (Some : F -> option F)).
Notation clean_history := (clean_history Fo (Some : F -> option F)).
Notation inv := (inv (Some : F -> option F)).

(** The values stored on a tape are those of evaluating it at its own inputs. *)
Definition self_consistent (t : tape F) : Prop :=
  exists x, tape_x t = Ok x /\ values_at Fo t x (t_vals t).

Record clean (s : api F F) : Prop := {
  cl_vars : forall d, In d (a_dirty s) -> d = false;
  cl_ctx : forall c i, w_ctx (a_world s) c = Some i -> consistent Fo i;
  cl_tapes : forall t, In t (a_tapes s) -> self_consistent t
}.

Lemma consistent_self i : recorded_tape (tape_of i) -> consistent Fo i ->
  self_consistent (tape_of i).
Proof.
  intros R C. destruct (gather_ok (t_indeps (tape_of i)) (t_vals (tape_of i))) as [x Hx].
  { intros k Hk. apply (rt_wf _ R); auto. }
  exists x. split; auto. constructor; cbn; auto.
  intros k j Hk. destruct (nth_error x k) as [a|] eqn:Ea.
  - exists a. split; auto. pose proof (gather_nth _ _ _ _ _ Hx Hk) as G. cbn in G. congruence.
  - apply nth_error_None in Ea. pose proof (gather_length _ _ _ Hx) as L. cbn in L.
    assert (k < length (i_indeps i)) by (apply nth_error_Some; congruence). lia.
Qed.

Lemma consistent_push_indep i a : consistent Fo i -> consistent Fo (push_indep i a).
Proof. intros C o Ho. cbn in *. apply value_eq_app; auto. Qed.

Lemma in_update {A} (l : list A) i a b : In b (update l i a) -> b = a \/ In b l.
Proof.
  revert i; induction l as [|x l IH]; intros [|i]; cbn; auto.
  - intros [->|H]; auto.
  - intros [->|H]; auto. destruct (IH i H); auto.
Qed.

Lemma clean_valid (s : api F F) j z :
  inv s -> clean s -> nth_error (a_vars s) j = Some z ->
  valid_af (Some : F -> option F) true (a_world s) z.
Proof.
  intros I [C1 _ _] H. destruct (nth_error (a_dirty s) j) as [d|] eqn:E.
  - pose proof (inv_vars _ _ I _ _ _ H E) as V. rewrite (C1 d) in V; auto.
    eapply nth_error_In; eauto.
  - apply nth_error_None in E. rewrite (inv_len _ _ I) in E.
    assert (j < length (a_vars s)) by (apply nth_error_Some; congruence). lia.
Qed.

Lemma step_clean s k s' r :
  inv s -> clean s -> wf_call k -> step s k = Some (s', r) ->
  (forall x v a, k = CSetV x v -> nth_error (a_vars s) x = Some a -> af_ctx a = None) ->
  clean s'.
Proof.
  intros I C Wk E HS. pose proof C as [C1 C2 C3].
  assert (forall c i i' w', changes c i i' (a_world s) w' -> consistent Fo i' ->
    forall k j, w_ctx w' k = Some j -> consistent Fo j) as HC.
  { intros c i i' w' (_ & _ & A & B) Ci k0 j Hj. destruct (Nat.eq_dec k0 c) as [->|Hne].
    - rewrite A in Hj; injection Hj as <-; auto.
    - rewrite B in Hj; eauto. }
  destruct k as [|h|cid|h x|h x|h|v dv|x|x v|x dv|oc x y]; cbn [Api.step] in E.
  - cbn in E. injection E as <- <-. constructor; cbn; auto.
    intros c i. destruct (c =? w_next (a_world s)); eauto. intros [= <-] o [].
  - destruct (handle s h) as [c|]; [|discriminate]. injection E as <- <-.
    constructor; cbn; auto. intros k i. destruct (owned _ _); eauto. cbn.
    destruct (k =? c); [discriminate|eauto].
  - cbn in E. injection E as <- <-. constructor; cbn; auto.
  - destruct (handle s h) as [c|]; [|discriminate].
    destruct (nth_error (a_vars s) x) as [a|] eqn:Ea; [|discriminate].
    destruct (a_poison s c); [injection E as <- <-; auto|].
    destruct (set_indep Some c a (a_world s)) as [[a' w']|p] eqn:E1.
    2:{ injection E as <- <-; constructor; auto. }
    injection E as <- <-. apply set_indep_spec in E1 as (i & fv & Ec & _ & -> & ->).
    constructor; cbn; auto.
    + intros d Hd. apply in_update in Hd as [->|Hd]; auto.
    + apply (HC c i (push_indep i fv) (upd_ctx (a_world s) c (Some (push_indep i fv)))).
      * apply changes_upd; auto.
      * apply consistent_push_indep; eauto.
  - destruct (handle s h) as [c|]; [|discriminate].
    destruct (nth_error (a_vars s) x) as [a|] eqn:Ea; [|discriminate].
    destruct (a_poison s c); [injection E as <- <-; auto|].
    destruct (set_dep Some c a (a_world s)) as [[[] w']|p] eqn:E1.
    2:{ injection E as <- <-; constructor; auto. }
    injection E as <- <-. apply set_dep_spec in E1 as (i & Ec & H).
    constructor; cbn; auto.
    destruct H as [(v & Hx & ->)|(fv & Hx & Ev & ->)].
    + eapply HC; [apply changes_upd; eauto|]. intros o Ho. exact (C2 c i Ec o Ho).
    + eapply HC; [apply changes_upd; eauto|].
      intros o Ho. exact (consistent_push_const Fo i fv (C2 c i Ec) o Ho).
  - destruct (handle s h) as [c|]; [|discriminate].
    destruct (a_poison s c); [injection E as <- <-; auto|].
    unfold ctx_tape, with_ctx in E. destruct (w_ctx (a_world s) c) as [i|] eqn:Ec.
    2:{ injection E as <- <-; auto. }
    injection E as <- <-. constructor; cbn; auto.
    intros t Ht. apply in_app_or in Ht as [Ht|[<-|[]]]; auto.
    apply consistent_self; eauto. apply (inv_world _ _ I c i Ec).
  - injection E as <- <-. constructor; cbn; auto.
    intros d Hd. apply in_app_or in Hd as [Hd|[<-|[]]]; auto.
  - destruct (nth_error (a_vars s) x) as [a|]; [|discriminate].
    destruct (nth_error (a_dirty s) x) as [d|] eqn:Ed; [|discriminate].
    injection E as <- <-. constructor; cbn; auto.
    intros d' Hd. apply in_app_or in Hd as [Hd|[<-|[]]]; auto. apply C1.
    eapply nth_error_In; eauto.
  - destruct (nth_error (a_vars s) x) as [a|] eqn:Ea; [|discriminate].
    injection E as <- <-. constructor; cbn; auto.
    intros d Hd. apply in_update in Hd as [->|Hd]; auto. rewrite (HS x v a); auto.
  - destruct (nth_error (a_vars s) x) as [a|]; [|discriminate].
    destruct (nth_error (a_dirty s) x) as [d|] eqn:Ed; [|discriminate].
    injection E as <- <-. constructor; cbn; auto.
    intros d' Hd. apply in_update in Hd as [->|Hd]; auto. apply C1. eapply nth_error_In; eauto.
  - destruct (nth_error (a_vars s) x) as [a|] eqn:Ea; [|discriminate].
    remember (match y with
              | None => Some None
              | Some j => match nth_error (a_vars s) j with Some b => Some (Some b) | None => None end
              end) as ob eqn:Eb.
    destruct ob as [b|]; [|discriminate].
    match type of E with (if ?P then _ else _) = _ => destruct P end;
      [injection E as <- <-; auto|].
    destruct (from_op Fo Some oc a b (a_world s)) as [[r0 w']|p] eqn:E1.
    2:{ destruct (from_op_left Fo Some oc a b (a_world s)) as [[c w']|] eqn:EL;
          injection E as <- <-; auto.
        apply from_op_left_spec in EL as (_ & i & i' & CA & Ch). constructor; cbn; auto.
        eapply HC; [exact Ch|]. destruct Ch as (_ & Hc & _). apply C2 in Hc. clear -CA Hc.
        induction CA; auto. apply consistent_push_const; auto. }
    injection E as <- <-. constructor; cbn; auto.
    { intros d Hd. apply in_app_or in Hd as [Hd|[<-|[]]]; auto. }
    apply from_op_spec in E1 as (Hz & Hf & D).
    destruct D as [-> Er _ | c i i1 i2 v1 v2 fv Ep Ec O1 O2 Et Er Ch]; auto.
    eapply HC; [exact Ch|]. injection Et as <-.
    destruct (pick_cid_some _ _ _ Ep) as (P1 & P2 & _).
    assert (forall z c' k', valid_af (Some : F -> option F) true (a_world s) z ->
      af_ctx z = Some (c', k') -> c' = c -> nth_error (i_vals i) k' = Some (af_v z)) as HV.
    { intros z c' k' V Hz' ->. unfold valid_af in V. rewrite Hz' in V.
      destruct V as [_ V]. destruct (V i Ec) as [_ V2]. destruct (V2 eq_refl) as (fv & [= <-] & ?).
      auto. }
    eapply record_consistent; eauto.
    + intros c' k' Hc. eapply HV; eauto; [eapply clean_valid; eauto|].
      rewrite Hc in P1. auto.
    + intros y' c' k' -> Hc. rewrite Hc in P2.
      destruct y as [j|]; [|discriminate].
      destruct (nth_error (a_vars s) j) as [z|] eqn:Ez; [|discriminate].
      injection Eb as <-. eapply HV; eauto. eapply clean_valid; eauto.
Qed.

Theorem clean_history_clean s ks s' :
  inv s -> clean s -> clean_history s ks s' -> inv s' /\ clean s'.
Proof.
  intros I C H. induction H as [|ks s1 k s2 r H IH Wk Hs HC]; auto.
  destruct IH as [I1 C1]. split.
  - eapply (proj1 (step_inv Fo Some _ _ _ _ I1 Wk Hs)).
  - eapply step_clean; eauto.
Qed.

Lemma clean0 : clean api0.
Proof. constructor; cbn; try contradiction. discriminate. Qed.

(** ** User functions are histories *)
Definition quiet (s : api F F) : Prop := forall c, a_poison s c = false.

Definition local_call (k : call F) : Prop :=
  match k with CVar _ _ | COp _ _ _ => True | _ => False end.

Definition leH (s s' : api F F) : Prop :=
  (exists ks, history s ks s' /\ Forall local_call ks) /\
  (exists l, a_vars s' = a_vars s ++ l) /\ a_handles s' = a_handles s.
Definition RSh (s : api F F) (w1 w2 : world F) : Prop :=
  w1 = a_world s /\ w2 = a_world s /\ quiet s.
Definition RVh (s : api F F) (x y : AF F) : Prop :=
  x = y /\ (In x (a_vars s) \/ exists v, x = af_const Fo v).

Lemma leH_refl s : leH s s.
Proof.
  split; [exists []; split; constructor|]. split; auto. exists []; rewrite app_nil_r; auto.
Qed.

Lemma leH_trans a b c : leH a b -> leH b c -> leH a c.
Proof.
  intros ((k1 & H1 & L1) & (l1 & E1) & G1) ((k2 & H2 & L2) & (l2 & E2) & G2). split.
  - exists (k1 ++ k2). split; [eapply history_app; eauto|]. apply Forall_app; auto.
  - split; [|congruence]. exists (l1 ++ l2). rewrite E2, E1, app_assoc; auto.
Qed.

Lemma RVh_mono s s' x y : leH s s' -> RVh s x y -> RVh s' x y.
Proof.
  intros (_ & (l & E) & _) [-> [H|H]]; split; auto. left. rewrite E. apply in_or_app; auto.
Qed.

(** Put a variable on the list if it is not there yet. *)
Lemma have_var s x :
  quiet s -> RVh s x x ->
  exists s1 i, leH s s1 /\ a_world s1 = a_world s /\ quiet s1 /\ nth_error (a_vars s1) i = Some x.
Proof.
  intros Q [_ [H|[v ->]]].
  - apply In_nth_error in H as [i Hi]. exists s, i. split; [apply leH_refl|]. auto.
  - exists (push_var s (af_const Fo v) false), (length (a_vars s)).
    split.
    + split.
      * exists [CVar v (f_zero Fo)]. split; [|repeat constructor].
        eapply history_one; [exact I|]. reflexivity.
      * split; auto. exists [af_const Fo v]; auto.
    + split; [auto|]. split; [auto|]. cbn. rewrite nth_error_app2, Nat.sub_diag; auto.
Qed.

Lemma sim_h_fop s oc x1 y1 x2 y2 :
  arity_ok oc y1 -> RVh s x1 x2 -> orel (RVh s) y1 y2 ->
  simM true leH RSh RVh s (from_op Fo Some oc x1 y1) (from_op Fo Some oc x2 y2).
Proof.
  intros Ha Hx Hy w1 w2 (-> & -> & Q).
  assert (x1 = x2) as <- by apply Hx.
  assert (y1 = y2) as <- by (destruct y1, y2; cbn in Hy; try contradiction; [destruct Hy|]; congruence).
  destruct (from_op Fo Some oc x1 y1 (a_world s)) as [[r w']|p] eqn:E; auto.
  destruct (have_var s x1 Q Hx) as (s1 & i1 & L1 & W1 & Q1 & N1).
  assert (exists s2 i2, leH s1 s2 /\ a_world s2 = a_world s /\ quiet s2 /\
    match y1, i2 with
    | None, None => True
    | Some b, Some j => nth_error (a_vars s2) j = Some b
    | _, _ => False
    end) as (s2 & i2 & L2 & W2 & Q2 & N2).
  { destruct y1 as [b|].
    - destruct (have_var s1 b Q1) as (s2 & i2 & A & B & C & D).
      { eapply RVh_mono; [exact L1|]. exact Hy. }
      exists s2, (Some i2). split; [auto|]. split; [congruence|auto].
    - exists s1, None. split; [apply leH_refl|]. auto. }
  exists r, w', (push_var (set_world s2 w') r false).
  split; [reflexivity|].
  assert (N1' : nth_error (a_vars s2) i1 = Some x1).
  { destruct L2 as (_ & (l & ->) & _). apply nth_error_app_some; auto. }
  split.
  - eapply leH_trans; [exact L1|]. eapply leH_trans; [exact L2|]. split.
    + exists [COp oc i1 i2]. split; [|repeat constructor].
      eapply (history_one Fo Some s2 (COp oc i1 i2) _ None).
      * cbn. destruct y1, i2; try contradiction; auto.
      * cbn [Api.step]. rewrite N1'.
        assert ((match i2 with
             | None => Some None
             | Some j => match nth_error (a_vars s2) j with Some b => Some (Some b) | None => None end
             end) = Some y1) as ->.
        { destruct y1, i2; try contradiction; auto. rewrite N2; auto. }
        rewrite W2.
        assert ((match pick_cid x1 y1 with
                 | Ok (Some c) => match w_ctx (a_world s) c with
                                  | Some _ => a_poison s2 c | None => false end
                 | _ => false end) = false) as ->.
        { destruct (pick_cid x1 y1) as [[c|]|]; auto. destruct (w_ctx (a_world s) c); auto. }
        rewrite E. reflexivity.
    + split; auto. exists [r]; auto.
  - split; [split; [auto|split; auto]|]. split; auto. left. cbn. apply in_or_app; right; left; auto.
Qed.

Theorem run_is_history f (env outs : list (AF F)) s w' :
  quiet s -> incl env (a_vars s) -> eval Fo f env (a_world s) = Ok (outs, w') ->
  exists ks s', history s ks s' /\ Forall local_call ks /\ a_world s' = w' /\
    quiet s' /\ a_handles s' = a_handles s /\
    (exists l, a_vars s' = a_vars s ++ l) /\
    forall o, In o outs -> In o (a_vars s') \/ exists v, o = af_const Fo v.
Proof.
  intros Q HI E.
  assert (H : simM true leH RSh (RVs RVh) s (eval Fo f env) (eval Fo f env)).
  { apply sim_feval.
    - apply leH_refl.
    - apply leH_trans.
    - apply RVh_mono.
    - apply sim_h_fop.
    - intros w v. split; eauto.
    - left. intros ? ? ? [-> _]; auto.
    - unfold RVs. clear E. induction env as [|a env IH]; constructor.
      + split; auto. left. apply HI; left; auto.
      + apply IH. intros b Hb. apply HI; right; auto. }
  specialize (H (a_world s) (a_world s)). rewrite E in H.
  destruct H as (outs2 & w2 & s' & [= <- <-] & ((ks & Hh & HL) & Hl & Hhd) & (-> & _ & Q') & HR).
  { split; auto. }
  exists ks, s'. split; [auto|]. split; [auto|]. split; [auto|]. split; [auto|].
  split; [auto|]. split; [auto|].
  clear -HR. intros o Ho. unfold RVs in HR. 
  assert (forall l1 l2, Forall2 (RVh s') l1 l2 -> In o l1 ->
    In o (a_vars s') \/ exists v, o = af_const Fo v) as G.
  { induction 1 as [|a b l1 l2 [_ H] HF IH]; intros Hi; [destruct Hi|].
    destruct Hi as [<-|Hi]; auto. }
  eapply G; eauto.
Qed.

End Clean.
