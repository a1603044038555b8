(** Concurrency: a small program logic for API calls and the invariant of the whole process. *)
From Coq Require Import List Arith ZArith Bool Lia Sorted.
From Verif Require Import Base Float Operation Tape AContext AContextFacts Spec Param TapeFacts Ffi FfiFacts
  Concurrent ConcSpec.
Import ListNotations.

Section Logic.
Context {S F : Type} (So : Fops S) (tof : S -> option F).
Notation code := (code S F). Notation sys := (sys S F).
Notation val_is := (val_is tof). Notation good_inner := (good_inner So tof).

(** ** The contents of all contexts ever created *)
Definition contents : Type := nat -> option (nat * inner F).
Implicit Types (A : contents).

Definition core (g : sys) : contents :=
  fun a => match g_arc g a with Some r => Some (a_cid r, a_inner r) | None => None end.

Definition asub A A' : Prop :=
  forall a c i, A a = Some (c, i) -> exists i', A' a = Some (c, i') /\ ext i i'.

Definition good A : Prop :=
  (forall a b c i j, A a = Some (c, i) -> A b = Some (c, j) -> a = b) /\
  (forall a c i, A a = Some (c, i) -> good_inner i).

Definition valid A (x : AF S) : Prop :=
  match af_ctx x with
  | None => True
  | Some (c, v) => exists a i, A a = Some (c, i) /\ val_is (i_vals i) v (af_v x)
  end.

Definition snap A (t : tape F) : Prop :=
  wf_tape t /\ exists a c i, A a = Some (c, i) /\
    prefix (t_indeps t) (i_indeps i) /\ prefix (t_deps t) (i_deps i) /\
    prefix (t_ops t) (i_ops i) /\ prefix (t_vals t) (i_vals i).

Definition out_ok A (r : ret S F) : Prop :=
  match r with RVar x => valid A x | RTape t => snap A t | _ => True end.

Lemma asub_refl A : asub A A.
Proof. intros a c i H. exists i. split; auto. apply ext_refl. Qed.

Lemma asub_trans A B C : asub A B -> asub B C -> asub A C.
Proof.
  intros H1 H2 a c i H. destruct (H1 _ _ _ H) as (i1 & E1 & X1).
  destruct (H2 _ _ _ E1) as (i2 & E2 & X2). exists i2. split; auto. eapply ext_trans; eauto.
Qed.

Lemma asub_upd A a c i i' : A a = Some (c, i) -> ext i i' -> asub A (upd A a (Some (c, i'))).
Proof.
  intros H X b d j Hb. unfold upd. destruct (Nat.eqb_spec b a) as [->|].
  - rewrite H in Hb. injection Hb as <- <-. eauto.
  - exists j. split; auto. apply ext_refl.
Qed.

Lemma val_is_ext i i' k s : ext i i' -> val_is (i_vals i) k s -> val_is (i_vals i') k s.
Proof. intros X (fv & H1 & H2). exists fv. split; auto. eapply ext_val; eauto. Qed.

Lemma val_is_lt vals k s : val_is vals k s -> k < length vals.
Proof. intros (fv & _ & H). apply nth_error_Some. congruence. Qed.

Lemma prefix_trans {B} (l1 l2 l3 : list B) : prefix l1 l2 -> prefix l2 l3 -> prefix l1 l3.
Proof. intros [a ->] [b ->]. exists (a ++ b). rewrite app_assoc; auto. Qed.

Lemma valid_mono A A' x : asub A A' -> valid A x -> valid A' x.
Proof.
  unfold valid. destruct (af_ctx x) as [[c v]|]; auto. intros Hs (a & i & H & V).
  destruct (Hs _ _ _ H) as (i' & H' & X). exists a, i'. split; auto. eapply val_is_ext; eauto.
Qed.

Lemma snap_mono A A' t : asub A A' -> snap A t -> snap A' t.
Proof.
  intros Hs (W & a & c & i & H & P1 & P2 & P3 & P4). split; auto.
  destruct (Hs _ _ _ H) as (i' & H' & (X1 & X2 & X3 & X4)). exists a, c, i'.
  repeat split; eauto using prefix_trans.
Qed.

Lemma out_ok_mono A A' r : asub A A' -> out_ok A r -> out_ok A' r.
Proof. intros H. destruct r; cbn; eauto using valid_mono, snap_mono. Qed.

(** ** What a thread is in the middle of *)
Inductive role : Type := RNone | RId (c : nat) | RNew (a : nat) | RDead (a : nat).
Inductive held : Type := HNone | HMap | HGot (a : nat) | HCtx (a : nat).

(** The code may run in a thread with role [r], holding [h], owning [refs], when the contexts
    are at least [A]: it locks and unlocks properly, uses only contexts it owns, keeps them
    well formed and returns something valid. *)
Fixpoint ok A (r : role) (h : held) (refs : list nat) (c : code) : Prop :=
  match c with
  | Ret o => r = RNone /\ h = HNone /\ out_ok A o
  | Fetch k => r = RNone /\ h = HNone /\ forall c, ok A (RId c) HNone refs (k c)
  | Alloc c k => r = RId c /\ h = HNone /\
      forall A' a i, asub A A' -> A' a = Some (c, i) -> ok A' (RNew a) HNone (a :: refs) (k a)
  | MLock k => h = HNone /\ (forall c, r <> RId c) /\ unlocks 2 k /\ ok A r HMap refs k
  | MInsert c a k => r = RNew a /\ h = HMap /\ (exists i, A a = Some (c, i)) /\ ok A RNone HMap refs k
  | MGet c k => r = RNone /\ h = HMap /\ ok A RNone HMap refs (k None) /\
      forall A' a i, asub A A' -> good A' -> A' a = Some (c, i) -> ok A' RNone (HGot a) refs (k (Some a))
  | Upgrade a k => r = RNone /\ h = HGot a /\ ok A RNone HMap (a :: refs) (k true) /\
      ok A RNone HMap refs (k false)
  | MRemove a k => r = RDead a /\ h = HMap /\ ok A RNone HMap refs k
  | MUnlock k => r = RNone /\ h = HMap /\ ok A RNone HNone refs k
  | Decr a k => r = RNone /\ h = HNone /\ In a refs /\
      ok A RNone HNone (remove1 a refs) (k false) /\ ok A (RDead a) HNone (remove1 a refs) (k true)
  | Lock a k => r = RNone /\ h = HNone /\ In a refs /\ forall b, unlocks 2 (k b) /\ ok A RNone (HCtx a) refs (k b)
  | Access a f k => r = RNone /\ h = HCtx a /\
      forall A' c i, asub A A' -> good A' -> A' a = Some (c, i) ->
        good_inner (f c i) /\ ext i (f c i) /\
        ok (upd A' a (Some (c, f c i))) RNone (HCtx a) refs (k c i)
  | Unlock a p k => r = RNone /\ h = HCtx a /\ ok A RNone HNone refs k
  end.

Lemma ok_mono c : forall A A' r h refs, asub A A' -> ok A r h refs c -> ok A' r h refs c.
Proof.
  induction c as [o|k IH|c k IH|k IH|c a k IH|c k IH|a k IH|k IH|a k IH|a k IH|a k IH|a f k IH|a p k IH];
    intros A A' r h refs Hs H; cbn [ok] in *.
  - destruct H as (? & ? & H). eauto using out_ok_mono.
  - destruct H as (? & ? & H). repeat split; auto. intros c. eapply IH; eauto.
  - destruct H as (? & ? & H). repeat split; auto. intros B a i HB. apply H. eapply asub_trans; eauto.
  - destruct H as (? & ? & U & H). eauto.
  - destruct H as (? & ? & [i E] & H). repeat split; eauto. destruct (Hs _ _ _ E) as (i' & E' & _). eauto.
  - destruct H as (? & ? & H & H'). repeat split; eauto. intros B a i HB HG Ha. eapply H'; eauto. eapply asub_trans; eauto.
  - destruct H as (? & ? & H). repeat split; eauto.
  - destruct H as (? & ? & H). repeat split; eauto.
  - destruct H as (? & ? & H & H'). repeat split; eauto.
  - destruct H as (? & ? & ? & H & H'). repeat split; eauto.
  - destruct H as (? & ? & ? & H). split; [auto|]. split; [auto|]. split; [auto|]. intros b.
    destruct (H b). eauto.
  - destruct H as (? & ? & H). split; [auto|]. split; [auto|]. intros B c i HB HG Ha.
    apply H; auto. eapply asub_trans; eauto.
  - destruct H as (? & ? & H). repeat split; eauto.
Qed.

(** ** API calls obey the logic *)
Lemma ok_crit {B} A refs a (body : nat -> inner F -> res (B * inner F)) (k : res B -> code) :
  In a refs ->
  (forall A' c i, asub A A' -> good A' -> A' a = Some (c, i) ->
     match body c i with
     | Ok (b, i') => good_inner i' /\ ext i i' /\
         ok (upd A' a (Some (c, i'))) RNone HNone refs (k (Ok b))
     | Panic p => ok A' RNone HNone refs (k (Panic p))
     end) ->
  ok A RNone HNone refs (k (Panic PUnwrap)) ->
  ok A RNone HNone refs (crit a body k).
Proof.
  intros Hin Hb Hp. unfold crit. cbn [ok]. split; [auto|]. split; [auto|]. split; [auto|].
  intros [|]; (split; [cbn; auto; intros c i; destruct (body c i) as [[? ?]|?]; cbn; auto|]); cbn [ok].
  - auto.
  - split; [auto|]. split; [auto|]. intros A' c i Hs Hg Ha. specialize (Hb _ _ _ Hs Hg Ha).
    destruct (body c i) as [[b i']|p].
    + destruct Hb as (G & X & K). split; [auto|]. split; [auto|]. cbn [ok]. auto.
    + split; [apply Hg in Ha; auto|]. split; [apply ext_refl|]. cbn [ok]. repeat split; auto.
      eapply ok_mono; [|exact Hb]. apply asub_upd with (i := i); auto. apply ext_refl.
Qed.

Lemma ok_drop A refs a k : In a refs -> ok A RNone HNone (remove1 a refs) k ->
  ok A RNone HNone refs (c_drop a k).
Proof.
  intros Hin Hk. unfold c_drop. cbn [ok]. repeat split; cbn; auto; try (intros; discriminate).
Qed.

Lemma ok_from_cid A refs c (k : option nat -> code) :
  ok A RNone HNone refs (k None) ->
  (forall A' a i, asub A A' -> good A' -> A' a = Some (c, i) -> ok A' RNone HNone (a :: refs) (k (Some a))) ->
  ok A RNone HNone refs (c_from_cid c k).
Proof.
  intros H1 H2. unfold c_from_cid. cbn [ok]. repeat split; auto; try (intros; discriminate).
  - cbn. intros [a|]; cbn; auto. intros [|]; cbn; auto.
  - eauto.
  - eapply ok_mono; eauto.
Qed.

Lemma ok_new A refs : ok A RNone HNone refs c_new.
Proof.
  unfold c_new. cbn [ok]. repeat split; auto; try (intros; discriminate). cbn; auto. eauto.
Qed.

Lemma explained_ext i i' o : ext i i' -> explained So tof (i_vals i) o -> explained So tof (i_vals i') o.
Proof.
  intros X [H|(k & a & r & H1 & H2 & H3 & H4)]; [left; auto|right].
  exists k, a, r. repeat split; eauto using val_is_ext.
  destruct (arg2 o) as [j|]; auto. destruct H4 as (b & H4 & H5). exists b. eauto using val_is_ext.
Qed.

Lemma good_push_indep i fv : good_inner i -> good_inner (push_indep i fv).
Proof.
  intros [R E]. split; [apply recorded_push_indep; auto|]. intros o Ho.
  eapply explained_ext; [apply ext_push_indep|]. apply E. auto.
Qed.

Lemma good_push_dep i d : good_inner i -> d < length (i_vals i) -> good_inner (push_dep i d).
Proof.
  intros [R E] Hd. split; [apply recorded_push_dep; auto|]. intros o Ho.
  apply E. auto.
Qed.

Lemma good_push_const i fv : good_inner i -> good_inner (push_op i Const None None fv).
Proof.
  intros [R E]. split.
  - apply recorded_push_op; auto; cbn; try discriminate; auto.
  - cbn. intros o Ho. apply in_app_or in Ho as [Ho|[<-|[]]].
    + eapply (explained_ext i (push_op i Const None None fv)); [apply ext_push_op|]. auto.
    + left; auto.
Qed.

Lemma val_new (i : inner F) fv s : tof s = Some fv -> val_is (i_vals i ++ [fv]) (length (i_vals i)) s.
Proof. intros H. exists fv. split; auto. rewrite nth_error_app2, Nat.sub_diag by auto. auto. Qed.

(** Operands of a recorded operation *)
Definition arity_ok (oc : OpCode) (y : option (AF S)) : Prop :=
  match y with None => unary_oc oc = true | Some _ => binary_oc oc = true end.
Definition arg_is (i : inner F) (v : nat) (x : AF S) : Prop := val_is (i_vals i) v (af_v x).

Lemma good_push_op i oc x y v1 v2 r fv :
  good_inner i -> arity_ok oc y -> arg_is i v1 x ->
  match y, v2 with None, None => True | Some y', Some k => arg_is i k y' | _, _ => False end ->
  zero_order_value So oc (af_v x) (option_map af_v y) = Ok r -> tof r = Some fv ->
  good_inner (push_op i oc (Some v1) v2 fv).
Proof.
  intros [R E] Ha H1 H2 Hz Hf. pose proof (ext_push_op i oc (Some v1) v2 fv) as X.
  pose proof (val_is_lt _ _ _ H1) as L1.
  assert (oc <> Nop /\ oc <> Const) as [N1 N2] by (destruct oc; split; try discriminate; cbn in Hz; discriminate).
  split.
  - apply recorded_push_op; auto; [|congruence].
    unfold wf_op. cbn. unfold arity_ok in Ha.
    destruct y as [y|], v2 as [v2|]; try contradiction.
    + pose proof (val_is_lt _ _ _ H2). 
      destruct oc; try congruence; cbn in *; try discriminate; try contradiction; repeat split; auto; eauto; try lia.
    + destruct oc; try congruence; cbn in *; try discriminate; try contradiction; repeat split; auto; eauto; try lia.
  - cbn. intros o Ho. apply in_app_or in Ho as [Ho|[<-|[]]].
    + eapply (explained_ext i (push_op i oc (Some v1) v2 fv)); auto.
    + right. exists v1, (af_v x), r. cbn. split; auto. split; [eapply val_is_ext in X; eauto|].
      split; [apply val_new; auto|].
      destruct y as [y|], v2 as [v2|]; try contradiction; cbn in Hz; auto.
      exists (af_v y). split; auto. eapply val_is_ext in X; eauto. 
Qed.

Lemma ok_indep A refs a x : In a refs -> ok A RNone HNone refs (c_set_indep tof a x).
Proof.
  intros Hin. apply ok_crit; auto; [|cbn; auto]. intros A' c i Hs Hg Ha. unfold body_indep.
  destruct (tof (af_v x)) as [fv|] eqn:Ef; cbn; auto.
  change (mkInner (i_indeps i ++ [length (i_vals i)]) (i_deps i) (i_ops i) (i_vals i ++ [fv]))
    with (push_indep i fv).
  split; [apply good_push_indep; eapply Hg; eauto|]. split; [apply ext_push_indep|].
  repeat split; auto. cbn. exists a, (push_indep i fv).
  split; [unfold upd; rewrite Nat.eqb_refl; auto|]. apply val_new; auto.
Qed.

Lemma ok_dep A refs a x : In a refs -> valid A x -> ok A RNone HNone refs (c_set_dep tof a x).
Proof.
  intros Hin Hv. apply ok_crit; auto; [|cbn; auto]. intros A' c i Hs Hg Ha. unfold body_dep.
  destruct (af_ctx x) as [[c' v]|] eqn:Ec.
  - destruct (Nat.eqb_spec c' c) as [->|]; cbn; auto.
    change (mkInner (i_indeps i) (i_deps i ++ [v]) (i_ops i) (i_vals i)) with (push_dep i v).
    assert (v < length (i_vals i)) as Lv.
    { apply (valid_mono _ _ _ Hs) in Hv. unfold valid in Hv. rewrite Ec in Hv.
      destruct Hv as (b & j & Hb & V). destruct Hg as [U _].
      assert (a = b) as <- by (eapply U; eauto). rewrite Ha in Hb. injection Hb as <-.
      eapply val_is_lt; eauto. }
    split; [apply good_push_dep; auto; eapply Hg; eauto|]. split; [apply ext_push_dep|]. auto.
  - destruct (tof (af_v x)) as [fv|] eqn:Ef; cbn; auto.
    change (mkInner (i_indeps i) (i_deps i ++ [length (i_vals i)])
              (i_ops i ++ [mkOp Const (length (i_vals i)) None None]) (i_vals i ++ [fv]))
      with (push_dep (push_op i Const None None fv) (length (i_vals i))).
    split; [apply good_push_dep; [apply good_push_const; eapply Hg; eauto|cbn; rewrite app_length; cbn; lia]|].
    split; [|auto].
    eapply ext_trans; [apply ext_push_op|apply ext_push_dep].
Qed.

Lemma ok_get {B} A refs a (get : inner F -> B) (k : res B -> code) : In a refs ->
  (forall A' c i, asub A A' -> good A' -> A' a = Some (c, i) -> ok A' RNone HNone refs (k (Ok (get i)))) ->
  ok A RNone HNone refs (k (Panic PUnwrap)) ->
  ok A RNone HNone refs (crit a (body_get get) k).
Proof.
  intros Hin Hk Hp. apply ok_crit; auto. intros A' c i Hs Hg Ha. cbn.
  split; [eapply Hg; eauto|]. split; [apply ext_refl|].
  eapply ok_mono; [|eapply Hk; eauto]. apply asub_upd with (i := i); auto. apply ext_refl.
Qed.

Lemma ss_app_l (l1 l2 : list nat) : StronglySorted lt (l1 ++ l2) -> StronglySorted lt l1.
Proof.
  induction l1 as [|x l1 IH]; cbn; intros H; [constructor|]. inversion H as [|? ? H1 H2]; subst.
  constructor; auto. apply Forall_app in H2. tauto.
Qed.

Lemma nodup_app_l {B} (l1 l2 : list B) : NoDup (l1 ++ l2) -> NoDup l1.
Proof.
  induction l1 as [|x l1 IH]; cbn; intros H; [constructor|]. inversion H as [|? ? H1 H2]; subst.
  constructor; auto. intros H3. apply H1. apply in_or_app; auto.
Qed.

Lemma prefix_in {B} (l l' : list B) x : prefix l l' -> In x l -> In x l'.
Proof. intros [m ->] H. apply in_or_app; auto. Qed.

(** Four reads at four times give a tape that can be swept. *)
Lemma torn_wf (i1 i2 i3 i4 : inner F) :
  good_inner i1 -> good_inner i2 -> good_inner i3 -> good_inner i4 -> ext i1 i2 -> ext i2 i3 -> ext i3 i4 ->
  wf_tape (mkTape (i_indeps i1) (i_deps i2) (i_ops i3) (i_vals i4)).
Proof.
  intros [[W1 _ _ _] _] [[W2 _ _ _] _] [[W3 _ _ _] _] [[W4 _ _ _] _] X12 X23 X34.
  pose proof (ext_len _ _ X12). pose proof (ext_len _ _ X23). pose proof (ext_len _ _ X34).
  split; cbn.
  - intros o Ho. eapply wf_op_mono; [|apply W3; exact Ho]. cbn. lia.
  - apply W3.
  - intros i Hi. apply (wf_indep_range _ W1) in Hi. cbn in Hi. lia.
  - apply W1.
  - intros i Hi. apply (wf_indep_def _ W3). cbn.
    destruct X12 as ([l1 E1] & _), X23 as ([l2 E2] & _). rewrite E2, E1. rewrite !in_app_iff. auto.
  - intros d Hd. apply (wf_dep_range _ W2) in Hd. cbn in Hd. lia.
Qed.

Lemma asub_ext A A' a c i i' : asub A A' -> A a = Some (c, i) -> forall c', A' a = Some (c', i') -> ext i i'.
Proof. intros Hs H c' H'. destruct (Hs _ _ _ H) as (j & E & X). congruence. Qed.

Lemma ok_tape A refs a : In a refs -> ok A RNone HNone refs (c_tape a).
Proof.
  intros Hin. unfold c_tape. apply ok_get; auto; [|cbn; auto]. intros A1 c1 i1 S1 G1 H1.
  apply ok_get; auto; [|cbn; auto]. intros A2 c2 i2 S2 G2 H2.
  apply ok_get; auto; [|cbn; auto]. intros A3 c3 i3 S3 G3 H3.
  apply ok_get; auto; [|cbn; auto]. intros A4 c4 i4 S4 G4 H4.
  cbn [ok]. split; [auto|]. split; [auto|]. cbn.
  pose proof (asub_ext _ _ _ _ _ _ S2 H1 _ H2) as X12.
  pose proof (asub_ext _ _ _ _ _ _ S3 H2 _ H3) as X23.
  pose proof (asub_ext _ _ _ _ _ _ S4 H3 _ H4) as X34.
  split.
  - eapply torn_wf; eauto; [eapply G1|eapply G2|eapply G3|eapply G4]; eauto.
  - exists a, c4, i4. split; auto. cbn.
    pose proof (ext_trans _ _ _ X23 X34) as X24. pose proof (ext_trans _ _ _ X12 X24) as X14.
    split; [apply X14|]. split; [apply X24|]. split; [apply X34|]. exists []. rewrite app_nil_r; auto.
Qed.

(** ** from_op *)
(** The id [v] stands for the operand [x] in context [a]. *)
Definition located A (a v : nat) (x : AF S) : Prop := exists c i, A a = Some (c, i) /\ arg_is i v x.

Lemma located_mono A A' a v x : asub A A' -> located A a v x -> located A' a v x.
Proof.
  intros Hs (c & i & H & V). destruct (Hs _ _ _ H) as (i' & H' & X). exists c, i'. split; auto.
  eapply val_is_ext; eauto.
Qed.

Lemma ok_ensure A refs a x (k : res nat -> code) : In a refs ->
  (forall c' v, af_ctx x = Some (c', v) -> located A a v x) ->
  (forall A' v, asub A A' -> located A' a v x -> ok A' RNone HNone refs (k (Ok v))) ->
  (forall A' p, asub A A' -> ok A' RNone HNone refs (k (Panic p))) ->
  ok A RNone HNone refs (c_ensure tof a x k).
Proof.
  intros Hin Hc Hk Hp. unfold c_ensure. destruct (af_ctx x) as [[c' v]|] eqn:Ec.
  - apply Hk; [apply asub_refl|]. eauto.
  - apply ok_crit; auto; [|apply Hp; apply asub_refl]. intros A' d i Hs Hg Ha. unfold body_record.
    destruct (tof (af_v x)) as [fv|] eqn:Ef; cbn; [|apply Hp; auto].
    change (mkInner (i_indeps i) (i_deps i) (i_ops i ++ [mkOp Const (length (i_vals i)) None None]) (i_vals i ++ [fv]))
      with (push_op i Const None None fv).
    pose proof (ext_push_op i Const None None fv) as X.
    split; [apply good_push_const; eapply Hg; eauto|]. split; [auto|].
    apply Hk.
    + eapply asub_trans; [exact Hs|]. eapply asub_upd; eauto.
    + exists d, (push_op i Const None None fv). split; [unfold upd; rewrite Nat.eqb_refl; auto|].
      apply val_new; auto.
Qed.

Lemma valid_located A a c i x v : good A -> A a = Some (c, i) -> valid A x -> af_ctx x = Some (c, v) ->
  located A a v x.
Proof.
  intros [U _] Ha Hv Ec. unfold valid in Hv. rewrite Ec in Hv. destruct Hv as (b & j & Hb & V).
  assert (a = b) as <- by (eapply U; eauto). exists c, j. auto.
Qed.

Lemma pick_some x (y : option (AF S)) c : pick_cid x y = Ok (Some c) ->
  (forall c' v, af_ctx x = Some (c', v) -> c' = c) /\
  (forall y' c' v, y = Some y' -> af_ctx y' = Some (c', v) -> c' = c).
Proof.
  unfold pick_cid. destruct y as [y|].
  - destruct (af_ctx y) as [[c2 v2]|] eqn:Ey, (af_ctx x) as [[c1 v1]|] eqn:Ex; cbn; intros H;
      try (destruct (Nat.eqb_spec c2 c1); cbn in H; [|discriminate]);
      try discriminate H; injection H as <-; split; intros; subst; try congruence.
    all: match goal with H : Some _ = Some _ |- _ => injection H as <- end; congruence.
  - destruct (af_ctx x) as [[c1 v1]|]; intros H; try discriminate H. injection H as <-.
    split; intros; try congruence.
Qed.

Lemma ok_drop_cons A refs a k : ok A RNone HNone refs k -> ok A RNone HNone (a :: refs) (c_drop a k).
Proof. intros H. apply ok_drop; [left; auto|]. cbn. rewrite Nat.eqb_refl. auto. Qed.

Lemma ok_last A refs oc x y v dv c a i1 i2 :
  arity_ok oc y -> zero_order_value So oc (af_v x) (option_map af_v y) = Ok v ->
  (exists i, A a = Some (c, i)) -> located A a i1 x ->
  match y, i2 with None, None => True | Some y', Some k => located A a k y' | _, _ => False end ->
  ok A RNone HNone (a :: refs)
    (crit a (body_record tof oc v (Some i1) i2) (fun r =>
       match r with
       | Panic p => c_drop a (Ret (RPanic p))
       | Ok vid => c_drop a (Ret (RVar (mkAF v dv (Some (c, vid)))))
       end)).
Proof.
  intros Har Hz [i0 H0] L1 L2. apply ok_crit; [left; auto| |].
  - intros A' d i Hs Hg Ha. unfold body_record.
    destruct (tof v) as [fv|] eqn:Ef; cbn [unwrap bind]; [|apply ok_drop_cons; cbn; auto].
    change (mkInner (i_indeps i) (i_deps i) (i_ops i ++ [mkOp oc (length (i_vals i)) (Some i1) i2]) (i_vals i ++ [fv]))
      with (push_op i oc (Some i1) i2 fv).
    assert (d = c) as -> by (destruct (Hs _ _ _ H0) as (j & E & _); congruence).
    assert (forall z w, located A a w z -> arg_is i w z) as Harg.
    { intros z w L. apply (located_mono _ _ _ _ _ Hs) in L as (c' & j & E & V). congruence. }
    split.
    + eapply good_push_op; eauto; [eapply Hg; eauto|].
      destruct y, i2; auto.
    + split; [apply ext_push_op|]. apply ok_drop_cons. cbn [ok]. split; [auto|]. split; [auto|].
      exists a, (push_op i oc (Some i1) i2 fv). split; [unfold upd; rewrite Nat.eqb_refl; auto|].
      apply val_new; auto.
  - apply ok_drop_cons. cbn; auto.
Qed.

Lemma ok_from_op A refs oc x y : arity_ok oc y -> valid A x -> (forall y', y = Some y' -> valid A y') ->
  ok A RNone HNone refs (c_from_op So tof oc x y).
Proof.
  intros Har Hx Hy. unfold c_from_op.
  destruct (zero_order_value So oc (af_v x) (option_map af_v y)) as [v|p] eqn:Ez; [|cbn; auto].
  destruct (first_order_value So oc (af_v x) (option_map af_v y) (af_dv x) (option_map af_dv y)) as [dv|p];
    [|cbn; auto].
  destruct (pick_cid x y) as [[c|]|p] eqn:Ep; [|cbn; auto|cbn; auto].
  apply pick_some in Ep as [P1 P2].
  apply ok_from_cid; [cbn; auto|]. intros A1 a i Hs Hg Ha.
  assert (forall z c' w, valid A z -> af_ctx z = Some (c', w) -> c' = c -> located A1 a w z) as Hloc.
  { intros z c' w Vz Ec ->. eapply valid_located; eauto. eapply valid_mono; eauto. }
  apply ok_ensure; [left; auto|intros; eapply Hloc; eauto| |].
  2:{ intros A2 p _. apply ok_drop_cons. cbn; auto. }
  intros A2 i1 Hs2 L1.
  assert (exists j, A2 a = Some (c, j)) as Ha2 by (destruct (Hs2 _ _ _ Ha) as (j & E & _); eauto).
  destruct y as [y|].
  - apply ok_ensure; [left; auto| | |].
    + intros c' w Ec. eapply located_mono; [exact Hs2|]. eapply Hloc; eauto.
    + intros A3 i2 Hs3 L2. apply ok_last with (x := x) (y := Some y); auto.
      * destruct Ha2 as [j Ha2]. destruct (Hs3 _ _ _ Ha2) as (j' & E & _); eauto.
      * eapply located_mono; eauto.
    + intros A3 p _. apply ok_drop_cons. cbn; auto.
  - apply ok_last with (x := x) (y := None); auto.
Qed.

End Logic.
