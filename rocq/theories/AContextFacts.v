(** Facts about recording: what [from_op] does to the world, and invariants. *)
From Coq Require Import List Arith ZArith Bool Lia Sorted.
From Verif Require Import Base Float Operation Tape AContext Methods Function Spec Param TapeFacts.
Import ListNotations.

Definition tape_of {F : Type} (i : inner F) : tape F :=
  mkTape (i_indeps i) (i_deps i) (i_ops i) (i_vals i).

(** [i'] is [i] with more appended: nothing recorded is ever changed. *)
Definition ext {F : Type} (i i' : inner F) : Prop :=
  (exists l, i_indeps i' = i_indeps i ++ l) /\ (exists l, i_deps i' = i_deps i ++ l) /\
  (exists l, i_ops i' = i_ops i ++ l) /\ (exists l, i_vals i' = i_vals i ++ l).

Lemma ext_refl {F} (i : inner F) : ext i i.
Proof. repeat split; exists []; rewrite app_nil_r; auto. Qed.

Lemma ext_trans {F} (a b c : inner F) : ext a b -> ext b c -> ext a c.
Proof.
  intros ([l1 E1] & [l2 E2] & [l3 E3] & [l4 E4]) ([m1 G1] & [m2 G2] & [m3 G3] & [m4 G4]).
  repeat split; eexists; rewrite ?G1, ?G2, ?G3, ?G4, ?E1, ?E2, ?E3, ?E4, <- app_assoc;
    reflexivity.
Qed.

Lemma ext_len {F} (i i' : inner F) : ext i i' -> length (i_vals i) <= length (i_vals i').
Proof. intros (_ & _ & _ & l & ->). rewrite app_length. lia. Qed.

Lemma ext_val {F} (i i' : inner F) k a :
  ext i i' -> nth_error (i_vals i) k = Some a -> nth_error (i_vals i') k = Some a.
Proof.
  intros (_ & _ & _ & l & ->) H. rewrite nth_error_app1; auto.
  apply nth_error_Some; congruence.
Qed.

Lemma ext_op {F} (i i' : inner F) o : ext i i' -> In o (i_ops i) -> In o (i_ops i').
Proof. intros (_ & _ & [l ->] & _) H. apply in_or_app; auto. Qed.

(** ** Appending to a recording keeps it well formed *)
Definition push_op {F} (i : inner F) (oc : OpCode) (a1 a2 : option nat) (val : F) : inner F :=
  mkInner (i_indeps i) (i_deps i) (i_ops i ++ [mkOp oc (length (i_vals i)) a1 a2])
          (i_vals i ++ [val]).
Definition push_indep {F} (i : inner F) (val : F) : inner F :=
  mkInner (i_indeps i ++ [length (i_vals i)]) (i_deps i) (i_ops i) (i_vals i ++ [val]).
Definition push_dep {F} (i : inner F) (d : nat) : inner F :=
  mkInner (i_indeps i) (i_deps i ++ [d]) (i_ops i) (i_vals i).

Lemma ext_push_op {F} (i : inner F) oc a1 a2 val : ext i (push_op i oc a1 a2 val).
Proof. repeat split; cbn; eexists; try reflexivity; symmetry; apply app_nil_r. Qed.
Lemma ext_push_indep {F} (i : inner F) val : ext i (push_indep i val).
Proof. repeat split; cbn; eexists; try reflexivity; symmetry; apply app_nil_r. Qed.
Lemma ext_push_dep {F} (i : inner F) d : ext i (push_dep i d).
Proof. repeat split; cbn; eexists; try reflexivity; symmetry; apply app_nil_r. Qed.

Lemma wf_op_mono N N' o : N <= N' -> wf_op N o -> wf_op N' o.
Proof.
  unfold wf_op. intros L. destruct (opcode o); auto; try lia; intros (H1 & H2); split; auto; lia.
Qed.

Lemma def_ids_lt {F} (t : tape F) k :
  wf_tape t -> In k (def_ids (t_ops t)) -> k < length (t_vals t).
Proof.
  intros W H. apply in_def_ids in H as (o & Ho & NN & <-).
  pose proof (wf_ops _ W _ Ho) as Wo. unfold wf_op in Wo.
  destruct (opcode o); try congruence; tauto.
Qed.

Lemma StronglySorted_snoc (l : list nat) a :
  StronglySorted lt l -> (forall k, In k l -> k < a) -> StronglySorted lt (l ++ [a]).
Proof.
  induction 1 as [|b l HS IH HF]; intros H; cbn.
  - repeat constructor.
  - constructor; [apply IH; intros; apply H; right; auto|].
    rewrite Forall_forall in *. intros k Hk. apply in_app_or in Hk as [Hk|[<-|[]]]; auto.
    apply H; left; auto.
Qed.

Lemma NoDup_snoc {A} (l : list A) a : NoDup l -> ~ In a l -> NoDup (l ++ [a]).
Proof.
  induction 1 as [|b l Hb HN IH]; cbn; intros H.
  - repeat constructor; auto.
  - constructor.
    + intros Hi. apply in_app_or in Hi as [Hi|[<-|[]]]; auto.
    + apply IH. intros Hi; apply H; auto.
Qed.

Lemma recorded_push_op {F} (i : inner F) oc a1 a2 val :
  recorded_tape (tape_of i) ->
  wf_op (S (length (i_vals i))) (mkOp oc (length (i_vals i)) a1 a2) ->
  oc <> Nop -> (oc = Const -> a1 = None /\ a2 = None) ->
  recorded_tape (tape_of (push_op i oc a1 a2 val)).
Proof.
  intros [[W1 W2 W3 W4 W5 W6] NN RC CV] Wo NNop HC. cbn in *.
  assert (def_ids (i_ops i ++ [mkOp oc (length (i_vals i)) a1 a2]) =
          def_ids (i_ops i) ++ [length (i_vals i)]) as ED.
  { rewrite def_ids_app, def_ids_cons; auto. }
  assert (forall k, In k (def_ids (i_ops i)) -> k < length (i_vals i)) as Hlt.
  { intros k Hk. apply (def_ids_lt (tape_of i)); auto. constructor; auto. }
  repeat split; cbn; rewrite ?app_length, ?ED; cbn; rewrite ?Nat.add_1_r.
  - intros o Ho. apply in_app_or in Ho as [Ho|[<-|[]]]; auto.
    eapply wf_op_mono; [|apply W1; auto]; lia.
  - apply StronglySorted_snoc; auto.
  - intros k Hk. apply W3 in Hk. lia.
  - auto.
  - intros k Hk Hd. apply in_app_or in Hd as [Hd|[<-|[]]]; [apply (W5 k); auto|].
    apply W3 in Hk. lia.
  - intros k Hk. apply W6 in Hk. lia.
  - intros o Ho. apply in_app_or in Ho as [Ho|[<-|[]]]; auto.
  - apply in_app_or in H as [H|[<-|[]]]; [apply RC; auto|]. apply HC; auto.
  - apply in_app_or in H as [H|[<-|[]]]; [apply RC; auto|]. apply HC; auto.
  - intros k Hk. rewrite in_app_iff. cbn.
    destruct (Nat.eq_dec k (length (i_vals i))) as [->|Hne]; auto.
    destruct (CV k ltac:(lia)); auto.
Qed.

Lemma recorded_push_indep {F} (i : inner F) val :
  recorded_tape (tape_of i) -> recorded_tape (tape_of (push_indep i val)).
Proof.
  intros [[W1 W2 W3 W4 W5 W6] NN RC CV]. cbn in *.
  repeat split; cbn; rewrite ?app_length; cbn; rewrite ?Nat.add_1_r; auto.
  - intros o Ho. eapply wf_op_mono; [|apply W1; auto]; lia.
  - intros k Hk. apply in_app_or in Hk as [Hk|[<-|[]]]; [apply W3 in Hk|]; lia.
  - apply NoDup_snoc; auto. intros H; apply W3 in H; lia.
  - intros k Hk Hd. apply in_app_or in Hk as [Hk|[<-|[]]]; [apply (W5 k); auto|].
    apply (def_ids_lt (tape_of i)) in Hd; [cbn in Hd; lia|]. constructor; auto.
  - intros k Hk. apply W6 in Hk. lia.
  - apply (RC o); auto.
  - apply (RC o); auto.
  - intros k Hk. rewrite in_app_iff. cbn.
    destruct (Nat.eq_dec k (length (i_vals i))) as [->|Hne]; auto.
    destruct (CV k ltac:(lia)); auto.
Qed.

Lemma recorded_push_dep {F} (i : inner F) d :
  recorded_tape (tape_of i) -> d < length (i_vals i) -> recorded_tape (tape_of (push_dep i d)).
Proof.
  intros [[W1 W2 W3 W4 W5 W6] NN RC CV] Hd. cbn in *.
  repeat split; cbn; auto.
  - intros k Hk. apply in_app_or in Hk as [Hk|[<-|[]]]; auto.
  - apply (RC o); auto.
  - apply (RC o); auto.
Qed.

Lemma recorded_empty {F} : recorded_tape (tape_of (@mkInner F [] [] [] [])).
Proof.
  repeat split; cbn; auto; try contradiction; try constructor; intros; lia.
Qed.

(** ** The world *)
Section World.
Context {Sc F : Type} (So : Fops Sc) (tof : Sc -> option F).

(** [w'] is [w] with context [c] changed from [i] to [i']. *)
Definition changes (c : nat) (i i' : inner F) (w w' : world F) : Prop :=
  w_next w' = w_next w /\ w_ctx w c = Some i /\ w_ctx w' c = Some i' /\
  forall k, k <> c -> w_ctx w' k = w_ctx w k.

Lemma changes_trans c i i' i'' w w' w'' :
  changes c i i' w w' -> changes c i' i'' w' w'' -> changes c i i'' w w''.
Proof.
  intros (A1 & A2 & A3 & A4) (B1 & B2 & B3 & B4). repeat split; try congruence.
  intros k Hk. rewrite B4, A4; auto.
Qed.

Lemma changes_upd c i i' w : w_ctx w c = Some i -> changes c i i' w (upd_ctx w c (Some i')).
Proof.
  intros H. repeat split; cbn; auto.
  - rewrite Nat.eqb_refl; auto.
  - intros k Hk. apply Nat.eqb_neq in Hk. rewrite Hk; auto.
Qed.

Lemma record_spec c oc val a1 a2 w v w' :
  record tof c oc val a1 a2 w = Ok (v, w') ->
  exists i fv, w_ctx w c = Some i /\ tof val = Some fv /\ v = length (i_vals i) /\
    changes c i (push_op i oc a1 a2 fv) w w'.
Proof.
  unfold record, with_ctx. destruct (w_ctx w c) as [i|] eqn:E; [|discriminate].
  destruct (tof val) as [fv|] eqn:Ev; cbn; [|discriminate].
  intros [= <- <-]. exists i, fv. repeat split; auto; try apply changes_upd; auto.
  - cbn. rewrite Nat.eqb_refl; auto.
  - cbn. intros k Hk. apply Nat.eqb_neq in Hk. rewrite Hk; auto.
Qed.

Lemma record_ok c oc val a1 a2 w i fv :
  w_ctx w c = Some i -> tof val = Some fv ->
  exists w', record tof c oc val a1 a2 w = Ok (length (i_vals i), w') /\
    changes c i (push_op i oc a1 a2 fv) w w'.
Proof.
  intros E Ev. unfold record, with_ctx. rewrite E, Ev. cbn.
  eexists; split; [reflexivity|]. apply changes_upd; auto.
Qed.

(** The id an operand gets, and the context after that. *)
Definition operand (i : inner F) (x : AF Sc) (v : nat) (i' : inner F) : Prop :=
  match af_ctx x with
  | Some (_, k) => v = k /\ i' = i
  | None => exists fv, tof (af_v x) = Some fv /\ v = length (i_vals i) /\
                       i' = push_op i Const None None fv
  end.

Lemma ensure_id_spec c x w i v w' :
  w_ctx w c = Some i -> ensure_id tof c x w = Ok (v, w') ->
  exists i', operand i x v i' /\ changes c i i' w w'.
Proof.
  intros Hc. unfold ensure_id, operand. destruct (af_ctx x) as [[c' k]|].
  - intros [= <- <-]. exists i. repeat split; auto.
  - intros H. apply record_spec in H as (i' & fv & A & B & C & D).
    rewrite Hc in A; injection A as <-.
    exists (push_op i Const None None fv). split; eauto.
Qed.

Lemma ensure_id_ok c x w i :
  w_ctx w c = Some i -> (forall s, tof s <> None) ->
  exists v w', ensure_id tof c x w = Ok (v, w').
Proof.
  intros Hc Ht. unfold ensure_id. destruct (af_ctx x) as [[c' k]|].
  - eexists _, _; reflexivity.
  - destruct (tof (af_v x)) as [fv|] eqn:E; [|destruct (Ht _ E)].
    destruct (record_ok c Const (af_v x) None None w i fv Hc E) as (w' & -> & _). eauto.
Qed.

Lemma operand_ext i x v i' : operand i x v i' -> ext i i'.
Proof.
  unfold operand. destruct (af_ctx x) as [[c k]|].
  - intros [_ ->]; apply ext_refl.
  - intros (fv & _ & _ & ->). apply ext_push_op.
Qed.

Definition operand2 (i : inner F) (y : option (AF Sc)) (v : option nat) (i' : inner F) : Prop :=
  match y, v with
  | None, None => i' = i
  | Some y', Some k => operand i y' k i'
  | _, _ => False
  end.

(** What a successful [from_op] did. *)
Inductive from_op_did (oc : OpCode) (x : AF Sc) (y : option (AF Sc)) (w w' : world F)
  (r : AF Sc) : Prop :=
| did_nothing :
    w' = w -> af_ctx r = None ->
    (pick_cid x y = Ok None \/ exists c, pick_cid x y = Ok (Some c) /\ w_ctx w c = None) ->
    from_op_did oc x y w w' r
| did_record c i i1 i2 v1 v2 fv :
    pick_cid x y = Ok (Some c) -> w_ctx w c = Some i ->
    operand i x v1 i1 -> operand2 i1 y v2 i2 -> tof (af_v r) = Some fv ->
    af_ctx r = Some (c, length (i_vals i2)) ->
    changes c i (push_op i2 oc (Some v1) v2 fv) w w' ->
    from_op_did oc x y w w' r.

Lemma from_op_spec oc x y w r w' :
  from_op So tof oc x y w = Ok (r, w') ->
  zero_order_value So oc (af_v x) (option_map af_v y) = Ok (af_v r) /\
  first_order_value So oc (af_v x) (option_map af_v y) (af_dv x) (option_map af_dv y)
    = Ok (af_dv r) /\
  from_op_did oc x y w w' r.
Proof.
  unfold from_op, mbind, mlift.
  destruct (zero_order_value _ _ _ _) as [v|]; [|discriminate].
  destruct (first_order_value _ _ _ _ _ _) as [dv|]; [|discriminate].
  destruct (pick_cid x y) as [[c|]|] eqn:Ep; [| |discriminate].
  - unfold from_cid. destruct (w_ctx w c) as [i|] eqn:Ec.
    + destruct (ensure_id tof c x w) as [[v1 w1]|] eqn:E1; [|discriminate].
      destruct (ensure_id_spec _ _ _ _ _ _ Ec E1) as (i1 & O1 & C1).
      assert (w_ctx w1 c = Some i1) as Ec1 by apply C1.
      destruct y as [y|].
      * destruct (ensure_id tof c y w1) as [[v2 w2]|] eqn:E2; [|discriminate].
        destruct (ensure_id_spec _ _ _ _ _ _ Ec1 E2) as (i2 & O2 & C2).
        assert (w_ctx w2 c = Some i2) as Ec2 by apply C2.
        cbn. destruct (record tof c oc v (Some v1) (Some v2) w2) as [[k w3]|] eqn:E3; [|discriminate].
        cbn. intros [= <- <-].
        apply record_spec in E3 as (i2' & fv & A & B & C & D).
        rewrite Ec2 in A; injection A as <-.
        repeat split; auto.
        eapply (did_record _ _ _ _ _ _ c i i1 i2 v1 (Some v2) fv); cbn; eauto.
        -- congruence.
        -- eapply changes_trans; [exact C1|]. eapply changes_trans; eauto.
      * cbn. destruct (record tof c oc v (Some v1) None w1) as [[k w3]|] eqn:E3; [|discriminate].
        cbn. intros [= <- <-].
        apply record_spec in E3 as (i2' & fv & A & B & C & D).
        rewrite Ec1 in A; injection A as <-.
        repeat split; auto.
        eapply (did_record _ _ _ _ _ _ c i i1 i1 v1 None fv); cbn; eauto.
        -- congruence.
        -- eapply changes_trans; eauto.
    + cbn. intros [= <- <-]. repeat split; auto. apply did_nothing; cbn; eauto.
  - cbn. intros [= <- <-]. repeat split; auto. apply did_nothing; cbn; eauto.
Qed.

(** When it panics: only for an arity error, mixed contexts, or a value that is not an [f64]. *)
Lemma from_op_total oc x y w :
  (forall s, tof s <> None) -> arity_ok oc y ->
  (exists p, pick_cid x y = Panic p /\ from_op So tof oc x y w = Panic p) \/
  (exists r w', from_op So tof oc x y w = Ok (r, w')).
Proof.
  intros Ht Ha. unfold from_op, mbind, mlift.
  destruct (zero_order_value_total So oc (af_v x) (option_map af_v y)) as [v ->].
  { destruct y; cbn in *; [right; split; auto; discriminate | auto]. }
  destruct (first_order_value_total So oc (af_v x) (option_map af_v y) (af_dv x)
              (option_map af_dv y)) as [dv ->].
  { destruct y; cbn in *; [right; repeat split; auto; discriminate | auto]. }
  destruct (pick_cid x y) as [[c|]|p] eqn:Ep; [| |left; eauto].
  - right. unfold from_cid. destruct (w_ctx w c) as [i|] eqn:Ec; [|eexists _, _; reflexivity].
    destruct (ensure_id_ok c x w i Ec Ht) as (v1 & w1 & E1). rewrite E1.
    destruct (ensure_id_spec _ _ _ _ _ _ Ec E1) as (i1 & O1 & C1).
    assert (w_ctx w1 c = Some i1) as Ec1 by apply C1.
    destruct (tof v) as [fv|] eqn:Ev; [|destruct (Ht _ Ev)].
    destruct y as [y|].
    + destruct (ensure_id_ok c y w1 i1 Ec1 Ht) as (v2 & w2 & E2). rewrite E2.
      destruct (ensure_id_spec _ _ _ _ _ _ Ec1 E2) as (i2 & O2 & C2).
      assert (w_ctx w2 c = Some i2) as Ec2 by apply C2.
      cbn. destruct (record_ok c oc v (Some v1) (Some v2) w2 i2 fv Ec2 Ev) as (w3 & -> & _).
      eexists _, _; reflexivity.
    + cbn. destruct (record_ok c oc v (Some v1) None w1 i1 fv Ec1 Ev) as (w3 & -> & _).
      eexists _, _; reflexivity.
  - right. eexists _, _; reflexivity.
Qed.

(** ** Invariants *)
(** A variable is consistent with a context: its id exists there; [strict]: and the recorded
    value is the variable's value. *)
Definition points_into (strict : bool) (i : inner F) (v : nat) (a : Sc) : Prop :=
  v < length (i_vals i) /\ (strict = true -> exists fv, tof a = Some fv /\
                             nth_error (i_vals i) v = Some fv).

Definition valid_af (strict : bool) (w : world F) (x : AF Sc) : Prop :=
  match af_ctx x with
  | None => True
  | Some (c, v) =>
      c < w_next w /\ forall i, w_ctx w c = Some i -> points_into strict i v (af_v x)
  end.

Definition wf_world (w : world F) : Prop :=
  forall c i, w_ctx w c = Some i -> c < w_next w /\ recorded_tape (tape_of i).

(** The world only grows: ids are never reused, live contexts are extended or dropped. *)
Definition wext (w w' : world F) : Prop :=
  w_next w <= w_next w' /\
  forall c i', c < w_next w -> w_ctx w' c = Some i' -> exists i, w_ctx w c = Some i /\ ext i i'.

Lemma wext_refl w : wext w w.
Proof. split; auto. intros c i' _ H. exists i'; split; auto. apply ext_refl. Qed.

Lemma wext_trans a b c : wext a b -> wext b c -> wext a c.
Proof.
  intros [A1 A2] [B1 B2]. split; [lia|]. intros k i' Hk H.
  destruct (B2 k i') as (i & Hi & E1); auto; [lia|].
  destruct (A2 k i) as (i0 & Hi0 & E0); auto.
  exists i0; split; auto. eapply ext_trans; eauto.
Qed.

Lemma changes_wext c i i' w w' : changes c i i' w w' -> ext i i' -> wext w w'.
Proof.
  intros (A1 & A2 & A3 & A4) E. split; [lia|]. intros k j Hk Hj.
  destruct (Nat.eq_dec k c) as [->|Hne].
  - exists i; split; auto. congruence.
  - rewrite A4 in Hj by auto. exists j; split; auto. apply ext_refl.
Qed.

Lemma points_into_ext s i i' v a : ext i i' -> points_into s i v a -> points_into s i' v a.
Proof.
  intros E [H1 H2]. split.
  - pose proof (ext_len _ _ E); lia.
  - intros Hs. destruct (H2 Hs) as (fv & A & B). exists fv; split; auto.
    eapply ext_val; eauto.
Qed.

Lemma valid_af_mono s w w' x : wext w w' -> valid_af s w x -> valid_af s w' x.
Proof.
  intros [A1 A2]. unfold valid_af. destruct (af_ctx x) as [[c v]|]; auto.
  intros [H1 H2]. split; [lia|]. intros i' Hi'.
  destruct (A2 c i' H1 Hi') as (i & Hi & E). eapply points_into_ext; eauto.
Qed.

Lemma valid_af_const s w v dv : valid_af s w (af_new v dv).
Proof. exact I. Qed.

Lemma operand_valid s w c i x v i' :
  w_ctx w c = Some i -> recorded_tape (tape_of i) ->
  (forall k, af_ctx x = Some (c, k) \/ af_ctx x = None -> True) ->
  (match af_ctx x with Some (c', _) => c' = c | None => True end) ->
  valid_af s w x -> operand i x v i' ->
  recorded_tape (tape_of i') /\ ext i i' /\ points_into s i' v (af_v x).
Proof.
  intros Hc Hr _ Hcx Hv HO. unfold operand, valid_af in *.
  destruct (af_ctx x) as [[c' k]|].
  - destruct HO as [-> ->]. subst c'. destruct Hv as [_ Hv].
    split; [auto|]. split; [apply ext_refl|]. apply Hv; auto.
  - destruct HO as (fv & E & -> & ->).
    split; [apply recorded_push_op; cbn; auto; try congruence; lia|].
    split; [apply ext_push_op|]. split.
    + cbn. rewrite app_length; cbn; lia.
    + intros _. exists fv; split; auto. cbn.
      rewrite nth_error_app2, Nat.sub_diag; auto.
Qed.

Lemma pick_cid_some (x : AF Sc) y c :
  pick_cid x y = Ok (Some c) ->
  (match af_ctx x with Some (c', _) => c' = c | None => True end) /\
  (match y with Some y' => match af_ctx y' with Some (c', _) => c' = c | None => True end
              | None => True end) /\
  (exists k, af_ctx x = Some (c, k) \/ exists y', y = Some y' /\ af_ctx y' = Some (c, k)).
Proof.
  unfold pick_cid. destruct (af_ctx x) as [[c1 k1]|] eqn:E1.
  - destruct y as [y|].
    + destruct (af_ctx y) as [[c2 k2]|] eqn:E2.
      * unfold assert. destruct (Nat.eqb_spec c2 c1); cbn; [|discriminate].
        intros [= <-]. repeat split; auto. eauto.
      * intros [= <-]. repeat split; auto; eauto.
    + intros [= <-]. repeat split; auto; eauto.
  - destruct y as [y|].
    + destruct (af_ctx y) as [[c2 k2]|] eqn:E2; [|discriminate].
      intros [= <-]. repeat split; auto; eauto.
    + discriminate.
Qed.

Lemma changes_wf c i i' w w' :
  changes c i i' w w' -> wf_world w -> recorded_tape (tape_of i') -> wf_world w'.
Proof.
  intros (A1 & A2 & A3 & A4) W R k j Hj. destruct (Nat.eq_dec k c) as [->|Hne].
  - rewrite A1. split; [apply (W _ _ A2)|]. congruence.
  - rewrite A4 in Hj by auto. rewrite A1. apply W; auto.
Qed.

(** Everything [from_op] guarantees about a world whose invariants hold. *)
Lemma from_op_inv s oc x y w r w' :
  wf_world w -> valid_af s w x -> (forall y', y = Some y' -> valid_af s w y') ->
  arity_ok oc y ->
  from_op So tof oc x y w = Ok (r, w') ->
  wf_world w' /\ wext w w' /\ valid_af s w' r.
Proof.
  intros W Vx Vy Ha H. apply from_op_spec in H as (Hz & Hf & D).
  destruct D as [-> Er _ | c i i1 i2 v1 v2 fv Ep Ec O1 O2 Et Er Ch].
  - split; [auto|]. split; [apply wext_refl|]. unfold valid_af; rewrite Er; exact I.
  - destruct (pick_cid_some _ _ _ Ep) as (P1 & P2 & _).
    destruct (W _ _ Ec) as [Hlt Hrec].
    destruct (operand_valid s w c i x v1 i1 Ec Hrec (fun _ _ => I) P1 Vx O1) as (R1 & X1 & I1).
    assert (recorded_tape (tape_of i2) /\ ext i1 i2 /\
            match v2 with Some k => k < length (i_vals i2) | None => y = None end) as (R2 & X2 & I2).
    { destruct y as [y|], v2 as [k|]; cbn in O2; try contradiction.
      - (* valid in the intermediate world *)
        unfold operand in O2. specialize (Vy y eq_refl). unfold valid_af in Vy.
        destruct (af_ctx y) as [[c' k']|].
        + destruct O2 as [-> ->]. subst c'. split; [auto|]. split; [apply ext_refl|].
          destruct Vy as [_ Vy]. pose proof (ext_len _ _ X1). specialize (Vy i Ec).
          destruct Vy. lia.
        + destruct O2 as (fv2 & E & -> & ->). split; [|split].
          * apply recorded_push_op; cbn; auto; try congruence; lia.
          * apply ext_push_op.
          * cbn. rewrite app_length; cbn; lia.
      - subst i2. split; [auto|split; auto]. apply ext_refl. }
    assert (v1 < length (i_vals i2)) as Hv1.
    { pose proof (ext_len _ _ X2). destruct I1. lia. }
    assert (recorded_tape (tape_of (push_op i2 oc (Some v1) v2 fv))) as R3.
    { apply recorded_push_op; auto.
      - unfold wf_op; cbn. destruct y as [y|]; cbn in Ha.
        + destruct v2 as [k|]; [|discriminate].
          destruct oc; try discriminate; cbn; repeat split; eauto.
        + destruct v2 as [k|]; [contradiction|].
          destruct oc; try discriminate; cbn; repeat split; eauto.
      - destruct y; cbn in Ha; destruct oc; try discriminate.
      - intros ->. destruct y; cbn in Ha; discriminate. }
    assert (ext i (push_op i2 oc (Some v1) v2 fv)) as X3.
    { eapply ext_trans; [exact X1|]. eapply ext_trans; [exact X2|]. apply ext_push_op. }
    split; [eapply changes_wf; eauto|]. split; [eapply changes_wext; eauto|].
    unfold valid_af. rewrite Er. destruct Ch as (A1 & A2 & A3 & A4). rewrite A1.
    split; auto. intros j Hj. rewrite A3 in Hj; injection Hj as <-. split.
    + cbn. rewrite app_length; cbn; lia.
    + intros _. exists fv; split; auto. cbn. rewrite nth_error_app2, Nat.sub_diag; auto.
Qed.

(** The invariants are kept by every user function. *)
Definition RVinv (s : bool) (w : world F) (x y : AF Sc) : Prop := x = y /\ valid_af s w x.

Lemma sim_inv_fop s w0 oc x1 y1 x2 y2 :
  arity_ok oc y1 -> RVinv s w0 x1 x2 -> orel (RVinv s w0) y1 y2 ->
  simM true wext (fun w a b => a = b /\ a = w /\ wf_world w) (RVinv s) w0
       (from_op So tof oc x1 y1) (from_op So tof oc x2 y2).
Proof.
  intros Ha [<- Vx] Hy s1 s2 (<- & -> & W).
  assert (y1 = y2 /\ forall y', y1 = Some y' -> valid_af s w0 y') as [<- Vy].
  { destruct y1, y2; cbn in Hy; try contradiction.
    - destruct Hy as [<- V]. split; auto. intros y' [= <-]; auto.
    - split; auto; discriminate. }
  destruct (from_op So tof oc x1 y1 w0) as [[r w']|p] eqn:E; auto.
  destruct (from_op_inv s _ _ _ _ _ _ W Vx Vy Ha E) as (W' & X & V).
  exists r, w', w'. split; [reflexivity|]. split; [auto|]. split; [auto|]. split; auto.
Qed.

End World.
