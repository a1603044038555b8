(** Two recordings that take the same path differ only in the stored values: replaying one at
    the point of the other produces the other. *)
From Coq Require Import List Arith ZArith Bool Lia Sorted.
From Verif Require Import Base Float Operation Tape AContext Methods Function Spec Param
  TapeFacts AContextFacts Instances FunctionFacts RecordFacts ReplayFacts Replay2 ApiFacts3.
Import ListNotations.

Section Shape.
Context {F : Type} (Fo : Fops F).

(** Same operations and ids, same constants. *)
Record same_shape (i1 i2 : inner F) : Prop := {
  ss_ind : i_indeps i1 = i_indeps i2;
  ss_dep : i_deps i1 = i_deps i2;
  ss_ops : i_ops i1 = i_ops i2;
  ss_len : length (i_vals i1) = length (i_vals i2);
  ss_const : forall o, In o (i_ops i1) -> opcode o = Const ->
    exists a, nth_error (i_vals i1) (vid o) = Some a /\ nth_error (i_vals i2) (vid o) = Some a
}.

Lemma same_push i1 i2 oc a1 a2 v1 v2 :
  same_shape i1 i2 -> (oc = Const -> v1 = v2) ->
  same_shape (push_op i1 oc a1 a2 v1) (push_op i2 oc a1 a2 v2).
Proof.
  intros [A B C D E] H. constructor; cbn.
  - auto.
  - auto.
  - rewrite C, D; auto.
  - rewrite !app_length, D; auto.
  - intros o Ho Hc. apply in_app_or in Ho as [Ho|[<-|[]]].
    + destruct (E o Ho Hc) as (a & E1 & E2). exists a. split; apply nth_error_app_some; auto.
    + cbn in *. exists v1. rewrite nth_error_app2, Nat.sub_diag; [|auto].
      rewrite D, nth_error_app2, Nat.sub_diag; [|auto]. cbn. rewrite H; auto.
Qed.

Section Two.
Context (c1 c2 : nat).
Definition RVsh (_ : unit) (x y : AF F) : Prop :=
  match af_ctx x, af_ctx y with
  | None, None => af_v x = af_v y
  | Some (a, k), Some (b, k') => a = c1 /\ b = c2 /\ k = k'
  | _, _ => False
  end.
Definition RSsh (_ : unit) (s1 s2 : world F) : Prop :=
  exists i1 i2, w_ctx s1 c1 = Some i1 /\ w_ctx s2 c2 = Some i2 /\ same_shape i1 i2.

Lemma sh_record s1 s2 oc a1 a2 v1 v2 :
  RSsh tt s1 s2 -> (oc = Const -> v1 = v2) ->
  exists k s1' s2', record Some c1 oc v1 a1 a2 s1 = Ok (k, s1') /\
    record Some c2 oc v2 a1 a2 s2 = Ok (k, s2') /\ RSsh tt s1' s2'.
Proof.
  intros (i1 & i2 & H1 & H2 & S) H. unfold record.
  rewrite (with_ctx_eq c1 _ s1 i1 H1), (with_ctx_eq c2 _ s2 i2 H2). cbn.
  eexists _, _, _. split; [reflexivity|]. split; [rewrite (ss_len _ _ S); reflexivity|].
  exists (push_op i1 oc a1 a2 v1), (push_op i2 oc a1 a2 v2). cbn. rewrite !Nat.eqb_refl.
  split; [auto|]. split; [auto|apply same_push; auto].
Qed.

Lemma sh_ensure x y s1 s2 :
  RVsh tt x y -> RSsh tt s1 s2 ->
  exists k s1' s2', ensure_id Some c1 x s1 = Ok (k, s1') /\ ensure_id Some c2 y s2 = Ok (k, s2') /\
    RSsh tt s1' s2'.
Proof.
  intros HV HS. unfold ensure_id, RVsh in *.
  destruct (af_ctx x) as [[a k]|], (af_ctx y) as [[b k']|]; try contradiction.
  - destruct HV as (_ & _ & ->). exists k', s1, s2. split; [auto|]. split; auto.
  - apply sh_record; auto.
Qed.

Lemma sim_sh_fop (u : unit) oc x1 y1 x2 y2 :
  arity_ok oc y1 -> RVsh u x1 x2 -> orel (RVsh u) y1 y2 ->
  simM false (fun _ _ => True) RSsh RVsh u (from_op Fo Some oc x1 y1) (from_op Fo Some oc x2 y2).
Proof.
  destruct u. intros Ha Hx Hy s1 s2 HS.
  assert (arity_ok oc y2) as Ha2
    by (destruct y1, y2; cbn in *; auto; contradiction).
  unfold from_op, mbind, mlift.
  destruct (zero_order_value_total Fo oc (af_v x1) (option_map af_v y1)) as [v1 Ev1].
  { destruct y1; cbn in *; [right; split; auto; discriminate | auto]. }
  destruct (zero_order_value_total Fo oc (af_v x2) (option_map af_v y2)) as [v2 Ev2].
  { destruct y2; cbn in *; [right; split; auto; discriminate | auto]. }
  destruct (first_order_value_total Fo oc (af_v x1) (option_map af_v y1) (af_dv x1)
              (option_map af_dv y1)) as [d1 Ed1].
  { destruct y1; cbn in *; [right; repeat split; auto; discriminate | auto]. }
  destruct (first_order_value_total Fo oc (af_v x2) (option_map af_v y2) (af_dv x2)
              (option_map af_dv y2)) as [d2 Ed2].
  { destruct y2; cbn in *; [right; repeat split; auto; discriminate | auto]. }
  rewrite Ev1, Ev2, Ed1, Ed2.
  assert ((pick_cid x1 y1 = Ok None /\ pick_cid x2 y2 = Ok None /\ v1 = v2) \/
          (pick_cid x1 y1 = Ok (Some c1) /\ pick_cid x2 y2 = Ok (Some c2))) as Hp.
  { unfold pick_cid, RVsh, orel in *.
    destruct (af_ctx x1) as [[a k]|], (af_ctx x2) as [[b k']|]; try contradiction.
    - destruct Hx as (-> & -> & ->).
      destruct y1 as [y1|], y2 as [y2|]; cbn in Hy; try contradiction; auto.
      destruct (af_ctx y1) as [[a1 k1]|], (af_ctx y2) as [[b1 k1']|]; try contradiction; auto.
      destruct Hy as (-> & -> & _). rewrite !Nat.eqb_refl. auto.
    - rewrite Hx in Ev1.
      destruct y1 as [y1|], y2 as [y2|]; cbn in Hy; try contradiction.
      + destruct (af_ctx y1) as [[a1 k1]|], (af_ctx y2) as [[b1 k1']|]; try contradiction; auto.
        * destruct Hy as (-> & -> & _). auto.
        * left. split; [auto|]. split; [auto|]. cbn in Ev1, Ev2. rewrite Hy in Ev1. congruence.
      + left. split; [auto|]. split; [auto|]. cbn in Ev1, Ev2. congruence. }
  destruct Hp as [(-> & -> & ->)|[-> ->]].
  { eexists _, _, tt. split; [reflexivity|]. split; [auto|]. split; [auto|]. cbn; auto. }
  unfold from_cid. pose proof HS as (i1 & i2 & H1 & H2 & _). rewrite H1, H2.
  destruct (sh_ensure x1 x2 s1 s2 Hx HS) as (k & s1' & s2' & -> & -> & HS').
  destruct y1 as [y1|], y2 as [y2|]; cbn in Hy; try contradiction; cbn.
  - destruct (sh_ensure y1 y2 s1' s2' Hy HS') as (k2 & s1'' & s2'' & -> & -> & HS''). cbn.
    destruct (sh_record s1'' s2'' oc (Some k) (Some k2) v1 v2 HS'') as (r & u1 & u2 & -> & -> & HU).
    { intros ->. destruct Ha; discriminate. }
    cbn. eexists _, _, tt. split; [reflexivity|]. split; [auto|]. split; [auto|]. cbn; auto.
  - destruct (sh_record s1' s2' oc (Some k) None v1 v2 HS') as (r & u1 & u2 & -> & -> & HU).
    { intros ->. destruct Ha; discriminate. }
    cbn. eexists _, _, tt. split; [reflexivity|]. split; [auto|]. split; [auto|]. cbn; auto.
Qed.

Lemma sh_set_dep_slice outs1 outs2 : Forall2 (RVsh tt) outs1 outs2 -> forall s1 s2,
  RSsh tt s1 s2 ->
  exists s1' s2', set_dep_slice Some c1 outs1 s1 = Ok (tt, s1') /\
    set_dep_slice Some c2 outs2 s2 = Ok (tt, s2') /\ RSsh tt s1' s2'.
Proof.
  induction 1 as [|a b l1 l2 HV HF IH]; intros s1 s2 HS; cbn [set_dep_slice].
  - exists s1, s2. split; [auto|]. split; auto.
  - unfold mbind, set_dep. destruct HS as (i1 & i2 & H1 & H2 & SS).
    rewrite (with_ctx_eq c1 _ s1 i1 H1), (with_ctx_eq c2 _ s2 i2 H2).
    unfold RVsh in HV.
    destruct (af_ctx a) as [[a1 k]|], (af_ctx b) as [[b1 k']|]; try contradiction.
    + destruct HV as (-> & -> & ->). rewrite !Nat.eqb_refl. cbn.
      apply IH. eexists _, _. cbn. rewrite !Nat.eqb_refl. split; [reflexivity|]. split; [reflexivity|].
      destruct SS as [A B C D E]. constructor; cbn; auto. rewrite B; auto.
    + cbn. apply IH. eexists _, _. cbn. rewrite !Nat.eqb_refl.
      split; [reflexivity|]. split; [reflexivity|].
      pose proof (same_push i1 i2 Const None None (af_v a) (af_v b) SS (fun _ => HV)) as [A B C D E].
      pose proof (ss_dep _ _ SS) as Hd. pose proof (ss_len _ _ SS) as Hl.
      constructor; cbn in *; auto. rewrite Hd, Hl; auto.
Qed.
End Two.

Lemma inputs_sh c1 c2 x1 x2 : length x1 = length x2 -> forall s,
  Forall2 (RVsh c1 c2 tt) (mk_inputs Fo c1 s x1) (mk_inputs Fo c2 s x2).
Proof.
  revert x2; induction x1 as [|a x1 IH]; intros [|b x2] L s; try discriminate; cbn; constructor;
    [cbn; auto|]. apply IH. cbn in L; lia.
Qed.

Lemma shape_straight f x1 x2 w1 w2 t1 w1' t2 w2' :
  straight_f f -> length x1 = length x2 ->
  fn_tape Fo f x1 w1 = Ok (t1, w1') -> fn_tape Fo f x2 w2 = Ok (t2, w2') ->
  exists i1 i2, t1 = tape_of i1 /\ t2 = tape_of i2 /\ same_shape i1 i2.
Proof.
  intros HS L H1 H2. apply fn_tape_inv in H1. apply fn_tape_inv in H2.
  destruct H1 as (u1 & u2 & u3 & o1 & i1 & Ch1 & E1 & D1 & W1 & -> & _).
  destruct H2 as (v1 & v2 & v3 & o2 & i2 & Ch2 & E2 & D2 & W2 & -> & _).
  exists i1, i2. split; [auto|]. split; [auto|].
  assert (H : simM false (fun _ _ => True) (RSsh (w_next w1) (w_next w2))
     (RVs (RVsh (w_next w1) (w_next w2))) tt
     (eval Fo f (mk_inputs Fo (w_next w1) 0 x1)) (eval Fo f (mk_inputs Fo (w_next w2) 0 x2))).
  { apply sim_feval; auto.
    - apply sim_sh_fop.
    - intros w0 v. cbn; auto.
    - apply inputs_sh; auto. }
  specialize (H u1 v1). rewrite E1 in H.
  destruct H as (o2' & s2 & [] & E2' & _ & HR & HV).
  { exists (i_in x1), (i_in x2). split; [apply Ch1|]. split; [apply Ch2|].
    constructor; cbn; auto; try (rewrite L; auto); intros ? []. }
  rewrite E2 in E2'. injection E2' as <- <-.
  destruct (sh_set_dep_slice _ _ _ _ HV _ _ HR) as (s1' & s2' & A1 & A2 & (j1 & j2 & B1 & B2 & SS)).
  rewrite D1 in A1. rewrite D2 in A2. injection A1 as <-. injection A2 as <-.
  congruence.
Qed.

Lemma shape_values i1 i2 x arr :
  recorded_tape (tape_of i1) -> same_shape i1 i2 ->
  values_at Fo (tape_of i2) x arr -> values_at Fo (tape_of i1) x arr.
Proof.
  intros R [A B C D E] [V1 V2 V3 V4]. cbn in *. constructor; cbn.
  - congruence.
  - rewrite A; auto.
  - rewrite C; auto.
  - intros k Hk Hi Ho. rewrite V4; [| congruence | congruence | rewrite <- C; auto].
    destruct (rt_cover _ R k) as [X|X]; cbn in *; auto; [contradiction|].
    apply in_def_ids in X as (o & Io & No & Vo).
    destruct (Ho o Io Vo) as [Co|Co]; [|contradiction].
    destruct (E o Io Co) as (a & E1 & E2). congruence.
Qed.

(** Replaying a recording at [x'] gives the recording made at [x']. *)
Theorem replay_is_record f x w t w1 x' w2 :
  fn_tape Fo f x w = Ok (t, w1) -> length x' = length x ->
  straight_f f \/ agree_f Fo f x x' ->
  exists t2 w3, fn_tape Fo f x' w2 = Ok (t2, w3) /\ tape_zero_order Fo t x' = Ok t2.
Proof.
  intros HT L HP.
  destruct (replay_float Fo f x w t w1 x' HT L HP) as (t' & y' & Ez & _ & Ev).
  destruct (proj2 (record_iff Fo f x' w2)) as (t2 & w3 & HT2); [exists y', w2; auto|].
  exists t2, w3. split; [auto|].
  assert (exists i1 i2, t = tape_of i1 /\ t2 = tape_of i2 /\ same_shape i1 i2) as (i1 & i2 & -> & -> & SS).
  { destruct HP as [HS|HA].
    - eapply (shape_straight f x x'); eauto.
    - apply agree_f_path in HA; [|auto]. pose proof HT as HTr. pose proof HT2 as HTr2.
      rewrite fn_tape_resolve in HTr, HTr2. rewrite <- HA in HTr2.
      eapply (shape_straight (resolve_f Fo f x) x x'); eauto. apply resolve_f_straight. }
  pose proof (fn_tape_stored Fo f x' w2 _ _ HT2) as V2.
  destruct (fn_tape_wf Fo f x w _ _ HT) as (R1 & _ & N1).
  assert (wf_tape (tape_of i1)) as W1 by apply R1.
  apply (shape_values i1 i2) in V2; auto.
  destruct (zero_sweep_values Fo (tape_of i1) x' W1) as (t3 & E3 & A1 & A2 & A3 & V3).
  { congruence. }
  rewrite E3. f_equal. pose proof (values_at_unique Fo _ x' _ _ W1 V2 V3) as EV.
  destruct t3; cbn in *. destruct SS. unfold tape_of. f_equal; congruence.
Qed.

End Shape.
