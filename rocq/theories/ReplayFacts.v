(** Consequences of the main simulation for [Function::tape]: replay, stored values, forward
    sweeps, independence of the surrounding world. *)
From Coq Require Import List Arith ZArith Bool Lia Sorted.
From Verif Require Import Base Float Operation Tape AContext Methods Function Spec Param
  TapeFacts AContextFacts Instances FunctionFacts RecordFacts.
Import ListNotations.

Section Replay.
Context {F : Type} (Fo : Fops F).

(** ** The tracked evaluation is evaluation on (value, tangent) pairs *)
Lemma sim_kd_fop (u : unit) oc x1 y1 x2 y2 :
  arity_ok oc y1 -> fst x1 = x2 -> orel (fun (a : (F * F) * bool) b => fst a = b) y1 y2 ->
  simM true (fun _ _ => True) (fun (_ : unit) (_ : Prop) (_ : unit) => True)
       (fun _ (a : (F * F) * bool) b => fst a = b) u
       (k_fop Fo oc x1 y1) (d_fop Fo oc x2 y2).
Proof.
  intros Ha <- Hy s1 [] _.
  assert (option_map fst y1 = y2) as <-
    by (destruct y1, y2; cbn in *; try contradiction; congruence).
  unfold k_fop. destruct (d_fop Fo oc (fst x1) (option_map fst y1) tt) as [[r []]|]; auto.
  exists r, tt, tt. auto.
Qed.

Lemma k_eval_d f x dx :
  match k_eval Fo f x dx with
  | Ok (ys, P) => d_eval Fo f (combine x dx) = Ok (map fst ys)
  | Panic p => d_eval Fo f (combine x dx) = Panic p
  end.
Proof.
  assert (H : simM true (fun _ _ => True) (fun (_ : unit) (_ : Prop) (_ : unit) => True)
       (RVs (fun _ (a : (F * F) * bool) b => fst a = b)) tt
       (feval Fo (k_fop Fo) (k_cst Fo) (fun r => fst (fst r)) f
          (map (fun xd => (xd, false)) (combine x dx)))
       (feval Fo (d_fop Fo) (d_cst Fo) fst f (combine x dx))).
  { apply sim_feval; auto.
    - apply sim_kd_fop.
    - left. intros ? ? ? <-; auto.
    - induction (combine x dx); constructor; auto. }
  specialize (H True tt I). unfold k_eval, d_eval.
  destruct (feval Fo (k_fop Fo) _ _ f _ True) as [[ys P]|p].
  - destruct H as (ys2 & [] & [] & -> & _ & _ & HR). cbn. f_equal.
    induction HR; cbn; congruence.
  - rewrite (H eq_refl). auto.
Qed.

Lemma map_fst_combine (x dx : list F) : length dx = length x -> map fst (combine x dx) = x.
Proof.
  revert dx; induction x; intros [|d dx]; cbn; intros H; try discriminate; auto.
  f_equal. auto.
Qed.

Lemma map_snd_combine (x dx : list F) : length dx = length x -> map snd (combine x dx) = dx.
Proof.
  revert dx; induction x; intros [|d dx]; cbn; intros H; try discriminate; auto.
  f_equal. auto.
Qed.

Lemma k_eval_v f x dx : length dx = length x ->
  match k_eval Fo f x dx with
  | Ok (ys, P) => v_eval Fo f x = Ok (k_vals ys)
  | Panic p => v_eval Fo f x = Panic p
  end.
Proof.
  intros L. pose proof (k_eval_d f x dx) as H.
  assert (v_eval Fo f x = (y <- d_eval Fo f (combine x dx) ;; Ok (map fst y))) as ->.
  { rewrite <- d_eval_values, map_fst_combine; auto. }
  destruct (k_eval Fo f x dx) as [[ys P]|p]; rewrite H; cbn; auto.
  rewrite map_map; auto.
Qed.

(** ** [fn_tape] records the path taken at [x] *)
Lemma mk_inputs_vals c s x : map af_v (mk_inputs Fo c s x) = x.
Proof.
  unfold mk_inputs. rewrite map_map; cbn. revert s; induction x; intros s; cbn; auto.
  f_equal; auto.
Qed.

Lemma fn_tape_resolve f x w : fn_tape Fo f x w = fn_tape Fo (resolve_f Fo f x) x w.
Proof.
  unfold fn_tape, mbind, ctx_new. cbn.
  set (w0 := mkWorld _ _).
  destruct (set_indeps_spec Fo (w_next w) x w0 (mkInner [] [] [] [])) as (w1 & E1 & _).
  { cbn. rewrite Nat.eqb_refl; auto. }
  rewrite E1. rewrite eval_resolve. rewrite mk_inputs_vals. auto.
Qed.

(** Recording succeeds exactly when evaluation does, with the same panic otherwise. *)
Theorem fn_tape_total f x w :
  match v_eval Fo f x with
  | Ok _ => exists t w', fn_tape Fo f x w = Ok (t, w')
  | Panic p => fn_tape Fo f x w = Panic p
  end.
Proof.
  rewrite v_eval_resolve, fn_tape_resolve.
  pose proof (resolve_f_straight Fo f x) as HS.
  generalize dependent (resolve_f Fo f x). clear f. intros f HS.
  unfold fn_tape, mbind, ctx_new. cbn.
  set (w0 := mkWorld _ _).
  destruct (set_indeps_spec Fo (w_next w) x w0 (mkInner [] [] [] [])) as (w1 & E1 & Ch).
  { cbn. rewrite Nat.eqb_refl; auto. }
  rewrite E1. cbn in Ch. cbn [i_vals length].
  assert (Hin : w_ctx w1 (w_next w) = Some (i_in x)) by apply Ch.
  pose proof (record_sim Fo f x (w_next w) w1 x x HS eq_refl eq_refl Hin) as H.
  pose proof (k_eval_v f x x eq_refl) as K.
  destruct (eval Fo f (mk_inputs Fo (w_next w) 0 x) w1) as [[outs w2]|p].
  - destruct H as (ys & P & i & Ek & Hc & R & X & HR). rewrite Ek in K. rewrite K.
    destruct (set_dep_slice_spec Fo x x (w_next w) P outs ys w2 i HR Hc R)
      as (w3 & i3 & ds & E & Ch3 & _).
    rewrite E. unfold ctx_tape, with_ctx.
    assert (w_ctx w3 (w_next w) = Some i3) as -> by apply Ch3. cbn.
    eexists _, _; reflexivity.
  - rewrite H in K. rewrite K. auto.
Qed.

(** ** Replay *)
Theorem replay_path f x w t w' x' :
  fn_tape Fo f x w = Ok (t, w') -> length x' = length x ->
  exists t' y', tape_zero_order Fo t x' = Ok t' /\ tape_y t' = Ok y' /\
    v_eval Fo (resolve_f Fo f x) x' = Ok y'.
Proof.
  intros HT L. rewrite fn_tape_resolve in HT.
  destruct (record_main Fo _ x w t w' (resolve_f_straight Fo f x) HT) as (_ & _ & _ & H).
  destruct (H x' x' L L) as (ys & P & t' & Ek & _ & Ez & Ey & _).
  exists t', (k_vals ys). split; [auto|]. split; [auto|].
  pose proof (k_eval_v (resolve_f Fo f x) x' x' eq_refl) as K. rewrite Ek in K. auto.
Qed.

Theorem replay_same_path f x w t w' x' :
  fn_tape Fo f x w = Ok (t, w') -> length x' = length x -> same_path Fo f x x' ->
  exists t' y', tape_zero_order Fo t x' = Ok t' /\ tape_y t' = Ok y' /\ v_eval Fo f x' = Ok y'.
Proof.
  intros HT L HP. destruct (replay_path f x w t w' x' HT L) as (t' & y' & A & B & C).
  exists t', y'. split; [auto|]. split; [auto|]. rewrite v_eval_resolve, <- HP. auto.
Qed.

Theorem replay_straight f x w t w' x' :
  fn_tape Fo f x w = Ok (t, w') -> length x' = length x -> straight_f f ->
  exists t' y', tape_zero_order Fo t x' = Ok t' /\ tape_y t' = Ok y' /\ v_eval Fo f x' = Ok y'.
Proof.
  intros HT L HS. destruct (replay_path f x w t w' x' HT L) as (t' & y' & A & B & C).
  exists t', y'. split; [auto|]. split; [auto|]. rewrite resolve_f_id in C; auto.
  intros r Hr. pose proof (fn_tape_total f x w) as T. rewrite Hr in T. congruence.
Qed.

(** ** Stored values *)
Definition consistent (i : inner F) : Prop :=
  forall o, In o (i_ops i) -> value_eq Fo (i_vals i) o.

Lemma nth_error_app_some {A} (l m : list A) k a :
  nth_error l k = Some a -> nth_error (l ++ m) k = Some a.
Proof. intros H. rewrite nth_error_app1; auto. apply nth_error_Some; congruence. Qed.

Lemma value_eq_app arr l o : value_eq Fo arr o -> value_eq Fo (arr ++ l) o.
Proof.
  unfold value_eq. destruct (opcode o); auto;
    intros (i & a & r & A & B & C & D); exists i, a, r;
    (split; [auto|]; split; [apply nth_error_app_some; auto|];
     split; [apply nth_error_app_some; auto|]);
    (destruct (arg2 o); [destruct D as (b & D1 & D2); exists b; split; auto;
       apply nth_error_app_some; auto | auto]).
Qed.

Lemma consistent_push_const i a : consistent i -> consistent (push_op i Const None None a).
Proof.
  intros C o Ho. cbn in *. apply in_app_or in Ho as [Ho|[<-|[]]].
  - apply value_eq_app; auto.
  - exact I.
Qed.

Lemma consistent_push_op i oc v1 v2 a1 a2 r :
  consistent i -> nth_error (i_vals i) v1 = Some a1 ->
  match v2 with Some k => nth_error (i_vals i) k = a2 /\ a2 <> None | None => a2 = None end ->
  zero_order_value Fo oc a1 a2 = Ok r ->
  consistent (push_op i oc (Some v1) v2 r).
Proof.
  intros C H1 H2 Hz o Ho. cbn in *. apply in_app_or in Ho as [Ho|[<-|[]]].
  { apply value_eq_app; auto. }
  unfold value_eq; cbn.
  assert (exists (i0 : nat) (a r0 : F),
    Some v1 = Some i0 /\ nth_error (i_vals i ++ [r]) i0 = Some a /\
    nth_error (i_vals i ++ [r]) (length (i_vals i)) = Some r0 /\
    match v2 with
    | Some j => exists b, nth_error (i_vals i ++ [r]) j = Some b /\
         zero_order_value Fo oc a (Some b) = Ok r0
    | None => zero_order_value Fo oc a None = Ok r0 end) as G.
  { exists v1, a1, r. split; [auto|]. split; [apply nth_error_app_some; auto|].
    split; [rewrite nth_error_app2, Nat.sub_diag; auto|].
    destruct v2 as [k|]; [|congruence]. destruct H2 as [E N]. destruct a2 as [b|]; [|congruence].
    exists b. split; auto. apply nth_error_app_some; auto. }
  destruct oc; auto.
Qed.

Lemma operand_consistent i x k i' :
  consistent i -> operand Some i x k i' ->
  (forall c' k', af_ctx x = Some (c', k') -> nth_error (i_vals i) k' = Some (af_v x)) ->
  consistent i' /\ nth_error (i_vals i') k = Some (af_v x).
Proof.
  intros C O V. unfold operand in O. destruct (af_ctx x) as [[c' k']|].
  - destruct O as [-> ->]. split; auto. eapply V; eauto.
  - destruct O as (fv & [= <-] & -> & ->). split; [apply consistent_push_const; auto|].
    cbn. rewrite nth_error_app2, Nat.sub_diag; auto.
Qed.

(** The equations of all operations hold after recording one more. *)
Lemma record_consistent oc (x : AF F) y i i1 i2 v1 v2 r :
  consistent i -> operand Some i x v1 i1 -> operand2 Some i1 y v2 i2 ->
  (forall c' k', af_ctx x = Some (c', k') -> nth_error (i_vals i) k' = Some (af_v x)) ->
  (forall y' c' k', y = Some y' -> af_ctx y' = Some (c', k') ->
      nth_error (i_vals i) k' = Some (af_v y')) ->
  zero_order_value Fo oc (af_v x) (option_map af_v y) = Ok r ->
  consistent (push_op i2 oc (Some v1) v2 r).
Proof.
  intros C O1 O2 V1 V2 Hz.
  destruct (operand_consistent _ _ _ _ C O1 V1) as [C1 N1].
  pose proof (operand_ext Some _ _ _ _ O1) as X1.
  destruct y as [y|], v2 as [k2|]; cbn in O2; try contradiction.
  - destruct (operand_consistent _ _ _ _ C1 O2) as [C2 N2].
    { intros c' k' E. eapply ext_val; eauto. }
    pose proof (operand_ext Some _ _ _ _ O2) as X2.
    eapply consistent_push_op; eauto.
    + eapply ext_val; eauto.
    + cbn. split; [exact N2|]. discriminate.
  - subst i2. eapply consistent_push_op; eauto.
Qed.

Section Local.
Context (c : nat).
Definition RVc (i : inner F) (x y : AF F) : Prop :=
  x = y /\ match af_ctx x with
           | None => True
           | Some (c', k) => c' = c /\ nth_error (i_vals i) k = Some (af_v x)
           end.
Definition RSc (i : inner F) (s1 s2 : world F) : Prop :=
  s1 = s2 /\ w_ctx s1 c = Some i /\ consistent i.

Lemma sim_c_fop i oc x1 y1 x2 y2 :
  arity_ok oc y1 -> RVc i x1 x2 -> orel (RVc i) y1 y2 ->
  simM true ext RSc RVc i (from_op Fo Some oc x1 y1) (from_op Fo Some oc x2 y2).
Proof.
  intros Ha [<- Vx] Hy s1 s2 (<- & Hc & C).
  assert (y1 = y2 /\ forall y', y1 = Some y' -> RVc i y' y') as [<- Vy].
  { destruct y1, y2; cbn in Hy; try contradiction.
    - destruct Hy as [<- V]. split; auto. intros y' [= <-]; split; auto.
    - split; auto; discriminate. }
  destruct (from_op Fo Some oc x1 y1 s1) as [[r w']|p] eqn:E; auto.
  exists r, w'.
  apply from_op_spec in E as (Hz & Hf & D).
  destruct D as [-> Er _ | c0 i0 i1 i2 v1 v2 fv Ep Ec O1 O2 Et Er Ch].
  - exists i. split; [auto|]. split; [apply ext_refl|]. split; [split; auto|].
    split; auto. rewrite Er; auto.
  - assert (c0 = c).
    { destruct (pick_cid_some _ _ _ Ep) as (_ & _ & k & [E1|(y' & -> & E1)]).
      - rewrite E1 in Vx. tauto.
      - destruct (Vy y' eq_refl) as [_ V]. rewrite E1 in V. tauto. }
    subst c0. assert (i0 = i) by congruence. subst i0. injection Et as <-.
    exists (push_op i2 oc (Some v1) v2 (af_v r)). split; [auto|].
    split.
    { eapply ext_trans; [eapply (operand_ext Some); eauto|].
      eapply ext_trans; [|apply ext_push_op].
      destruct y1 as [y|], v2 as [k2|]; cbn in O2; try contradiction;
        [eapply (operand_ext Some); eauto|subst; apply ext_refl]. }
    split.
    { split; [auto|]. split; [apply Ch|].
      eapply record_consistent; eauto.
      - intros c' k' E1. rewrite E1 in Vx. tauto.
      - intros y' c' k' E0 E1. destruct (Vy y' E0) as [_ V]. rewrite E1 in V. tauto. }
    split; [auto|]. rewrite Er. split; auto. cbn.
    rewrite nth_error_app2, Nat.sub_diag; auto.
Qed.

Lemma inputs_c x : Forall2 (RVc (i_in x)) (mk_inputs Fo c 0 x) (mk_inputs Fo c 0 x).
Proof.
  assert (forall s y, (forall k a, nth_error y k = Some a -> nth_error x (s + k) = Some a) ->
    Forall2 (RVc (i_in x)) (mk_inputs Fo c s y) (mk_inputs Fo c s y)) as H.
  { intros s y; revert s; induction y as [|a y IH]; intros s H; cbn; constructor.
    - split; auto. cbn. split; auto. specialize (H 0 a eq_refl). rewrite Nat.add_0_r in H; auto.
    - apply IH. intros k b Hk. rewrite <- (H (S k) b Hk). f_equal. lia. }
  apply H. auto.
Qed.

Lemma set_dep_slice_c outs : forall w i,
  Forall2 (RVc i) outs outs -> w_ctx w c = Some i -> consistent i ->
  exists w' i' ds, set_dep_slice Some c outs w = Ok (tt, w') /\ w_ctx w' c = Some i' /\
    consistent i' /\ ext i i' /\ i_deps i' = i_deps i ++ ds /\
    Forall2 (fun o d => nth_error (i_vals i') d = Some (af_v o)) outs ds.
Proof.
  induction outs as [|o outs IH]; intros w i HR Hc C; cbn [set_dep_slice].
  - exists w, i, []. split; [reflexivity|]. split; [auto|]. split; [auto|].
    split; [apply ext_refl|]. split; [rewrite app_nil_r; auto|constructor].
  - inversion HR as [|? ? ? ? Ho HR']; subst. unfold mbind.
    assert (exists w1 i1 d, set_dep Some c o w = Ok (tt, w1) /\ w_ctx w1 c = Some i1 /\
      consistent i1 /\ ext i i1 /\ i_deps i1 = i_deps i ++ [d] /\
      nth_error (i_vals i1) d = Some (af_v o)) as (w1 & i1 & d & E & E1 & C1 & X1 & D1 & V1).
    { unfold set_dep, with_ctx. rewrite Hc. destruct Ho as [_ Ho].
      destruct (af_ctx o) as [[c' k]|].
      - destruct Ho as [-> Ho]. rewrite Nat.eqb_refl. cbn.
        eexists _, (push_dep i k), k. split; [reflexivity|]. cbn. rewrite Nat.eqb_refl.
        split; [auto|]. split; [exact C|]. split; [apply ext_push_dep|]. auto.
      - cbn. eexists _, (push_dep (push_op i Const None None (af_v o)) (length (i_vals i))),
               (length (i_vals i)).
        split; [reflexivity|]. cbn. rewrite Nat.eqb_refl. split; [auto|].
        split; [apply (consistent_push_const i (af_v o) C)|].
        split; [eapply ext_trans; [apply ext_push_op|apply ext_push_dep]|].
        split; [auto|]. rewrite nth_error_app2, Nat.sub_diag; auto. }
    rewrite E.
    destruct (IH w1 i1) as (w2 & i2 & ds & E2 & H2 & C2 & X2 & D2 & V2); auto.
    { eapply Forall2_impl; [|exact HR']. intros a b [-> H]; split; auto.
      destruct (af_ctx b) as [[? ?]|]; auto. destruct H as [-> H]; split; auto.
      eapply ext_val; eauto. }
    rewrite E2. exists w2, i2, (d :: ds). split; [reflexivity|]. split; [auto|]. split; [auto|].
    split; [eapply ext_trans; eauto|]. split; [rewrite D2, D1, <- app_assoc; auto|].
    constructor; auto. eapply ext_val; eauto.
Qed.
End Local.

Lemma RVc_mono c i i' x y : ext i i' -> RVc c i x y -> RVc c i' x y.
Proof.
  intros E [-> H]. split; auto. destruct (af_ctx y) as [[? ?]|]; auto.
  destruct H as [-> H]; split; auto. eapply ext_val; eauto.
Qed.

(** Every equation holds for the values stored while recording. *)
Theorem fn_tape_stored f x w t w' :
  fn_tape Fo f x w = Ok (t, w') -> values_at Fo t x (t_vals t).
Proof.
  intros HT.
  assert (Hm := HT). rewrite fn_tape_resolve in Hm.
  apply (record_main Fo _ x w t w' (resolve_f_straight Fo f x)) in Hm.
  destruct Hm as (R & HI & HV & _).
  apply fn_tape_inv in HT.
  destruct HT as (w1 & w2 & w3 & outs & i & Ch & E1 & E2 & E3 & -> & _).
  set (c := w_next w) in *.
  assert (Hin : w_ctx w1 c = Some (i_in x)) by apply Ch.
  assert (H : simM true ext (RSc c) (RVs (RVc c)) (i_in x)
     (eval Fo f (mk_inputs Fo c 0 x)) (eval Fo f (mk_inputs Fo c 0 x))).
  { apply sim_feval.
    - apply ext_refl.
    - apply ext_trans.
    - apply RVc_mono.
    - apply sim_c_fop.
    - intros w0 v; split; cbn; auto.
    - left. intros ? ? ? [-> _]; auto.
    - apply inputs_c. }
  specialize (H w1 w1). rewrite E1 in H.
  destruct H as (outs2 & s2 & i2 & E & X & (_ & Hc2 & C2) & HR).
  { split; [auto|]. split; [auto|]. intros o []. }
  assert (outs2 = outs) by congruence. subst outs2.
  destruct (set_dep_slice_c c outs w2 i2 HR Hc2 C2) as (w3' & i' & ds & E2' & H3 & C3 & X3 & _).
  assert (w3' = w3) by congruence. subst w3'. assert (i' = i) by congruence. subst i'.
  constructor; cbn; auto.
  intros k j Hk. cbn in HI, HV. rewrite HI in Hk.
  assert (k < length x) as Lk.
  { rewrite <- (seq_length (length x) 0). apply nth_error_Some; congruence. }
  assert (j = k).
  { rewrite (nth_error_nth' _ 0) in Hk by (rewrite seq_length; auto).
    rewrite seq_nth in Hk by auto. cbn in Hk. congruence. }
  subst j. destruct (nth_error x k) as [a|] eqn:Ea; [|apply nth_error_None in Ea; lia].
  exists a. split; auto. rewrite <- HV in Ea.
  assert (forall n (l : list F) k a, nth_error (firstn n l) k = Some a -> nth_error l k = Some a)
    as G.
  { clear. induction n; intros [|b l] [|k] a; cbn; try discriminate; auto. }
  eapply G; eauto.
Qed.

Lemma values_at_replay t x :
  wf_tape t -> length x = num_indeps t -> values_at Fo t x (t_vals t) ->
  tape_zero_order Fo t x = Ok t.
Proof.
  intros W L V. destruct (zero_sweep_values Fo t x W L) as (t' & E & A1 & A2 & A3 & V').
  rewrite E. f_equal. pose proof (values_at_unique Fo t x _ _ W V V').
  destruct t, t'; cbn in *; congruence.
Qed.

Lemma fn_tape_wf f x w t w' :
  fn_tape Fo f x w = Ok (t, w') ->
  recorded_tape t /\ t_indeps t = seq 0 (length x) /\ num_indeps t = length x.
Proof.
  intros HT. rewrite fn_tape_resolve in HT.
  apply (record_main Fo _ x w t w' (resolve_f_straight Fo f x)) in HT.
  destruct HT as (R & HI & _). unfold num_indeps. rewrite HI, seq_length. auto.
Qed.

Lemma gather_seeded ids (x arr : list F) :
  length x = length ids -> seeded ids x arr -> gather ids arr = Ok x.
Proof.
  intros L HS. apply gather_from_nth; auto.
Qed.

Theorem fn_tape_fresh f x w t w' :
  fn_tape Fo f x w = Ok (t, w') ->
  tape_x t = Ok x /\
  (exists y, v_eval Fo f x = Ok y /\ tape_y t = Ok y /\ num_deps t = length y) /\
  num_indeps t = length x /\ tape_zero_order Fo t x = Ok t.
Proof.
  intros HT. pose proof (fn_tape_stored _ _ _ _ _ HT) as V.
  destruct (fn_tape_wf _ _ _ _ _ HT) as (R & HI & HN).
  assert (tape_zero_order Fo t x = Ok t) as Z.
  { apply values_at_replay; auto. apply R. }
  split.
  { unfold tape_x. apply gather_seeded; [rewrite HI, seq_length; auto|apply V]. }
  split; [|auto].
  destruct (replay_path f x w t w' x HT eq_refl) as (t' & y & A & B & C).
  assert (t' = t) by congruence. subst t'. exists y.
  rewrite v_eval_resolve. split; [auto|]. split; [auto|].
  unfold num_deps. symmetry. eapply gather_length; eauto.
Qed.

Theorem forward_tapeless f x w t w' dx :
  fn_tape Fo f x w = Ok (t, w') -> length dx = length x -> const_tangents_zero Fo f x dx ->
  exists yd, d_eval Fo f (combine x dx) = Ok yd /\ tape_forward Fo t dx = Ok (map snd yd).
Proof.
  intros HT L HP.
  destruct (fn_tape_fresh _ _ _ _ _ HT) as (_ & _ & _ & Z).
  assert (Hm := HT). rewrite fn_tape_resolve in Hm.
  apply (record_main Fo _ x w t w' (resolve_f_straight Fo f x)) in Hm.
  destruct Hm as (_ & _ & _ & H).
  destruct (H x dx eq_refl L) as (ys & P & t' & Ek & _ & Ez & _ & Ef).
  assert (t' = t) by congruence. subst t'.
  assert (k_eval Fo f x dx = Ok (ys, P)) as Ek'.
  { unfold k_eval in *. rewrite (feval_resolve Fo (k_fop Fo) (k_cst Fo)); auto.
    - rewrite map_map. replace (map _ (combine x dx)) with x; auto.
      symmetry. apply (map_fst_combine x dx L).
    - intros oc a y s r s' _. unfold k_fop, d_fop, mbind, mlift.
      destruct (zero_order_value _ _ _ _) as [v|] eqn:Ev; [|discriminate].
      destruct (first_order_value _ _ _ _ _ _) as [d|]; [|discriminate].
      cbn. intros [= <- _]. cbn. rewrite <- Ev. f_equal. destruct y; auto. }
  pose proof (k_eval_d f x dx) as D. rewrite Ek' in D.
  exists (map fst ys). split; auto.
  rewrite (Ef (HP _ _ Ek')). unfold k_tans. rewrite map_map; auto.
Qed.

(** ** Replays carry no history *)
Lemma values_at_keep (t : tape F) arr x arr' :
  length arr = length (t_vals t) ->
  (forall k, k < length (t_vals t) -> ~ In k (t_indeps t) ->
    (forall o, In o (t_ops t) -> vid o = k -> opcode o = Const \/ opcode o = Nop) ->
    nth_error arr k = nth_error (t_vals t) k) ->
  values_at Fo (mkTape (t_indeps t) (t_deps t) (t_ops t) arr) x arr' <-> values_at Fo t x arr'.
Proof.
  intros L K. split; intros [V1 V2 V3 V4]; constructor; cbn in *; auto; try congruence.
  - intros k Hk H1 H2. rewrite V4; auto. congruence.
  - intros k Hk H1 H2. rewrite V4; auto; [symmetry; apply K; auto|]; congruence.
Qed.

Theorem replay_no_history t x1 x2 t1 :
  wf_tape t -> tape_zero_order Fo t x1 = Ok t1 -> length x2 = num_indeps t ->
  tape_zero_order Fo t1 x2 = tape_zero_order Fo t x2.
Proof.
  intros W E1 L2.
  assert (length x1 = num_indeps t) as L1.
  { unfold tape_zero_order, assert in E1. destruct (Nat.eqb_spec (length x1) (num_indeps t)); auto.
    discriminate. }
  destruct (zero_sweep_values Fo t x1 W L1) as (t1' & E1' & A1 & A2 & A3 & V1).
  assert (t1' = t1) by congruence. subst t1'.
  assert (t1 = mkTape (t_indeps t) (t_deps t) (t_ops t) (t_vals t1)) as Et.
  { destruct t1; cbn in *; congruence. }
  assert (wf_tape t1) as W1.
  { rewrite Et. apply wf_tape_vals; auto. apply V1. }
  destruct (zero_sweep_values Fo t x2 W L2) as (ta & Ea & B1 & B2 & B3 & Va).
  destruct (zero_sweep_values Fo t1 x2 W1) as (tb & Eb & C1 & C2 & C3 & Vb).
  { unfold num_indeps. rewrite A1. auto. }
  rewrite Ea, Eb. f_equal.
  rewrite Et in Vb. apply values_at_keep in Vb; [|apply V1|apply V1].
  pose proof (values_at_unique Fo t x2 _ _ W Va Vb).
  destruct ta, tb; cbn in *; congruence.
Qed.

(** ** [fn_tape] does not depend on, and leaves no trace in, the rest of the world *)
Section Iso.
Context (c1 c2 : nat).
Definition RViso (_ : inner F) (x y : AF F) : Prop :=
  af_v x = af_v y /\ af_dv x = af_dv y /\
  match af_ctx x, af_ctx y with
  | None, None => True
  | Some (a, k), Some (b, k') => a = c1 /\ b = c2 /\ k = k'
  | _, _ => False
  end.
Definition RSiso (i : inner F) (s1 s2 : world F) : Prop :=
  w_ctx s1 c1 = Some i /\ w_ctx s2 c2 = Some i.

Lemma with_ctx_eq {A : Type} c (g : inner F -> res (A * inner F)) w i :
  w_ctx w c = Some i ->
  with_ctx c g w = match g i with Ok (a, i') => Ok (a, upd_ctx w c (Some i')) | Panic p => Panic p end.
Proof. intros H. unfold with_ctx. rewrite H. auto. Qed.

Lemma iso_ensure i x y s1 s2 :
  RViso i x y -> RSiso i s1 s2 ->
  match ensure_id Some c1 x s1 with
  | Ok (k, s1') => exists s2' i', ensure_id Some c2 y s2 = Ok (k, s2') /\ RSiso i' s1' s2'
  | Panic p => ensure_id Some c2 y s2 = Panic p
  end.
Proof.
  intros (V & D & C) (H1 & H2). unfold ensure_id.
  destruct (af_ctx x) as [[a k]|], (af_ctx y) as [[b k']|]; try contradiction.
  - destruct C as (_ & _ & ->). exists s2, i. repeat split; auto.
  - unfold record. rewrite (with_ctx_eq c1 _ s1 i H1), (with_ctx_eq c2 _ s2 i H2). cbn.
    rewrite <- V. eexists _, _. split; [reflexivity|]. split; cbn; rewrite Nat.eqb_refl; auto.
Qed.

Lemma sim_iso_fop i oc x1 y1 x2 y2 :
  arity_ok oc y1 -> RViso i x1 x2 -> orel (RViso i) y1 y2 ->
  simM true (fun _ _ => True) RSiso RViso i (from_op Fo Some oc x1 y1) (from_op Fo Some oc x2 y2).
Proof.
  intros Ha Hx Hy s1 s2 (H1 & H2). unfold from_op, mbind, mlift.
  destruct Hx as (V & D & C).
  assert (option_map af_v y1 = option_map af_v y2 /\ option_map af_dv y1 = option_map af_dv y2)
    as [V2 D2].
  { destruct y1, y2; cbn in Hy; try contradiction; cbn; auto.
    destruct Hy as (A & B & _). rewrite A, B; auto. }
  rewrite <- V, <- D, <- V2, <- D2.
  destruct (zero_order_value _ _ _ _) as [v|]; auto.
  destruct (first_order_value _ _ _ _ _ _) as [d|]; auto.
  assert ((pick_cid x1 y1 = Ok None /\ pick_cid x2 y2 = Ok None) \/
          (pick_cid x1 y1 = Ok (Some c1) /\ pick_cid x2 y2 = Ok (Some c2))) as Hp.
  { unfold pick_cid. destruct (af_ctx x1) as [[a k]|], (af_ctx x2) as [[b k']|];
      try contradiction.
    - destruct C as (-> & -> & ->).
      destruct y1 as [y1|], y2 as [y2|]; cbn in Hy; try contradiction; auto.
      destruct Hy as (_ & _ & Hy).
      destruct (af_ctx y1) as [[a1 k1]|], (af_ctx y2) as [[b1 k1']|]; try contradiction; auto.
      destruct Hy as (-> & -> & _). rewrite !Nat.eqb_refl. auto.
    - destruct y1 as [y1|], y2 as [y2|]; cbn in Hy; try contradiction; auto.
      destruct Hy as (_ & _ & Hy).
      destruct (af_ctx y1) as [[a1 k1]|], (af_ctx y2) as [[b1 k1']|]; try contradiction; auto.
      destruct Hy as (-> & -> & _). auto. }
  destruct Hp as [[-> ->]|[-> ->]].
  { eexists _, _, i. split; [reflexivity|]. split; [auto|]. split; [split; auto|].
    split; [|split]; cbn; auto. }
  unfold from_cid. rewrite H1, H2.
  pose proof (iso_ensure i x1 x2 s1 s2 (conj V (conj D C)) (conj H1 H2)) as E1.
  destruct (ensure_id Some c1 x1 s1) as [[k s1']|p]; [|rewrite E1; auto].
  destruct E1 as (s2' & i' & -> & HS).
  destruct y1 as [y1|], y2 as [y2|]; cbn in Hy; try contradiction; cbn.
  - pose proof (iso_ensure i' y1 y2 s1' s2' Hy HS) as E2.
    destruct (ensure_id Some c1 y1 s1') as [[k2 s1'']|p]; [|rewrite E2; auto].
    destruct E2 as (s2'' & i'' & -> & [G1 G2]). cbn.
    unfold record. rewrite (with_ctx_eq c1 _ _ i'' G1), (with_ctx_eq c2 _ _ i'' G2). cbn.
    eexists _, _, _. split; [reflexivity|]. split; [auto|].
    split; [split; cbn; rewrite Nat.eqb_refl; reflexivity|]. split; [|split]; cbn; auto.
  - destruct HS as [G1 G2].
    unfold record. rewrite (with_ctx_eq c1 _ _ i' G1), (with_ctx_eq c2 _ _ i' G2). cbn.
    eexists _, _, _. split; [reflexivity|]. split; [auto|].
    split; [split; cbn; rewrite Nat.eqb_refl; reflexivity|]. split; [|split]; cbn; auto.
Qed.

Lemma iso_set_dep_slice outs1 outs2 : forall i s1 s2,
  Forall2 (RViso i) outs1 outs2 -> RSiso i s1 s2 ->
  match set_dep_slice Some c1 outs1 s1 with
  | Ok (_, s1') => exists s2' i', set_dep_slice Some c2 outs2 s2 = Ok (tt, s2') /\ RSiso i' s1' s2'
  | Panic p => set_dep_slice Some c2 outs2 s2 = Panic p
  end.
Proof.
  intros i s1 s2 H; revert i s1 s2 H. 
  assert (G : forall outs1 outs2, Forall2 (RViso (mkInner [] [] [] [])) outs1 outs2 -> forall i s1 s2, RSiso i s1 s2 ->
  match set_dep_slice Some c1 outs1 s1 with
  | Ok (_, s1') => exists s2' i', set_dep_slice Some c2 outs2 s2 = Ok (tt, s2') /\ RSiso i' s1' s2'
  | Panic p => set_dep_slice Some c2 outs2 s2 = Panic p
  end).
  2:{ intros i s1 s2 H HS. eapply G; eauto. }
  clear. induction 1 as [|a b l1 l2 (V & D & C) HF IH]; intros i s1 s2 [H1 H2]; cbn [set_dep_slice].
  - exists s2, i. repeat split; auto.
  - unfold mbind. unfold set_dep.
    rewrite (with_ctx_eq c1 _ s1 i H1), (with_ctx_eq c2 _ s2 i H2).
    destruct (af_ctx a) as [[a1 k]|], (af_ctx b) as [[b1 k']|]; try contradiction.
    + destruct C as (-> & -> & ->). rewrite !Nat.eqb_refl. cbn.
      eapply IH. split; cbn; rewrite Nat.eqb_refl; reflexivity.
    + cbn. rewrite <- V. eapply IH. split; cbn; rewrite Nat.eqb_refl; reflexivity.
Qed.
End Iso.

Lemma inputs_iso c1 c2 i s x :
  Forall2 (RViso c1 c2 i) (mk_inputs Fo c1 s x) (mk_inputs Fo c2 s x).
Proof.
  revert s; induction x as [|a x IH]; intros s; cbn; constructor; [|apply IH].
  split; [|split]; cbn; auto.
Qed.

Theorem fn_tape_world f x w1 w2 :
  match fn_tape Fo f x w1 with
  | Ok (t, _) => exists w2', fn_tape Fo f x w2 = Ok (t, w2')
  | Panic p => fn_tape Fo f x w2 = Panic p
  end.
Proof.
  unfold fn_tape, mbind, ctx_new. cbn.
  set (u1 := mkWorld (w_next w1 + 1) _). set (u2 := mkWorld (w_next w2 + 1) _).
  destruct (set_indeps_spec Fo (w_next w1) x u1 (mkInner [] [] [] [])) as (v1 & E1 & Ch1).
  { cbn. rewrite Nat.eqb_refl; auto. }
  destruct (set_indeps_spec Fo (w_next w2) x u2 (mkInner [] [] [] [])) as (v2 & E2 & Ch2).
  { cbn. rewrite Nat.eqb_refl; auto. }
  rewrite E1, E2. cbn [i_vals length]. cbn in Ch1, Ch2.
  assert (H : simM true (fun _ _ => True) (RSiso (w_next w1) (w_next w2))
     (RVs (RViso (w_next w1) (w_next w2))) (i_in x)
     (eval Fo f (mk_inputs Fo (w_next w1) 0 x)) (eval Fo f (mk_inputs Fo (w_next w2) 0 x))).
  { apply sim_feval; auto.
    - apply sim_iso_fop.
    - intros w0 v. split; [|split]; cbn; auto.
    - left. intros ? ? ? [-> _]; auto.
    - apply inputs_iso. }
  specialize (H v1 v2). 
  destruct (eval Fo f (mk_inputs Fo (w_next w1) 0 x) v1) as [[outs s1]|p].
  - destruct H as (outs2 & s2 & i & -> & _ & HS & HR).
    { split; [apply Ch1|apply Ch2]. }
    pose proof (iso_set_dep_slice _ _ outs outs2 i s1 s2 HR HS) as G.
    destruct (set_dep_slice Some (w_next w1) outs s1) as [[[] s1']|p].
    + destruct G as (s2' & i' & -> & [G1 G2]).
      unfold ctx_tape. rewrite (with_ctx_eq _ _ _ _ G1), (with_ctx_eq _ _ _ _ G2). cbn.
      eexists; reflexivity.
    + rewrite G; auto.
  - rewrite H; auto. split; [apply Ch1|apply Ch2].
Qed.

End Replay.
