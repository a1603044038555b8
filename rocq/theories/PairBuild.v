(** Function bodies written with Build.v: which variables they return, and what they compute together
    with derivatives along the selected branches. *)
From Coq Require Import Reals Lra List Arith ZArith NArith Bool Lia.
From Verif Require Import Base Float Operation Tape AContext Methods Function Spec TapeFacts AContextFacts
  RealInst Param FunctionFacts RecordFacts DerivFacts AnfFacts2 StraightSpec StraightFacts StraightMain TapeShape Build BuildFacts.
Import ListNotations.
Local Open Scope R_scope.

(** ** The variables a body returns, and no direct use of abs *)
Fixpoint rets {F : Type} (p : prog F) : list nat :=
  match p with
  | Ret outs => outs
  | LetC _ p' | Let1 _ _ p' | Let2 _ _ _ p' | LetMulAdd _ _ _ p' => rets p'
  | Inspect _ _ | Abort => []
  end.
Fixpoint quiet {F : Type} (p : prog F) : Prop :=
  match p with
  | Ret _ | Abort => True
  | LetC _ p' | Let2 _ _ _ p' | LetMulAdd _ _ _ p' => quiet p'
  | Let1 u _ p' => u <> UAbs /\ quiet p'
  | Inspect _ _ => False
  end.
Lemma quiet_once {F : Type} (p : prog F) : quiet p -> NoDup (rets p) -> forall used, once_p used p.
Proof.
  induction p as [os|v p IH|u a p IH|b a1 a2 p IH|a1 a2 a3 p IH|a k IH|]; cbn; intros H ND used; auto.
  - destruct H as [Hu H]. specialize (IH H ND used). destruct u; auto. congruence.
  - contradiction.
Qed.

Section Quiet.
Context {F : Type}.
Definition b_quiet {A} (m : builder F A) : Prop :=
  forall k r, (forall a r', quiet (k a r')) -> quiet (m k r).
Lemma quiet_ret {A} (a : A) : b_quiet (b_ret a).
Proof. intros k r H. apply H. Qed.
Lemma quiet_bind {A B} (m : builder F A) (f : A -> builder F B) :
  b_quiet m -> (forall a, b_quiet (f a)) -> b_quiet (b_bind m f).
Proof. intros Hm Hf k r H. apply Hm. intros a r'. apply Hf, H. Qed.
Lemma quiet_const c : b_quiet (b_const c).
Proof. intros k r H. apply H. Qed.
Lemma quiet_bin b x y : b_quiet (b_bin b x y).
Proof. intros k r H. apply H. Qed.
Lemma quiet_abort {A} : b_quiet (@b_abort F A).
Proof. intros k r H. exact I. Qed.
Lemma quiet_get v i : b_quiet (b_get v i).
Proof. unfold b_get. destruct (nth_error v i); [apply quiet_ret|apply quiet_abort]. Qed.
Lemma quiet_set v i a : b_quiet (b_set v i a).
Proof. unfold b_set. destruct (nth_error v i); [apply quiet_ret|apply quiet_abort]. Qed.
Lemma quiet_for {A B} (f : B -> A -> builder F B) l : (forall s a, b_quiet (f s a)) ->
  forall s, b_quiet (b_for f l s).
Proof. intros Hf. induction l; intros s; cbn; [apply quiet_ret|apply quiet_bind; auto]. Qed.
Lemma quiet_body n m : (forall x, b_quiet (m x)) -> quiet (b_body n m).
Proof. intros H. apply H. intros. exact I. Qed.
End Quiet.

Ltac b_quiet := repeat match goal with
  | |- b_quiet (b_bind _ _) => apply quiet_bind; [|intro]
  | |- b_quiet (b_ret _) => apply quiet_ret
  | |- b_quiet (b_const _) => apply quiet_const
  | |- b_quiet (b_bin _ _ _) => apply quiet_bin
  | |- b_quiet (b_get _ _) => apply quiet_get
  | |- b_quiet (b_set _ _ _) => apply quiet_set
  | |- b_quiet b_abort => apply quiet_abort
  end.

(** ** What the tape's outputs are, in terms of the returned variables *)
Section Regs.
Context {F : Type} (Fo : Fops F).
Variable c : nat.

Lemma quiet_run p : forall env i w outs w', quiet p -> inv c i env [] -> w_ctx w c = Some i ->
  run Fo (from_op Fo Some) (af_const Fo) af_v p env w = Ok (outs, w') ->
  exists i' env', w_ctx w' c = Some i' /\ inv c i' env' [] /\ mapM (get env') (rets p) = Ok outs.
Proof.
  induction p as [os|v p IH|u a p IH|b a1 a2 p IH|a1 a2 a3 p IH|a k IH|]; intros env i w outs w' HO HI Hc H; cbn [run] in H.
  - unfold mlift in H. destruct (mapM (get env) os) as [l|] eqn:E; [|discriminate]. injection H as <- <-.
    exists i, env. auto.
  - eapply (IH _ i w outs w' HO (inv_const Fo c i env [] v HI) Hc H).
  - apply mbind_ok in H as (x & w1 & E & H). unfold mlift in E. destruct (get env a) as [x'|] eqn:Ea; [|discriminate].
    injection E as -> ->. apply get_nth in Ea. apply mbind_ok in H as (r & w2 & E & H). destruct HO as [Hu HO].
    assert (adds_hidden c i w2 r) as HH.
    { eapply meth1_shape; [exact Hu|exact Hc| |exact E]. eapply (inv_here _ _ _ _ HI); eauto. }
    destruct (inv_hidden c i env [] w2 r HI HH) as (i' & Hc' & HI'). eapply IH; eauto.
  - apply mbind_ok in H as (x & w1 & E & H). unfold mlift in E. destruct (get env a1) as [x'|] eqn:Ea; [|discriminate].
    injection E as -> ->. apply get_nth in Ea.
    apply mbind_ok in H as (y & w1' & E & H). unfold mlift in E. destruct (get env a2) as [y'|] eqn:Eb; [|discriminate].
    injection E as -> ->. apply get_nth in Eb.
    apply mbind_ok in H as (r & w2 & E & H).
    assert (adds_hidden c i w2 r) as HH.
    { eapply meth2_shape; [exact Hc| | |exact E]; eapply (inv_here _ _ _ _ HI); eauto. }
    destruct (inv_hidden c i env [] w2 r HI HH) as (i' & Hc' & HI'). eapply IH; eauto.
  - apply mbind_ok in H as (x & w1 & E & H). unfold mlift in E. destruct (get env a1) as [x'|] eqn:Ea; [|discriminate].
    injection E as -> ->. apply get_nth in Ea.
    apply mbind_ok in H as (y & w1' & E & H). unfold mlift in E. destruct (get env a2) as [y'|] eqn:Eb; [|discriminate].
    injection E as -> ->. apply get_nth in Eb.
    apply mbind_ok in H as (z & w1'' & E & H). unfold mlift in E. destruct (get env a3) as [z'|] eqn:Ez; [|discriminate].
    injection E as -> ->. apply get_nth in Ez.
    apply mbind_ok in H as (r & w2 & E & H).
    assert (adds_hidden c i w2 r) as HH.
    { eapply muladd_shape; [exact Hc| | | |exact E]; eapply (inv_here _ _ _ _ HI); eauto. }
    destruct (inv_hidden c i env [] w2 r HI HH) as (i' & Hc' & HI'). eapply IH; eauto.
  - contradiction.
  - discriminate H.
Qed.
End Regs.

Theorem recorded_regs sg n m (p : prog R) x v w t w' : quiet p -> fn_tape Rops (Simple n m p) x w = Ok (t, w') ->
  length v = length x ->
  exists dy, straight_derivative sg (Simple n m p) x v = Ok dy /\ abs_once t /\
    length (t_deps t) = length (rets p) /\ length dy = length (rets p) /\
    (forall a b ra rb d, nth_error (rets p) a = Some ra -> nth_error (rets p) b = Some rb ->
       nth_error (t_deps t) a = Some d -> nth_error (t_deps t) b = Some d -> a = b \/ ra = rb) /\
    (forall a b r, nth_error (rets p) a = Some r -> nth_error (rets p) b = Some r ->
       nth_error (t_deps t) a = nth_error (t_deps t) b \/ nth a dy 0 = 0).
Proof.
  intros HQ HT L. apply fn_tape_inv in HT.
  destruct HT as (w1 & w2 & w3 & outs & i & Ch & E1 & E2 & E3 & -> & _).
  assert (Hin : w_ctx w1 (w_next w) = Some (i_in x)) by apply Ch.
  pose proof (eval_keeps_io Rops _ _ _ _ _ E1) as [Hd _]. specialize (Hd (w_next w)). rewrite Hin in Hd. cbn in Hd.
  destruct (quiet_run Rops (w_next w) p _ _ _ _ _ HQ (inv_inputs Rops (w_next w) x) Hin E1) as (i2 & env & Hc2 & HI & HM).
  rewrite Hc2 in Hd. cbn in Hd. injection Hd as Hd.
  apply mapM_ok_iff in HM as [LM HM].
  assert (forall a y, nth_error outs a = Some y -> exists r, nth_error (rets p) a = Some r /\ nth_error env r = Some y) as HE.
  { intros a y Ha. destruct (nth_error (rets p) a) as [r|] eqn:Er.
    - destruct (HM a r Er) as (y' & Hy & Gy). exists r. split; [auto|]. apply get_nth. congruence.
    - apply nth_error_None in Er. assert (a < length outs)%nat by (apply nth_error_Some; congruence). lia. }
  assert (Forall (here (w_next w) i2) outs) as HH.
  { apply Forall_forall. intros y Hy. apply In_nth_error in Hy as (a & Ha). destruct (HE a y Ha) as (r & _ & Hr).
    eapply (inv_here _ _ _ _ HI); eauto. }
  destruct (deps_shape (w_next w) outs w2 w3 i2 Hc2 HH E2) as (i3 & ds & C3 & A3 & D3 & L3 & V3 & U3).
  assert (i3 = i) as -> by congruence. rewrite <- Hd in D3. cbn in D3.
  (* the derivatives *)
  destruct (inputs_sim sg (w_next w) x v L) as [HI1 HS].
  assert (H := sim_feval Rops (from_op Rops Some) (af_const Rops) af_v (straight_fop sg) s_cst s_val false
    leD (RSd sg v (w_next w)) (RVd (w_next w)) leD_refl leD_trans (RVd_mono (w_next w)) (sim_straight_fop sg v (w_next w))).
  specialize (H (fun w0 c0 => conj eq_refl (conj eq_refl eq_refl)) (Simple n m p) (or_introl (fun w0 a b HR => proj1 HR))
    (i_in x, v) _ _ HI1 w1 O).
  unfold eval in E1. rewrite E1 in H.
  destruct H as (ys & k & [i4 D4] & Ey & M & (B1 & B2 & B3 & B4) & HR).
  { split; [auto|]. split; [apply recorded_i_in|]. split; [reflexivity|exact HS]. }
  exists (map s_der ys). split; [unfold straight_derivative; rewrite Ey; reflexivity|].
  assert (length ys = length outs) as LY by (symmetry; eapply Forall2_length_eq; exact HR).
  split; [unfold abs_once; cbn [t_ops tape_of]; fold (absl i); rewrite A3; apply (inv_nodup _ _ _ _ HI)|].
  cbn [t_deps tape_of]. rewrite D3.
  split; [congruence|]. split; [rewrite map_length; congruence|]. split.
  - intros a b ra rb d Ha Hb Da Db. destruct (U3 a b d Da Db) as [->|(y & z & Hy & Hz & Ky & Kz)]; [auto|].
    right. destruct (HE a y Hy) as (r1 & R1 & N1). destruct (HE b z Hz) as (r2 & R2 & N2).
    assert (r1 = ra) as -> by congruence. assert (r2 = rb) as -> by congruence.
    eapply (inv_inj _ _ _ _ HI); eauto.
  - intros a b r Ha Hb. destruct (HM a r Ha) as (y & Gy & Hy). destruct (HM b r Hb) as (z & Gz & Hz).
    assert (z = y) as -> by congruence.
    destruct (nth_error ds a) as [da|] eqn:Da; [|apply nth_error_None in Da; assert (a < length outs)%nat by (apply nth_error_Some; congruence); lia].
    destruct (nth_error ds b) as [db|] eqn:Db; [|apply nth_error_None in Db; assert (b < length outs)%nat by (apply nth_error_Some; congruence); lia].
    pose proof (V3 a y da Hy Da) as Va. pose proof (V3 b y db Hz Db) as Vb.
    destruct (id_of y) as [q|] eqn:Eq; [left; congruence|]. right.
    assert (exists s, nth_error ys a = Some s /\ RVd (w_next w) (i4, D4) y s) as (s & Hs & Rs).
    { clear -HR Hy. revert a Hy. induction HR as [|o s os ss Ho HR IH]; intros [|a] Hy; cbn in *; try discriminate; eauto.
      injection Hy as ->. eauto. }
    destruct Rs as [_ Rs]. unfold id_of in Eq. destruct (af_ctx y) as [[? ?]|]; [discriminate Eq|]. destruct Rs as [_ Rs].
    erewrite nth_error_nth; [|apply map_nth_error; exact Hs]. exact Rs.
Qed.

(** ** What a builder computes on pairs *)
Definition prun (p : prog R) (env : list (R * R)) : res (list (R * R) * unit) :=
  run Rops (pair_fop right_if_positive) (fun c => (c, 0)) fst p env tt.

Definition psem {A} (m : builder R A) (env : list (R * R)) (Q : A -> list (R * R) -> Prop) : Prop :=
  exists a ext, Q a (env ++ ext) /\
    forall k, prun (m k (length env)) env = prun (k a (length (env ++ ext))) (env ++ ext) /\
      rets (m k (length env)) = rets (k a (length (env ++ ext))).

(** registers [rs] hold the pairs [vs] *)
Definition pholds (env : list (R * R)) (rs : list nat) (vs : list (R * R)) : Prop :=
  Forall2 (fun a v => nth_error env a = Some v) rs vs.

Lemma pget_ext (env ext : list (R * R)) a v : nth_error env a = Some v -> nth_error (env ++ ext) a = Some v.
Proof. intros H. rewrite nth_error_app1; auto. apply nth_error_Some. congruence. Qed.
Lemma pholds_ext env ext rs vs : pholds env rs vs -> pholds (env ++ ext) rs vs.
Proof. intros H. eapply Forall2_impl; [|exact H]. intros a v E. now apply pget_ext. Qed.
Lemma pget_last (env : list (R * R)) v : nth_error (env ++ [v]) (length env) = Some v.
Proof. rewrite nth_error_app2, Nat.sub_diag; auto. Qed.

Lemma psem_ret {A} (a : A) env (Q : A -> list (R * R) -> Prop) : Q a env -> psem (b_ret a) env Q.
Proof. intros H. exists a, []. rewrite app_nil_r. split; auto. Qed.

Lemma psem_bind {A B} (m : builder R A) (f : A -> builder R B) env Q :
  psem m env (fun a env' => (exists ext, env' = env ++ ext) -> psem (f a) env' Q) -> psem (b_bind m f) env Q.
Proof.
  intros (a & e1 & H1 & R1). destruct H1 as (b & e2 & H2 & R2); [eauto|].
  exists b, (e1 ++ e2). rewrite !app_assoc. split; [auto|]. intros k. unfold b_bind.
  destruct (R1 (fun a r' => f a k r')) as [-> ->]. apply R2.
Qed.

Lemma psem_conseq {A} (m : builder R A) env (P Q : A -> list (R * R) -> Prop) :
  psem m env P -> (forall a ext, P a (env ++ ext) -> Q a (env ++ ext)) -> psem m env Q.
Proof. intros (a & e & H & E) HQ. exists a, e. auto. Qed.

Lemma psem_const c env (Q : nat -> list (R * R) -> Prop) : Q (length env) (env ++ [(c, 0)]) -> psem (b_const c) env Q.
Proof.
  intros H. exists (length env), [(c, 0)]. split; [auto|]. intros k. unfold b_const, prun. cbn [run rets].
  rewrite app_length. auto.
Qed.

Lemma psem_get rs i a env (Q : nat -> list (R * R) -> Prop) : nth_error rs i = Some a -> Q a env -> psem (b_get rs i) env Q.
Proof. intros E H. unfold b_get. rewrite E. now apply psem_ret. Qed.
Lemma psem_set rs i a env (Q : list nat -> list (R * R) -> Prop) : (i < length rs)%nat -> Q (update rs i a) env -> psem (b_set rs i a) env Q.
Proof.
  intros Hi H. unfold b_set. destruct (nth_error rs i) eqn:E; [now apply psem_ret|].
  apply nth_error_None in E. lia.
Qed.

(** the operations of the example *)
Definition pmax (a b : R * R) : R * R := if Rlt_dec (fst b) (fst a) then a else b.
Definition pmin (a b : R * R) : R * R := if Rlt_dec (fst b) (fst a) then b else a.
Definition pbin (b : bin) (x y : R * R) : R * R :=
  match b with
  | BAdd => (fst x + fst y, snd x + snd y)
  | BSub => (fst x - fst y, snd x - snd y)
  | BMul => (fst x * fst y, snd x * fst y + fst x * snd y)
  | BDiv => (fst x / fst y, (snd x * fst y - fst x * snd y) / powerRZ (fst y) 2)
  | BMax => pmax x y
  | _ => pmin x y
  end.
Lemma p_bin b x y : In b [BAdd; BSub; BMul; BDiv; BMax; BMin] ->
  meth2 Rops (pair_fop right_if_positive) (fun c => (c, 0)) b x y tt = Ok (pbin b x y, tt).
Proof.
  intros H. cbn [In] in H.
  destruct H as [<-|[<-|[<-|[<-|[<-|[<-|[]]]]]]].
  1-4: destruct x, y; reflexivity.
  - exact (pair_max x y).
  - exact (pair_min x y).
Qed.

Lemma psem_bin b x y vx vy env (Q : nat -> list (R * R) -> Prop) : In b [BAdd; BSub; BMul; BDiv; BMax; BMin] ->
  nth_error env x = Some vx -> nth_error env y = Some vy ->
  Q (length env) (env ++ [pbin b vx vy]) -> psem (b_bin b x y) env Q.
Proof.
  intros Hb Ex Ey H. exists (length env), [pbin b vx vy]. split; [auto|]. intros k. unfold b_bin, prun.
  cbn [run rets]. unfold mbind, mlift, get. rewrite Ex, Ey. rewrite (p_bin b vx vy Hb), app_length. auto.
Qed.

Lemma psem_for {A B} (f : B -> A -> builder R B) (I : list A -> B -> list (R * R) -> Prop) :
  forall l s env, I [] s env ->
  (forall done a rest s env, l = done ++ a :: rest -> I done s env ->
     psem (f s a) env (fun s' env' => I (done ++ [a]) s' env')) ->
  psem (b_for f l s) env (fun s' env' => I l s' env').
Proof.
  intros l s env H0 HS.
  assert (forall rest done s env, l = done ++ rest -> I done s env ->
    psem (b_for f rest s) env (fun s' env' => I l s' env')) as G.
  { induction rest as [|a rest IH]; intros done s1 env1 E H; cbn.
    - apply psem_ret. rewrite app_nil_r in E. subst. auto.
    - apply psem_bind. eapply psem_conseq; [eapply HS; eauto|]. intros s2 ext H2 _.
      apply (IH (done ++ [a])); [|auto]. rewrite <- app_assoc. auto. }
  eapply G; eauto. reflexivity.
Qed.

Lemma pholds_get env rs vs : pholds env rs vs -> mapM (get env) rs = Ok vs.
Proof.
  induction 1 as [|a v rs vs E H IH]; cbn; auto. unfold get at 1. rewrite E. cbn. rewrite IH. reflexivity.
Qed.
Lemma pseq_holds (x : list (R * R)) : pholds x (seq 0 (length x)) x.
Proof.
  assert (forall l p, pholds (p ++ l) (seq (length p) (length l)) l) as G.
  { induction l as [|v l IH]; intros p; cbn [length seq]; [constructor|]. constructor.
    - rewrite nth_error_app2, Nat.sub_diag by lia. reflexivity.
    - specialize (IH (p ++ [v])). rewrite <- app_assoc, app_length in IH. cbn in IH.
      rewrite Nat.add_1_r in IH. exact IH. }
  apply (G x []).
Qed.

(** a body: its pairs, and the registers it returns *)
Lemma pbody_value n m mm (x v : list R) (y : list (R * R)) (P : list nat -> Prop) : length x = n -> length v = n ->
  psem (m (seq 0 n)) (combine x v) (fun outs env => pholds env outs y /\ P outs) ->
  pair_eval right_if_positive (Simple n mm (b_body n m)) x v = Ok y /\ P (rets (b_body n m)) /\
  length (rets (b_body n m)) = length y.
Proof.
  intros Lx Lv (outs & ext & [H HP] & E). unfold pair_eval, b_body. cbn [feval].
  assert (length (combine x v) = n) as LC by (rewrite combine_length; lia).
  specialize (E (fun o _ => Ret o)). rewrite LC in E. destruct E as [E1 E2]. unfold prun in E1. rewrite E1, E2. cbn [run rets].
  unfold mlift. rewrite (pholds_get _ _ _ H). cbn. split; [reflexivity|]. split; [auto|].
  eapply Forall2_length_eq. exact H.
Qed.
