(** Recording a function: relation between the recorded tape, plain evaluation and tapeless
    forward mode. *)
From Coq Require Import List Arith ZArith Bool Lia Sorted.
From Verif Require Import Base Float Operation Tape AContext Methods Function Spec Param
  TapeFacts AContextFacts Instances.
Import ListNotations.

Section Facts.
Context {F : Type} (Fo : Fops F).

(** ** Detached evaluation = evaluation on pairs; the world is not touched *)
Definition RVdet (_ : world F) (x : AF F) (y : F * F) : Prop :=
  x = mkAF (fst y) (snd y) None.

Lemma sim_det_fop w oc x1 y1 x2 y2 :
  arity_ok oc y1 -> RVdet w x1 x2 -> orel (RVdet w) y1 y2 ->
  simM true eq (fun w s1 (s2 : unit) => s1 = w) RVdet w
       (from_op Fo Some oc x1 y1) (d_fop Fo oc x2 y2).
Proof.
  intros Ha -> Hy s1 [] ->. unfold from_op, d_fop, mbind, mlift. cbn.
  assert (option_map af_v y1 = option_map fst y2 /\ option_map af_dv y1 = option_map snd y2 /\
          pick_cid (mkAF (fst x2) (snd x2) None) y1 = Ok None) as (-> & -> & ->).
  { destruct y1 as [y1|], y2 as [y2|]; cbn in Hy; try contradiction.
    - rewrite Hy. cbn; auto.
    - cbn; auto. }
  destruct (zero_order_value _ _ _ _) as [v|]; auto.
  destruct (first_order_value _ _ _ _ _ _) as [d|]; auto.
  cbn. exists (v, d), tt, w. repeat split; auto.
Qed.

Lemma Forall2_det w (x : list (F * F)) :
  RVs RVdet w (map (fun p => af_new (fst p) (snd p)) x) x.
Proof. induction x; constructor; auto. reflexivity. Qed.

Lemma Forall2_det_inv w l1 l2 :
  RVs RVdet w l1 l2 -> l1 = map (fun p => af_new (fst p) (snd p)) l2.
Proof. induction 1 as [|a b l1 l2 H HF IH]; cbn; auto. rewrite H, IH; auto. Qed.

Theorem eval_detached f x w :
  eval Fo f (map (fun p => af_new (fst p) (snd p)) x) w =
  (y <- d_eval Fo f x ;; Ok (map (fun p => af_new (fst p) (snd p)) y, w)).
Proof.
  assert (H := sim_feval Fo (from_op Fo Some) (af_const Fo) af_v (d_fop Fo) (d_cst Fo) fst true
    eq (fun w s1 (s2 : unit) => s1 = w) RVdet (@eq_refl _) (@eq_trans _)
    ltac:(intros a b ? ? -> ?; auto) sim_det_fop (fun _ _ => eq_refl) f
    (or_introl (fun w x1 x2 H => f_equal af_v H)) w _ x (Forall2_det w x) w tt eq_refl).
  unfold eval, d_eval.
  destruct (feval Fo (from_op Fo Some) _ _ f _ w) as [[a w']|p].
  - destruct H as (b & [] & w'' & -> & <- & -> & HR). cbn.
    rewrite (Forall2_det_inv _ _ _ HR). reflexivity.
  - rewrite H; auto.
Qed.

(** ** Pairs and plain numbers *)
Lemma sim_dv_fop (u : unit) oc x1 y1 (x2 : F) y2 :
  arity_ok oc y1 -> fst x1 = x2 -> orel (fun a b => fst a = b) y1 y2 ->
  simM true (fun _ _ => True) (fun _ (_ : unit) (_ : unit) => True)
       (fun _ (a : F * F) b => fst a = b) u
       (d_fop Fo oc x1 y1) (v_fop Fo oc x2 y2).
Proof.
  intros Ha <- Hy s1 s2 _. unfold d_fop, v_fop, mbind, mlift.
  assert (option_map fst y1 = y2) as <-
    by (destruct y1, y2; cbn in *; try contradiction; congruence).
  destruct (zero_order_value _ _ _ _) as [v|]; auto.
  destruct (first_order_value_total Fo oc (fst x1) (option_map fst y1) (snd x1)
              (option_map snd y1)) as [d ->].
  { destruct y1; cbn in *; [right; repeat split; auto; discriminate|auto]. }
  cbn. exists v, s2, tt. repeat split; auto.
Qed.

Theorem d_eval_values f x :
  v_eval Fo f (map fst x) = (y <- d_eval Fo f x ;; Ok (map fst y)).
Proof.
  assert (H := sim_feval Fo (d_fop Fo) (d_cst Fo) fst (v_fop Fo) (fun c => c) (fun v => v) true
    (fun _ _ => True) (fun (_ : unit) (_ : unit) (_ : unit) => True)
    (fun _ (a : F * F) b => fst a = b) (fun _ => I) (fun _ _ _ _ _ => I)
    ltac:(auto) sim_dv_fop (fun _ _ => eq_refl) f
    (or_introl (fun w x1 x2 H => H)) tt x (map fst x)
    ltac:(clear; induction x; constructor; auto) tt tt I).
  unfold d_eval, v_eval.
  destruct (feval Fo (d_fop Fo) _ _ f _ tt) as [[a w']|p].
  - destruct H as (b & [] & w'' & -> & _ & _ & HR). cbn.
    f_equal. clear -HR. induction HR; cbn; congruence.
  - rewrite H; auto.
Qed.

Lemma map_fst_zero (x : list F) (z : F) : map fst (map (fun e => (e, z)) x) = x.
Proof. induction x; cbn; congruence. Qed.

(** [eval_float] is plain evaluation, in every world. *)
Theorem eval_float_v f x w :
  eval_float Fo f x w = (y <- v_eval Fo f x ;; Ok (y, w)).
Proof.
  unfold eval_float, mbind.
  replace (map (fun e => af_new e (f_zero Fo)) x) with
    (map (fun p => af_new (fst p) (snd p)) (map (fun e => (e, f_zero Fo)) x)).
  2: { rewrite map_map; auto. }
  rewrite eval_detached.
  pose proof (d_eval_values f (map (fun e => (e, f_zero Fo)) x)) as E.
  rewrite map_fst_zero in E. rewrite E.
  destruct (d_eval Fo f _) as [y|]; cbn; auto.
  rewrite map_map. cbn. reflexivity.
Qed.

(** ** The path resolved at a point *)
Lemma resolve_straight p : forall env, straight (resolve Fo p env).
Proof.
  induction p as [outs|c p IH|u a p IH|b a1 a2 p IH|a1 a2 a3 p IH|a k IH| ];
    intros env; cbn [resolve straight]; auto.
  - match goal with |- context [match ?X with Ok _ => _ | Panic _ => _ end] =>
      destruct X as [[r []]|] end; cbn; auto.
  - match goal with |- context [match ?X with Ok _ => _ | Panic _ => _ end] =>
      destruct X as [[r []]|] end; cbn; auto.
  - match goal with |- context [match ?X with Ok _ => _ | Panic _ => _ end] =>
      destruct X as [[r []]|] end; cbn; auto.
  - destruct (get env a); cbn; auto.
Qed.

Lemma resolve_f_straight f : forall x, straight_f (resolve_f Fo f x).
Proof.
  induction f as [n m p|n m p|fs IH] using func_ind'; intros x; cbn [resolve_f straight_f];
    try apply resolve_straight.
  revert x; induction fs as [|g fs IHfs]; intros x; auto.
  inversion IH; subst. split; auto.
  destruct (v_eval Fo g x); [apply IHfs; auto | cbn; auto].
Qed.

Lemma resolve_id p : straight p -> forall env, (forall r, v_run Fo p env <> Panic r) ->
  resolve Fo p env = p.
Proof.
  unfold v_run.
  induction p as [outs|c p IH|u a p IH|b a1 a2 p IH|a1 a2 a3 p IH|a k IH| ];
    cbn [straight resolve run]; intros HS env HN; auto.
  - f_equal. apply IH; auto.
  - f_equal. unfold mbind at 1 in HN. unfold mbind.
    destruct (mlift (get env a) tt) as [[x []]|q]; [|cbn in HN; destruct (HN q); auto].
    unfold mbind in HN. destruct (meth1 _ _ _ u x tt) as [[r []]|q];
      [|cbn in HN; destruct (HN q); auto].
    apply IH; auto.
  - f_equal. unfold mbind in *.
    destruct (mlift (get env a1) tt) as [[x []]|q]; [|cbn in HN; destruct (HN q); auto].
    destruct (mlift (get env a2) tt) as [[y []]|q]; [|cbn in HN; destruct (HN q); auto].
    destruct (meth2 _ _ _ b x y tt) as [[r []]|q];
      [|cbn in HN; destruct (HN q); auto].
    apply IH; auto.
  - f_equal. unfold mbind in *.
    destruct (mlift (get env a1) tt) as [[x []]|q]; [|cbn in HN; destruct (HN q); auto].
    destruct (mlift (get env a2) tt) as [[y []]|q]; [|cbn in HN; destruct (HN q); auto].
    destruct (mlift (get env a3) tt) as [[z []]|q]; [|cbn in HN; destruct (HN q); auto].
    destruct (m_mul_add _ x y z tt) as [[r []]|q];
      [|cbn in HN; destruct (HN q); auto].
    apply IH; auto.
  - destruct HS.
Qed.

Definition eval_list {V St : Type} (fop : OpCode -> V -> option V -> M St V) (cst : F -> V)
  (val : V -> F) : list (func F) -> list V -> M St (list V) :=
  fix eval_all (l : list (func F)) (cur : list V) {struct l} : M St (list V) :=
         match l with
         | [] => mret cur
         | g :: l' => nxt <~ feval Fo fop cst val g cur ;; eval_all l' nxt
         end.

Lemma feval_chain {V St : Type} (fop : OpCode -> V -> option V -> M St V) cst val fs x :
  feval Fo fop cst val (Chain fs) x = eval_list fop cst val fs x.
Proof. reflexivity. Qed.

Lemma v_eval_cons g fs x :
  v_eval Fo (Chain (g :: fs)) x = (y <- v_eval Fo g x ;; v_eval Fo (Chain fs) y).
Proof.
  unfold v_eval. rewrite !feval_chain. cbn [eval_list]. unfold mbind.
  destruct (feval Fo _ _ _ g x tt) as [[y []]|]; cbn; auto.
Qed.

Lemma resolve_f_id f : straight_f f -> forall x, (forall r, v_eval Fo f x <> Panic r) ->
  resolve_f Fo f x = f.
Proof.
  induction f as [n m p|n m p|fs IH] using func_ind'; cbn [resolve_f straight_f]; intros HS x HN.
  - f_equal. apply resolve_id; auto.
  - f_equal. apply resolve_id; auto. intros r Hr.
    unfold v_eval in HN. cbn [feval] in HN. unfold mbind in HN.
    destruct (mlift (assert (length x =? n)) tt) as [[_ []]|q]; [|cbn in HN; destruct (HN q); auto].
    unfold v_run in Hr.
    destruct (run Fo _ _ _ p x tt) as [[r0 []]|q]; [discriminate|].
    cbn in HN; destruct (HN q); auto.
  - f_equal. revert x HN. induction fs as [|g fs IHfs]; intros x HN; auto.
    inversion IH; subst. destruct HS as [HS1 HS2].
    rewrite v_eval_cons in HN.
    destruct (v_eval Fo g x) as [y|q] eqn:E; [|cbn in HN; destruct (HN q); auto].
    f_equal; auto.
    apply H1; auto. congruence.
Qed.

(** Any instance that computes values with [zero_order_value] runs a function exactly as it
    runs the resolved function. *)
Section ResolveRun.
Context {V St : Type} (fop : OpCode -> V -> option V -> M St V) (cst : F -> V) (val : V -> F).
Hypothesis fop_val : forall oc x y s r s', arity_ok oc y -> fop oc x y s = Ok (r, s') ->
  zero_order_value Fo oc (val x) (option_map val y) = Ok (val r).
Hypothesis cst_val : forall c, val (cst c) = c.

Notation RVv := (fun (_ : unit) x v => val x = v).
Notation simv := (simM (St1 := St) (St2 := unit) false (fun _ _ : unit => True)
                       (fun _ (_ : St) (_ : unit) => True)).

Lemma sim_val_fop (w : unit) oc x1 y1 x2 y2 :
  arity_ok oc y1 -> val x1 = x2 -> orel (RVv w) y1 y2 ->
  simv RVv w (fop oc x1 y1) (v_fop Fo oc x2 y2).
Proof.
  intros Ha <- Hy s1 [] _.
  assert (option_map val y1 = y2) as <-
    by (destruct y1, y2; cbn in *; try contradiction; congruence).
  destruct (fop oc x1 y1 s1) as [[r s']|p] eqn:E; [|discriminate].
  unfold v_fop, mlift. rewrite (fop_val _ _ _ _ _ _ Ha E).
  exists (val r), tt, tt. auto.
Qed.

Lemma get_map (env : list V) a :
  get (map val env) a = (x <- get env a ;; Ok (val x)).
Proof. unfold get. rewrite nth_error_map. destruct (nth_error env a); auto. Qed.

Lemma run_resolve p : forall env s,
  run Fo fop cst val p env s = run Fo fop cst val (resolve Fo p (map val env)) env s.
Proof.
  induction p as [outs|c p IH|u a p IH|b a1 a2 p IH|a1 a2 a3 p IH|a k IH| ];
    intros env s; cbn [resolve run]; auto.
  - rewrite IH. rewrite map_app; cbn. rewrite cst_val. auto.
  - unfold mbind, mlift. rewrite get_map.
    destruct (get env a) as [x|q]; cbn; auto.
    destruct (meth1 Fo fop cst u x s) as [[r s']|q] eqn:E; auto.
    pose proof (sim_meth1 Fo fop cst (v_fop Fo) (fun c => c) false (fun _ _ => True)
      (fun (_ : unit) (_ : St) (_ : unit) => True) RVv (fun _ _ _ _ _ => I)
      ltac:(auto) sim_val_fop (fun _ c => cst_val c) tt u x _ eq_refl s tt I) as HS.
    rewrite E in HS. destruct HS as (v & [] & _ & -> & _ & _ & Hv).
    rewrite IH, map_app; cbn. rewrite Hv. auto.
  - unfold mbind, mlift. rewrite !get_map.
    destruct (get env a1) as [x|q]; cbn; auto.
    destruct (get env a2) as [y|q]; cbn; auto.
    destruct (meth2 Fo fop cst b x y s) as [[r s']|q] eqn:E; auto.
    pose proof (sim_meth2 Fo fop cst (v_fop Fo) (fun c => c) false (fun _ _ => True)
      (fun (_ : unit) (_ : St) (_ : unit) => True) RVv (fun _ _ _ _ _ => I)
      ltac:(auto) sim_val_fop (fun _ c => cst_val c) tt b x _ y _ eq_refl eq_refl s tt I) as HS.
    rewrite E in HS. destruct HS as (v & [] & _ & -> & _ & _ & Hv).
    rewrite IH, map_app; cbn. rewrite Hv. auto.
  - unfold mbind, mlift. rewrite !get_map.
    destruct (get env a1) as [x|q]; cbn [bind]; auto.
    destruct (get env a2) as [y|q]; cbn [bind]; auto.
    destruct (get env a3) as [z|q]; cbn [bind]; auto.
    destruct (m_mul_add fop x y z s) as [[r s']|q] eqn:E; auto.
    pose proof (sim_mul_add fop (v_fop Fo) false (fun _ _ => True)
      (fun (_ : unit) (_ : St) (_ : unit) => True) RVv (fun _ _ _ _ _ => I)
      ltac:(auto) sim_val_fop tt x _ y _ z _ eq_refl eq_refl eq_refl s tt I) as HS.
    rewrite E in HS. destruct HS as (v & [] & u & Hm & _ & _ & Hv).
    match goal with |- context [match ?X with Ok _ => _ | Panic _ => _ end] =>
      replace X with (@Ok (F * unit) (v, tt)) by (symmetry; exact Hm) end.
    rewrite IH, map_app; cbn. rewrite Hv. auto.
  - unfold mbind, mlift. rewrite get_map.
    destruct (get env a) as [x|q] eqn:E; cbn; auto.
    rewrite E; cbn. auto.
Qed.

Lemma feval_values f env s ys s' :
  feval Fo fop cst val f env s = Ok (ys, s') -> v_eval Fo f (map val env) = Ok (map val ys).
Proof.
  intros E.
  assert (H := sim_feval Fo fop cst val (v_fop Fo) (fun c => c) (fun v => v) false
    (fun _ _ => True) (fun (_ : unit) (_ : St) (_ : unit) => True) RVv
    (fun _ => I) (fun _ _ _ _ _ => I) ltac:(auto) sim_val_fop (fun _ c => cst_val c) f
    (or_introl (fun w x1 x2 H => H)) tt env (map val env)
    ltac:(clear; induction env; constructor; auto) s tt I).
  rewrite E in H. destruct H as (b & [] & w'' & Hb & _ & _ & HR).
  unfold v_eval. rewrite Hb. cbn. f_equal. clear -HR. induction HR; cbn; congruence.
Qed.

Lemma feval_resolve f : forall env s,
  feval Fo fop cst val f env s = feval Fo fop cst val (resolve_f Fo f (map val env)) env s.
Proof.
  induction f as [n m p|n m p|fs IH] using func_ind'; intros env s; cbn [resolve_f feval].
  - apply run_resolve.
  - unfold mbind. destruct (mlift (assert (length env =? n)) s) as [[_ s']|]; auto.
    rewrite run_resolve. auto.
  - revert env s. induction fs as [|g fs IHfs]; intros env s; auto.
    inversion IH; subst. unfold mbind. rewrite <- H1.
    destruct (feval Fo fop cst val g env s) as [[r s']|] eqn:E; auto.
    rewrite (feval_values _ _ _ _ _ E). apply IHfs; auto.
Qed.

End ResolveRun.

Lemma from_op_val oc x y w r w' :
  arity_ok oc y -> from_op Fo Some oc x y w = Ok (r, w') ->
  zero_order_value Fo oc (af_v x) (option_map af_v y) = Ok (af_v r).
Proof. intros _ H. apply from_op_spec in H. tauto. Qed.

Lemma eval_resolve f env w :
  eval Fo f env w = eval Fo (resolve_f Fo f (map af_v env)) env w.
Proof. apply feval_resolve; auto. apply from_op_val. Qed.

Lemma v_eval_resolve f x : v_eval Fo f x = v_eval Fo (resolve_f Fo f x) x.
Proof.
  unfold v_eval.
  rewrite (feval_resolve (v_fop Fo) (fun c => c) (fun v => v)); [|..|auto].
  - rewrite map_id. auto.
  - intros oc a y s r s' _. unfold v_fop, mlift.
    replace (option_map (fun v : F => v) y) with y by (destruct y; auto).
    destruct (zero_order_value Fo oc a y); congruence.
Qed.

End Facts.
