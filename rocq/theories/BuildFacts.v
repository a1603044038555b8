(** Reasoning about function bodies written with Build.v. *)
From Coq Require Import Reals Lra List Arith ZArith Bool Lia.
From Verif Require Import Base Float Operation Tape AContext Methods Function Spec TapeFacts RealInst Param Instances
  FunctionFacts MethodSpec MethodFacts Build.
Import ListNotations.

(** ** Builders inspect no values *)
Section Straight.
Context {F : Type}.
Definition b_straight {A} (m : builder F A) : Prop :=
  forall k r, (forall a r', straight (k a r')) -> straight (m k r).
Lemma straight_ret {A} (a : A) : b_straight (b_ret a).
Proof. intros k r H. apply H. Qed.
Lemma straight_bind {A B} (m : builder F A) (f : A -> builder F B) :
  b_straight m -> (forall a, b_straight (f a)) -> b_straight (b_bind m f).
Proof. intros Hm Hf k r H. apply Hm. intros a r'. apply Hf, H. Qed.
Lemma straight_const c : b_straight (b_const c).
Proof. intros k r H. apply H. Qed.
Lemma straight_un u a : b_straight (b_un u a).
Proof. intros k r H. apply H. Qed.
Lemma straight_bin b x y : b_straight (b_bin b x y).
Proof. intros k r H. apply H. Qed.
Lemma straight_abort {A} : b_straight (@b_abort F A).
Proof. intros k r H. exact I. Qed.
Lemma straight_get v i : b_straight (b_get v i).
Proof. unfold b_get. destruct (nth_error v i); [apply straight_ret|apply straight_abort]. Qed.
Lemma straight_set v i a : b_straight (b_set v i a).
Proof. unfold b_set. destruct (nth_error v i); [apply straight_ret|apply straight_abort]. Qed.
Lemma straight_for {A B} (f : B -> A -> builder F B) l : (forall s a, b_straight (f s a)) ->
  forall s, b_straight (b_for f l s).
Proof.
  intros Hf. induction l; intros s; cbn; [apply straight_ret|apply straight_bind; auto].
Qed.
Lemma straight_body n m : (forall x, b_straight (m x)) -> straight (b_body n m).
Proof. intros H. apply H. intros. exact I. Qed.
End Straight.

Ltac b_straight := repeat match goal with
  | |- b_straight (b_bind _ _) => apply straight_bind; [|intro]
  | |- b_straight (b_ret _) => apply straight_ret
  | |- b_straight (b_const _) => apply straight_const
  | |- b_straight (b_un _ _) => apply straight_un
  | |- b_straight (b_bin _ _ _) => apply straight_bin
  | |- b_straight (b_get _ _) => apply straight_get
  | |- b_straight (b_set _ _ _) => apply straight_set
  | |- b_straight b_abort => apply straight_abort
  end.

(** ** What a builder computes over R *)
Open Scope R_scope.
Definition vrun (p : prog R) (env : list R) : res (list R * unit) :=
  run Rops (v_fop Rops) (fun c => c) (fun v => v) p env tt.

(** [m], started with registers [env], continues with a result and registers that satisfy [Q] *)
Definition bsem {A} (m : builder R A) (env : list R) (Q : A -> list R -> Prop) : Prop :=
  exists a ext, Q a (env ++ ext) /\
    forall k, vrun (m k (length env)) env = vrun (k a (length (env ++ ext))) (env ++ ext).

(** registers [rs] hold the numbers [vs] *)
Definition holds (env : list R) (rs : list nat) (vs : list R) : Prop :=
  Forall2 (fun a v => nth_error env a = Some v) rs vs.

Lemma get_ext (env ext : list R) a v : nth_error env a = Some v -> nth_error (env ++ ext) a = Some v.
Proof. intros H. rewrite nth_error_app1; auto. apply nth_error_Some. congruence. Qed.
Lemma holds_ext env ext rs vs : holds env rs vs -> holds (env ++ ext) rs vs.
Proof. intros H. eapply Forall2_impl; [|exact H]. intros a v E. now apply get_ext. Qed.
Lemma get_last (env : list R) v : nth_error (env ++ [v]) (length env) = Some v.
Proof. rewrite nth_error_app2, Nat.sub_diag; auto. Qed.

Lemma sem_ret {A} (a : A) env (Q : A -> list R -> Prop) : Q a env -> bsem (b_ret a) env Q.
Proof. intros H. exists a, []. rewrite app_nil_r. split; auto. Qed.

Lemma sem_bind {A B} (m : builder R A) (f : A -> builder R B) env Q :
  bsem m env (fun a env' => (exists ext, env' = env ++ ext) -> bsem (f a) env' Q) -> bsem (b_bind m f) env Q.
Proof.
  intros (a & e1 & H1 & R1). destruct H1 as (b & e2 & H2 & R2); [eauto|].
  exists b, (e1 ++ e2). rewrite !app_assoc. split; [auto|]. intros k. unfold b_bind. rewrite R1. apply R2.
Qed.

Lemma sem_conseq {A} (m : builder R A) env (P Q : A -> list R -> Prop) :
  bsem m env P -> (forall a ext, P a (env ++ ext) -> Q a (env ++ ext)) -> bsem m env Q.
Proof. intros (a & e & H & E) HQ. exists a, e. auto. Qed.

Lemma sem_const c env (Q : nat -> list R -> Prop) : Q (length env) (env ++ [c]) -> bsem (b_const c) env Q.
Proof.
  intros H. exists (length env), [c]. split; [auto|]. intros k. unfold b_const, vrun. cbn [run].
  rewrite app_length. reflexivity.
Qed.

Lemma sem_get rs i a env (Q : nat -> list R -> Prop) : nth_error rs i = Some a -> Q a env -> bsem (b_get rs i) env Q.
Proof. intros E H. unfold b_get. rewrite E. now apply sem_ret. Qed.
Lemma sem_set rs i a env (Q : list nat -> list R -> Prop) : (i < length rs)%nat -> Q (update rs i a) env -> bsem (b_set rs i a) env Q.
Proof.
  intros Hi H. unfold b_set. destruct (nth_error rs i) eqn:E; [now apply sem_ret|].
  apply nth_error_None in E. lia.
Qed.

(** the methods the examples use *)
Lemma v_bin b x y : In b [BAdd; BSub; BMul; BDiv; BMax; BMin] ->
  meth2 Rops (v_fop Rops) (fun c => c) b x y tt = Ok (sem2 b x y, tt).
Proof.
  intros H. cbn in H.
  repeat (destruct H as [<-|H]); [..|easy]; cbn; auto.
  - rewrite <- max_abs. reflexivity.
  - rewrite <- min_abs. reflexivity.
Qed.

Lemma sem_bin b x y vx vy env (Q : nat -> list R -> Prop) : In b [BAdd; BSub; BMul; BDiv; BMax; BMin] ->
  nth_error env x = Some vx -> nth_error env y = Some vy ->
  Q (length env) (env ++ [sem2 b vx vy]) -> bsem (b_bin b x y) env Q.
Proof.
  intros Hb Ex Ey H. exists (length env), [sem2 b vx vy]. split; [auto|]. intros k. unfold b_bin, vrun.
  cbn [run]. unfold mbind, mlift, get. rewrite Ex, Ey. rewrite (v_bin b vx vy Hb), app_length. reflexivity.
Qed.

Lemma sem_exp x vx env (Q : nat -> list R -> Prop) : nth_error env x = Some vx ->
  Q (length env) (env ++ [exp vx]) -> bsem (b_un UExp x) env Q.
Proof.
  intros Ex H. exists (length env), [exp vx]. split; [auto|]. intros k. unfold b_un, vrun.
  cbn [run]. unfold mbind, mlift, get. rewrite Ex, app_length. reflexivity.
Qed.

Lemma sem_for {A B} (f : B -> A -> builder R B) (I : list A -> B -> list R -> Prop) :
  forall l s env, I [] s env ->
  (forall done a rest s env, l = done ++ a :: rest -> I done s env ->
     bsem (f s a) env (fun s' env' => I (done ++ [a]) s' env')) ->
  bsem (b_for f l s) env (fun s' env' => I l s' env').
Proof.
  intros l s env H0 HS.
  assert (forall rest done s env, l = done ++ rest -> I done s env ->
    bsem (b_for f rest s) env (fun s' env' => I l s' env')) as G.
  { induction rest as [|a rest IH]; intros done s1 env1 E H; cbn.
    - apply sem_ret. rewrite app_nil_r in E. subst. auto.
    - apply sem_bind. eapply sem_conseq; [eapply HS; eauto|]. intros s2 ext H2 _.
      apply (IH (done ++ [a])); [|auto]. rewrite <- app_assoc. auto. }
  eapply G; eauto. reflexivity.
Qed.

(** the value of a body *)
Lemma holds_get env rs vs : holds env rs vs -> mapM (get env) rs = Ok vs.
Proof.
  induction 1 as [|a v rs vs E H IH]; cbn; auto. unfold get at 1. rewrite E. cbn. rewrite IH. reflexivity.
Qed.

Lemma seq_holds (x : list R) : holds x (seq 0 (length x)) x.
Proof.
  assert (forall l p, holds (p ++ l) (seq (length p) (length l)) l) as G.
  { induction l as [|v l IH]; intros p; cbn [length seq]; [constructor|]. constructor.
    - rewrite nth_error_app2, Nat.sub_diag by lia. reflexivity.
    - specialize (IH (p ++ [v])). rewrite <- app_assoc, app_length in IH. cbn in IH.
      rewrite Nat.add_1_r in IH. exact IH. }
  apply (G x []).
Qed.

Lemma body_value n m (x y : list R) : length x = n ->
  bsem (m (seq 0 n)) x (fun outs env => holds env outs y) -> v_run Rops (b_body n m) x = Ok y.
Proof.
  intros <- (outs & ext & H & E). unfold v_run, b_body. specialize (E (fun o _ => Ret o)).
  unfold vrun in E. rewrite E. cbn [run]. unfold mlift. rewrite (holds_get _ _ _ H). reflexivity.
Qed.
