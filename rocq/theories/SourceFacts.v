(** Source functions and their translation do the same. *)
From Coq Require Import List Arith ZArith Bool Lia.
From Verif Require Import Base Float Operation Tape AContext Methods Function Spec Param Instances
  FunctionFacts ReplayFacts ApiFacts3 Source SourceSpec.
Import ListNotations.

(** [vs] are in the registers [regs] of [env] *)
Definition holds {V : Type} (env : list V) (regs : list nat) (vs : list V) : Prop :=
  Forall2 (fun r v => nth_error env r = Some v) regs vs.

Section Holds.
Context {V : Type}.
Lemma holds_app (env : list V) extra regs vs : holds env regs vs -> holds (env ++ extra) regs vs.
Proof.
  intros H. induction H; constructor; auto. rewrite nth_error_app1; auto. apply nth_error_Some. congruence.
Qed.
Lemma holds_len (env : list V) regs vs : holds env regs vs -> length regs = length vs.
Proof. induction 1; cbn; congruence. Qed.
Lemma holds_nth (env : list V) regs vs x : holds env regs vs ->
  match nth_error vs x with
  | Some v => exists r, nth_error regs x = Some r /\ nth_error env r = Some v
  | None => nth_error regs x = None
  end.
Proof. intros H. revert x. induction H as [|r v regs vs E H IH]; intros [|x]; cbn; eauto. apply IH. Qed.
Lemma holds_snoc (env : list V) regs vs r v : holds env regs vs -> nth_error env r = Some v -> holds env (regs ++ [r]) (vs ++ [v]).
Proof. intros H E. apply Forall2_app; auto. Qed.
Lemma holds_update (env : list V) regs vs x r v : holds env regs vs -> nth_error env r = Some v -> holds env (update regs x r) (update vs x v).
Proof. intros H E. revert x. induction H as [|r0 v0 rs ws E0 H IH]; intros [|x]; cbn; try constructor; auto. apply IH. Qed.
Lemma holds_firstn (env : list V) regs vs n : holds env regs vs -> holds env (firstn n regs) (firstn n vs).
Proof. intros H. revert n. induction H as [|r0 v0 rs ws E0 H IH]; intros [|n]; cbn; constructor; auto. apply IH. Qed.
Lemma holds_start (xs : list V) : holds xs (seq 0 (length xs)) xs.
Proof.
  unfold holds. change xs with ([] ++ xs) at 1. replace 0 with (length (@nil V)) by reflexivity. generalize (@nil V).
  induction xs as [|x xs IH]; intros l; cbn; constructor.
  - rewrite nth_error_app2, Nat.sub_diag; auto.
  - specialize (IH (l ++ [x])). rewrite <- app_assoc in IH. rewrite app_length in IH. cbn in IH. now rewrite Nat.add_1_r in IH.
Qed.
Lemma nth_more (env : list V) extra r v : nth_error env r = Some v -> nth_error (env ++ extra) r = Some v.
Proof. intros E. rewrite nth_error_app1; auto. apply nth_error_Some. congruence. Qed.
Lemma nth_last (env : list V) v : nth_error (env ++ [v]) (length env) = Some v.
Proof. rewrite nth_error_app2, Nat.sub_diag; auto. Qed.
Lemma len_snoc (env : list V) v : length (env ++ [v]) = length env + 1.
Proof. rewrite app_length. reflexivity. Qed.
Lemma get_is (env : list V) r v : nth_error env r = Some v -> get env r = Ok v.
Proof. unfold get. now intros ->. Qed.
End Holds.

Section Run.
Context {S D V St : Type} (So : Fops S) (conv : D -> S).
Context (fop : OpCode -> V -> option V -> M St V) (cst : S -> V) (val : V -> S).
Notation run := (run So fop cst val).
Notation x_expr := (x_expr (D := D) So conv fop cst).
Notation x_stmt := (x_stmt (D := D) So conv fop cst val).

(** The value of an expression ends up in a register. *)
Definition expr_sim (env : list V) (t : (nat -> nat -> prog S) -> prog S) (o : res (V * St)) (st : St) : Prop :=
  match o with
  | Ok (v, st') => exists r extra, nth_error (env ++ extra) r = Some v /\
      forall k, run (t k) env st = run (k r (length (env ++ extra))) (env ++ extra) st'
  | Panic p => forall k, run (t k) env st = Panic p
  end.
Definition stmt_sim (env : list V) (t : (list nat -> nat -> prog S) -> prog S) (o : res (list V * St)) (st : St) : Prop :=
  match o with
  | Ok (vs, st') => exists regs extra, holds (env ++ extra) regs vs /\
      forall k, run (t k) env st = run (k regs (length (env ++ extra))) (env ++ extra) st'
  | Panic p => forall k, run (t k) env st = Panic p
  end.

Ltac app2 := rewrite ?app_assoc; auto.

Lemma run_expr e : forall regs env vs st, holds env regs vs ->
  expr_sim env (t_expr conv e regs (length env)) (x_expr vs e st) st.
Proof.
  induction e as [x|c|u e IH|b e1 IH1 e2 IH2|o e IH c|o c e IH|e1 IH1 e2 IH2 e3 IH3]; intros regs env vs st H;
    cbn [Source.x_expr t_expr]; unfold expr_sim.
  - pose proof (holds_nth _ _ _ x H) as N. unfold var. destruct (nth_error vs x) as [v|].
    + destruct N as (r & -> & E). cbn. exists r, []. rewrite app_nil_r. auto.
    + rewrite N. cbn. auto.
  - cbn. exists (length env), [cst c]. rewrite nth_last, len_snoc. auto.
  - unfold mbind. specialize (IH regs env vs st H). unfold expr_sim in IH. destruct (x_expr vs e st) as [[a st']|q]; [|intros k; apply IH].
    destruct IH as (r & ex & E & K). destruct (meth1 So fop cst u a st') as [[v st2]|q] eqn:M.
    + exists (length (env ++ ex)), (ex ++ [v]). rewrite app_assoc, nth_last, len_snoc. split; auto.
      intros k. rewrite K. cbn. unfold mbind, mlift. now rewrite (get_is _ _ _ E), M.
    + intros k. rewrite K. cbn. unfold mbind, mlift. now rewrite (get_is _ _ _ E), M.
  - unfold mbind. specialize (IH1 regs env vs st H). unfold expr_sim in IH1. destruct (x_expr vs e1 st) as [[a st']|q]; [|intros k; apply IH1].
    destruct IH1 as (r & ex & E & K). specialize (IH2 regs (env ++ ex) vs st' (holds_app _ ex _ _ H)). unfold expr_sim in IH2.
    destruct (x_expr vs e2 st') as [[a2 st2]|q]; [|intros k; rewrite K; apply IH2].
    destruct IH2 as (r2 & ex2 & E2 & K2).
    assert (nth_error ((env ++ ex) ++ ex2) r = Some a) as E' by (now apply nth_more).
    destruct (meth2 So fop cst b a a2 st2) as [[v st3]|q] eqn:M.
    + exists (length ((env ++ ex) ++ ex2)), (ex ++ ex2 ++ [v]). rewrite !app_assoc, nth_last, len_snoc. split; auto.
      intros k. rewrite K, K2. cbn. unfold mbind, mlift. now rewrite (get_is _ _ _ E2), (get_is _ _ _ E'), M.
    + intros k. rewrite K, K2. cbn. unfold mbind, mlift. now rewrite (get_is _ _ _ E2), (get_is _ _ _ E'), M.
  - unfold mbind. specialize (IH regs env vs st H). unfold expr_sim in IH. destruct (x_expr vs e st) as [[a st']|q]; [|intros k; apply IH].
    destruct IH as (r & ex & E & K).
    assert (nth_error ((env ++ ex) ++ [cst (conv c)]) r = Some a) as E' by (now apply nth_more).
    destruct (meth2 So fop cst (a_bin o) a (cst (conv c)) st') as [[v st2]|q] eqn:M.
    + exists (length (env ++ ex) + 1), (ex ++ [cst (conv c)] ++ [v]). rewrite !app_assoc, <- len_snoc with (v := cst (conv c)), nth_last, !len_snoc. split; auto.
      intros k. rewrite K. cbn. unfold mbind, mlift. rewrite (get_is _ _ _ E'), (get_is _ _ _ (nth_last _ _)), M. now replace (length (env ++ ex) + 1 + 1) with (length (env ++ ex) + 2) by lia.
    + intros k. rewrite K. cbn. unfold mbind, mlift. now rewrite (get_is _ _ _ E'), (get_is _ _ _ (nth_last _ _)), M.
  - unfold mbind. specialize (IH regs env vs st H). unfold expr_sim in IH. destruct (x_expr vs e st) as [[a st']|q]; [|intros k; apply IH].
    destruct IH as (r & ex & E & K).
    assert (nth_error ((env ++ ex) ++ [cst (conv c)]) r = Some a) as E' by (now apply nth_more).
    destruct (meth2 So fop cst (a_bin o) (cst (conv c)) a st') as [[v st2]|q] eqn:M.
    + exists (length (env ++ ex) + 1), (ex ++ [cst (conv c)] ++ [v]). rewrite !app_assoc, <- len_snoc with (v := cst (conv c)), nth_last, !len_snoc. split; auto.
      intros k. rewrite K. cbn. unfold mbind, mlift. rewrite (get_is _ _ _ E'), (get_is _ _ _ (nth_last _ _)), M. now replace (length (env ++ ex) + 1 + 1) with (length (env ++ ex) + 2) by lia.
    + intros k. rewrite K. cbn. unfold mbind, mlift. now rewrite (get_is _ _ _ E'), (get_is _ _ _ (nth_last _ _)), M.
  - unfold mbind. specialize (IH1 regs env vs st H). unfold expr_sim in IH1. destruct (x_expr vs e1 st) as [[a st']|q]; [|intros k; apply IH1].
    destruct IH1 as (r & ex & E & K). specialize (IH2 regs (env ++ ex) vs st' (holds_app _ ex _ _ H)). unfold expr_sim in IH2.
    destruct (x_expr vs e2 st') as [[a2 st2]|q]; [|intros k; rewrite K; apply IH2].
    destruct IH2 as (r2 & ex2 & E2 & K2). specialize (IH3 regs ((env ++ ex) ++ ex2) vs st2 (holds_app _ _ _ _ (holds_app _ ex _ _ H))). unfold expr_sim in IH3.
    destruct (x_expr vs e3 st2) as [[a3 st3]|q]; [|intros k; rewrite K, K2; apply IH3].
    destruct IH3 as (r3 & ex3 & E3 & K3).
    assert (nth_error (((env ++ ex) ++ ex2) ++ ex3) r = Some a) as E' by (now apply nth_more, nth_more).
    assert (nth_error (((env ++ ex) ++ ex2) ++ ex3) r2 = Some a2) as E2' by (now apply nth_more).
    destruct (m_mul_add fop a a2 a3 st3) as [[v st4]|q] eqn:M.
    + exists (length (((env ++ ex) ++ ex2) ++ ex3)), (ex ++ ex2 ++ ex3 ++ [v]). rewrite !app_assoc, nth_last, len_snoc. split; auto.
      intros k. rewrite K, K2, K3. cbn. unfold mbind, mlift. now rewrite (get_is _ _ _ E3), (get_is _ _ _ E2'), (get_is _ _ _ E'), M.
    + intros k. rewrite K, K2, K3. cbn. unfold mbind, mlift. now rewrite (get_is _ _ _ E3), (get_is _ _ _ E2'), (get_is _ _ _ E'), M.
Qed.

Lemma run_values xs : forall regs env vs st, holds env regs vs ->
  match values val vs xs st with
  | Ok (l, st') => st' = st /\ forall k, run (t_values xs regs k) env st = run (k l) env st
  | Panic p => forall k, run (t_values xs regs k) env st = Panic p
  end.
Proof.
  induction xs as [|x xs IH]; intros regs env vs st H; cbn [values t_values].
  - cbn. auto.
  - pose proof (holds_nth _ _ _ x H) as N. unfold mbind, var. destruct (nth_error vs x) as [v|].
    + destruct N as (r & -> & E). cbn. unfold mbind, mlift. rewrite (get_is _ _ _ E).
      specialize (IH regs env vs st H). destruct (values val vs xs st) as [[l st']|q].
      * destruct IH as [-> K]. split; auto. intros k. apply K.
      * intros k. apply IH.
    + rewrite N. cbn. auto.
Qed.

Lemma stmt_store env regs vs x r v st : holds env regs vs -> nth_error env r = Some v ->
  stmt_sim env (fun k => t_store regs x r (length env) k) (store vs x v st) st.
Proof.
  intros H E. unfold store, t_store. rewrite (holds_len _ _ _ H). destruct (x <? length vs); cbn; auto.
  exists (update regs x r), []. rewrite app_nil_r. split; auto. now apply holds_update.
Qed.

Lemma sim_after env ex (t t' : (list nat -> nat -> prog S) -> prog S) o st st' :
  (forall k, run (t k) env st = run (t' k) (env ++ ex) st') -> stmt_sim (env ++ ex) t' o st' -> stmt_sim env t o st.
Proof.
  intros K H. unfold stmt_sim in *. destruct o as [[vs st2]|q].
  - destruct H as (regs & ex2 & A & B). exists regs, (ex ++ ex2). rewrite app_assoc. split; auto. intros k. now rewrite K.
  - intros k. now rewrite K.
Qed.
Lemma sim_same env (t t' : (list nat -> nat -> prog S) -> prog S) o st :
  (forall k, run (t k) env st = run (t' k) env st) -> stmt_sim env t' o st -> stmt_sim env t o st.
Proof.
  intros K H. unfold stmt_sim in *. destruct o as [[vs st2]|q].
  - destruct H as (regs & ex2 & A & B). exists regs, ex2. split; auto. intros k. now rewrite K.
  - intros k. now rewrite K.
Qed.
Lemma sim_leave env n (t : (list nat -> nat -> prog S) -> prog S) (m : M St (list V)) st (vs : list V) : length vs = n -> stmt_sim env t (m st) st ->
  stmt_sim env (fun k => t (fun regs' n' => k (firstn n regs') n')) (leave vs m st) st.
Proof.
  intros L H. unfold leave, mbind. unfold stmt_sim in *. destruct (m st) as [[vs' st2]|q]; [|auto].
  destruct H as (regs & ex & A & B). cbn. rewrite L. exists (firstn n regs), ex. split; [now apply holds_firstn|]. intros k. apply B.
Qed.

Lemma run_stmt s : forall regs env vs st, holds env regs vs ->
  stmt_sim env (t_stmt conv s regs (length env)) (x_stmt s vs st) st.
Proof.
  induction s as [|e|x e|o x e|o x c|s1 IH1 s2 IH2|xs test s1 IH1 s2 IH2|n body IH|bound xs test body IH|]; intros regs env vs st H; cbn [Source.x_stmt t_stmt].
  - cbn. exists regs, []. rewrite app_nil_r. auto.
  - pose proof (run_expr e _ _ _ st H) as E. unfold mbind. unfold expr_sim in E. destruct (x_expr vs e st) as [[v st']|q]; [|cbn; intros k; apply E].
    destruct E as (r & ex & E & K). cbn. exists (regs ++ [r]), ex. split; [apply holds_snoc; auto; now apply holds_app|]. intros k. now rewrite K.
  - pose proof (run_expr e _ _ _ st H) as E. unfold mbind. unfold expr_sim in E. destruct (x_expr vs e st) as [[v st']|q]; [|cbn; intros k; apply E].
    destruct E as (r & ex & E & K). eapply (sim_after env ex); [intros k; rewrite K; cbv beta; reflexivity|]. apply stmt_store; auto. now apply holds_app.
  - pose proof (run_expr e _ _ _ st H) as E. unfold mbind. unfold expr_sim in E. destruct (x_expr vs e st) as [[v st']|q]; [|cbn; intros k; apply E].
    destruct E as (r & ex & E & K). eapply (sim_after env ex); [intros k; rewrite K; cbv beta; reflexivity|]. cbv beta.
    pose proof (holds_app _ ex _ _ H) as H'. pose proof (holds_nth _ _ _ x H') as N. unfold var. destruct (nth_error vs x) as [a|].
    2:{ rewrite N. cbn. auto. }
    destruct N as (ra & -> & Ea). cbn. destruct (meth2 So fop cst (a_bin o) a v st') as [[z st2]|q] eqn:M.
    + eapply sim_after with (ex := [z]); [intros k; cbn; unfold mbind, mlift; rewrite (get_is _ _ _ E), (get_is _ _ _ Ea), M; reflexivity|].
      rewrite <- len_snoc with (v := z). apply stmt_store; [now apply holds_app|apply nth_last].
    + cbn. intros k. unfold mbind, mlift. now rewrite (get_is _ _ _ E), (get_is _ _ _ Ea), M.
  - pose proof (holds_nth _ _ _ x H) as N. unfold mbind, var. destruct (nth_error vs x) as [a|].
    2:{ rewrite N. cbn. auto. }
    destruct N as (ra & -> & Ea). cbn.
    assert (nth_error (env ++ [cst (conv c)]) ra = Some a) as E' by (now apply nth_more).
    destruct (meth2 So fop cst (a_bin o) a (cst (conv c)) st) as [[z st2]|q] eqn:M.
    + eapply sim_after with (ex := [cst (conv c); z]) (st' := st2).
      { intros k. cbn. unfold mbind, mlift. rewrite (get_is _ _ _ E'), (get_is _ _ _ (nth_last _ _)), M.
        rewrite <- app_assoc. cbn [app].
        replace (length env + 1) with (length (env ++ [cst (conv c)])) by apply len_snoc.
        replace (length env + 2) with (length (env ++ [cst (conv c); z])) by (rewrite app_length; reflexivity). reflexivity. }
      apply stmt_store; [now apply holds_app|].
      replace (env ++ [cst (conv c); z]) with ((env ++ [cst (conv c)]) ++ [z]) by (rewrite <- app_assoc; reflexivity). apply nth_last.
    + cbn. intros k. unfold mbind, mlift. now rewrite (get_is _ _ _ E'), (get_is _ _ _ (nth_last _ _)), M.
  - unfold mbind. specialize (IH1 regs env vs st H). unfold stmt_sim in IH1. destruct (x_stmt s1 vs st) as [[vs1 st1]|q]; [|cbn; intros k; apply IH1].
    destruct IH1 as (regs1 & ex & H1 & K). eapply (sim_after env ex); [intros k; rewrite K; cbv beta; reflexivity|]. now apply IH2.
  - unfold mbind. pose proof (run_values xs _ _ _ st H) as R. destruct (values val vs xs st) as [[l st']|q]; [|cbn; intros k; apply R].
    destruct R as [-> R]. eapply sim_same; [intros k; rewrite R; cbv beta; reflexivity|]. cbv beta. rewrite (holds_len _ _ _ H).
    destruct (test l); apply sim_leave; auto.
  - generalize 0. revert regs env vs st H. induction n as [|n IHn]; intros regs env vs st H i; cbn [x_times t_times].
    + cbn. exists regs, []. rewrite app_nil_r. auto.
    + unfold mbind. pose proof (sim_leave env (length vs) _ (x_stmt (body i) vs) st vs eq_refl (IH i regs env vs st H)) as R. unfold stmt_sim in R.
      rewrite (holds_len _ _ _ H). destruct (leave vs (x_stmt (body i) vs) st) as [[vs1 st1]|q].
      * destruct R as (regs1 & ex & H1 & K). eapply (sim_after env ex); [|apply (IHn regs1 (env ++ ex) vs1 st1 H1 (i + 1))].
        intros k. apply (K (fun regs n0 => t_times _ n (i + 1) regs n0 k)).
      * intros k. apply (R (fun regs n0 => t_times _ n (i + 1) regs n0 k)).
  - revert regs env vs st H. induction bound as [|n IHn]; intros regs env vs st H; cbn [x_while t_while].
    + unfold mbind at 1. pose proof (run_values xs _ _ _ st H) as R. destruct (values val vs xs st) as [[l st']|q]; [|cbn; intros k; apply R].
      destruct R as [-> R]. eapply sim_same; [intros k; rewrite R; cbv beta; reflexivity|]. destruct (test l); cbn; auto. exists regs, []. rewrite app_nil_r. auto.
    + unfold mbind at 1. pose proof (run_values xs _ _ _ st H) as R. destruct (values val vs xs st) as [[l st']|q]; [|cbn; intros k; apply R].
      destruct R as [-> R]. eapply sim_same; [intros k; rewrite R; cbv beta; reflexivity|]. destruct (test l).
      2:{ cbn. exists regs, []. rewrite app_nil_r. auto. }
      unfold mbind. pose proof (sim_leave env (length vs) _ (x_stmt body vs) st vs eq_refl (IH regs env vs st H)) as Q. unfold stmt_sim in Q.
      rewrite (holds_len _ _ _ H). destruct (leave vs (x_stmt body vs) st) as [[vs1 st1]|q].
      * destruct Q as (regs1 & ex & H1 & K). eapply (sim_after env ex); [|apply (IHn regs1 (env ++ ex) vs1 st1 H1)].
        intros k. apply (K (fun regs n0 => t_while _ _ _ n regs n0 k)).
      * intros k. apply (Q (fun regs n0 => t_while _ _ _ n regs n0 k)).
  - cbn. auto.
Qed.

Lemma run_outs l : forall regs env vs st acc accv, holds env regs vs -> holds env acc accv ->
  run (t_outs l regs acc) env st =
  mbind (x_outs vs l) (fun r => mret (accv ++ r)) st.
Proof.
  induction l as [|x l IH]; intros regs env vs st acc accv H A; cbn [t_outs x_outs].
  - cbn. unfold mlift. assert (mapM (get env) acc = Ok accv) as ->; [|unfold mret; now rewrite app_nil_r].
    clear H. induction A as [|r v acc accv E A IH]; cbn; auto. rewrite (get_is _ _ _ E). cbn. rewrite IH. reflexivity.
  - pose proof (holds_nth _ _ _ x H) as N. unfold mbind, var. destruct (nth_error vs x) as [v|].
    + destruct N as (r & -> & E). cbn. rewrite (IH regs env vs st (acc ++ [r]) (accv ++ [v]) H (holds_snoc _ _ _ _ _ A E)).
      unfold mbind. match goal with |- context [match ?X with Ok _ => _ | Panic _ => _ end] => destruct X as [[r0 s0]|q] end; cbn; auto.
      unfold mret. now rewrite <- app_assoc.
    + rewrite N. cbn. auto.
Qed.

Theorem run_translate (f : source S D) xs st : run (translate conv (length xs) f) xs st = x_run So conv fop cst val f xs st.
Proof.
  unfold translate, x_run, mbind at 1. pose proof (run_stmt (fst f) _ _ _ st (holds_start xs)) as R. unfold stmt_sim in R.
  destruct (x_stmt (fst f) xs st) as [[vs st']|q]; [|apply R].
  destruct R as (regs & ex & H & K). rewrite K. rewrite (run_outs (snd f) regs _ vs st' [] [] H (Forall2_nil _)).
  unfold mbind. cbn [app]. match goal with |- context [match ?X with Ok _ => _ | Panic _ => _ end] => destruct X as [[r0 s0]|q] end; auto.
Qed.
End Run.
