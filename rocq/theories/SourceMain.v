(** Recording a source function and replaying it. *)
From Coq Require Import List Arith ZArith Bool Lia.
From Verif Require Import Base Float Operation Tape AContext Methods Function Spec Param Instances
  FunctionFacts ReplayFacts ApiFacts3 Source SourceSpec SourceFacts.
Import ListNotations.

Section Main.
Context {F D : Type} (Fo : Fops F) (conv : D -> F).
Notation vx_expr := (x_expr (D := D) Fo conv (v_fop Fo) (fun c => c)).
Notation vx_stmt := (x_stmt (D := D) Fo conv (v_fop Fo) (fun c => c) (fun v => v)).
Notation p_expr := (p_expr Fo conv).
Notation p_stmt := (p_stmt Fo conv).

(** *** On plain numbers the meaning is the one of SourceSpec.v *)
Definition says {A : Type} (o : option A) (r : res (A * unit)) : Prop :=
  match o, r with Some a, Ok (b, _) => a = b | None, Panic _ => True | _, _ => False end.

Lemma says_num1 u a : says (num1 Fo u a) (meth1 Fo (v_fop Fo) (fun c => c) u a tt).
Proof. unfold says, num1. destruct (meth1 _ _ _ u a tt) as [[r []]|]; auto. Qed.
Lemma says_num2 b a1 a2 : says (num2 Fo b a1 a2) (meth2 Fo (v_fop Fo) (fun c => c) b a1 a2 tt).
Proof. unfold says, num2. destruct (meth2 _ _ _ b a1 a2 tt) as [[r []]|]; auto. Qed.
Lemma arith_meth o a b : meth2 Fo (v_fop Fo) (fun c => c) (a_bin o) a b tt = Ok (arith Fo o a b, tt).
Proof. destruct o; reflexivity. Qed.

Ltac dS H := unfold says in H; match type of H with match ?o with _ => _ end => destruct o end;
  match type of H with match ?r with _ => _ end => destruct r as [[? []]|] end; try contradiction; subst.

Lemma says_expr vs e : says (p_expr vs e) (vx_expr vs e tt).
Proof.
  induction e as [x|c|u e IH|b e1 IH1 e2 IH2|o e IH c|o c e IH|e1 IH1 e2 IH2 e3 IH3]; cbn [SourceSpec.p_expr x_expr]; unfold mbind.
  - unfold var. destruct (nth_error vs x); cbn; auto.
  - cbn. auto.
  - dS IH; [|exact I]. apply says_num1.
  - dS IH1; [|exact I]. dS IH2; [|exact I]. apply says_num2.
  - dS IH; [|exact I]. rewrite arith_meth. reflexivity.
  - dS IH; [|exact I]. rewrite arith_meth. reflexivity.
  - dS IH1; [|exact I]. dS IH2; [|exact I]. dS IH3; [|exact I]. reflexivity.
Qed.

Lemma put_update (vs : list F) : forall x v, x < length vs -> firstn x vs ++ v :: skipn (x + 1) vs = update vs x v.
Proof.
  induction vs as [|a vs IH]; intros [|x] v L; cbn in *; try lia; auto. f_equal. apply IH. lia.
Qed.
Lemma says_put vs x v : says (p_put vs x v) (store (V := F) (St := unit) vs x v tt).
Proof.
  unfold p_put, store. destruct (x <? length vs) eqn:E; cbn; auto. apply Nat.ltb_lt in E. now apply put_update.
Qed.
Lemma says_vars vs xs : says (p_vars vs xs) (values (V := F) (fun v : F => v) vs xs tt).
Proof.
  induction xs as [|x xs IH]; cbn; auto. unfold mbind, var. destruct (nth_error vs x); cbn; auto.
  dS IH; cbn; auto.
Qed.
Definition says_out (o : outcome) (r : res (list F * unit)) : Prop := says (option_map fst o) r.
Lemma out_then o r k (m : list F -> M unit (list F)) : says_out o r -> (forall vs, says_out (k vs) (m vs tt)) ->
  says_out (p_then o k) (match r with Ok (a, s) => m a s | Panic p => Panic p end).
Proof.
  unfold says_out. intros H K. destruct o as [[vs d]|], r as [[a []]|]; cbn in *; try contradiction; auto. subst a.
  specialize (K vs). destruct (k vs) as [[vs' d']|]; cbn in *; auto.
Qed.
Lemma out_block vs o (m : M unit (list F)) : says_out o (m tt) -> says_out (p_block vs o) (leave vs m tt).
Proof. intros H. unfold p_block, leave, mbind. apply out_then; auto. intros vs'. reflexivity. Qed.
Lemma out_mark (vs : list F) b o r : says_out o r -> says_out (p_then (Some (vs, b)) (fun _ => o)) r.
Proof. unfold says_out. cbn. destruct o as [[? ?]|]; cbn; auto. Qed.

Lemma says_stmt s : forall vs, says_out (p_stmt s vs) (vx_stmt s vs tt).
Proof.
  induction s as [|e|x e|o x e|o x c|s1 IH1 s2 IH2|xs test s1 IH1 s2 IH2|n body IH|bound xs test body IH|]; intros vs; cbn [SourceSpec.p_stmt x_stmt]; unfold mbind.
  - reflexivity.
  - pose proof (says_expr vs e) as E. dS E; [|exact I]. reflexivity.
  - pose proof (says_expr vs e) as E. dS E; [|exact I]. pose proof (says_put vs x f0) as P. dS P; [|exact I]. reflexivity.
  - pose proof (says_expr vs e) as E. dS E; [|exact I]. unfold var. destruct (nth_error vs x) as [a|]; cbn; [|exact I]. rewrite arith_meth.
    pose proof (says_put vs x (arith Fo o a f0)) as P. dS P; [|exact I]. reflexivity.
  - unfold var. destruct (nth_error vs x) as [a|]; cbn; [|exact I]. rewrite arith_meth.
    pose proof (says_put vs x (arith Fo o a (conv c))) as P. dS P; [|exact I]. reflexivity.
  - apply out_then; auto.
  - pose proof (says_vars vs xs) as E. dS E; [|exact I]. destruct (test l0); apply out_mark, out_block; auto.
  - generalize 0. revert vs. induction n as [|n IHn]; intros vs i; cbn [p_times x_times]; [reflexivity|].
    unfold mbind. apply out_then; auto. apply out_block. apply IH.
  - revert vs. induction bound as [|n IHn]; intros vs; cbn [p_while x_while]; unfold mbind;
      pose proof (says_vars vs xs) as E; dS E; try exact I; (destruct (test l0); [|reflexivity]); [exact I|].
    apply out_mark, out_then; auto. apply out_block, IH.
  - exact I.
Qed.

Theorem plain_run f xs : match plain Fo conv f xs with
  | Some (ys, _) => v_run Fo (translate conv (length xs) f) xs = Ok ys
  | None => exists p, v_run Fo (translate conv (length xs) f) xs = Panic p
  end.
Proof.
  unfold v_run. rewrite run_translate. unfold x_run, plain, mbind. pose proof (says_stmt (fst f) xs) as E. unfold says_out in E.
  destruct (p_stmt (fst f) xs) as [[vs d]|], (vx_stmt (fst f) xs tt) as [[vs' []]|q]; cbn in E; try contradiction; [|cbn; eauto]. subst vs'.
  enough (says (p_vars vs (snd f)) (x_outs (V := F) vs (snd f) tt)) as O.
  { dS O; cbn; eauto. }
  induction (snd f) as [|x l IH]; cbn; auto. unfold mbind, var. destruct (nth_error vs x); cbn; auto. dS IH; cbn; auto.
Qed.

(** *** The same decisions give the same path *)
Notation resolve := (resolve Fo).
Definition reg_is (env : list F) (r : nat) (v : F) : Prop := nth_error env r = Some v.
Definition both {A B : Type} (R : list F -> A -> B -> Prop) (e1 e2 : list F) (t : (A -> nat -> prog F) -> prog F) (v1 v2 : B) : Prop :=
  exists a ex1 ex2, length ex1 = length ex2 /\ R (e1 ++ ex1) a v1 /\ R (e2 ++ ex2) a v2 /\
    forall k, resolve (k a (length (e1 ++ ex1))) (e1 ++ ex1) = resolve (k a (length (e1 ++ ex1))) (e2 ++ ex2) ->
              resolve (t k) e1 = resolve (t k) e2.

Lemma both_trans {A B A' B'} (R : list F -> A -> B -> Prop) (R' : list F -> A' -> B' -> Prop) e1 e2 t t' v1 v2 w1 w2 :
  length e1 = length e2 -> both R e1 e2 t v1 v2 ->
  (forall a ex1 ex2, length (e1 ++ ex1) = length (e2 ++ ex2) -> R (e1 ++ ex1) a v1 -> R (e2 ++ ex2) a v2 ->
     both R' (e1 ++ ex1) (e2 ++ ex2) (fun k => t' k a (length (e1 ++ ex1))) w1 w2) ->
  both R' e1 e2 (fun k => t (t' k)) w1 w2.
Proof.
  intros L (a & ex1 & ex2 & Lx & R1 & R2 & K) H.
  destruct (H a ex1 ex2) as (a' & y1 & y2 & Ly & Q1 & Q2 & K'); auto; [rewrite !app_length; lia|].
  exists a', (ex1 ++ y1), (ex2 ++ y2). rewrite !app_assoc. split; [rewrite !app_length; lia|]. split; auto.
Qed.
Lemma both_now {A B} (R : list F -> A -> B -> Prop) e1 e2 a v1 v2 : R e1 a v1 -> R e2 a v2 ->
  both R e1 e2 (fun k => k a (length e1)) v1 v2.
Proof. intros R1 R2. exists a, [], []. rewrite !app_nil_r. auto 6. Qed.
Lemma both_push e1 e2 t v1 v2 : length e1 = length e2 ->
  (forall k, resolve (k (length e1) (length e1 + 1)) (e1 ++ [v1]) = resolve (k (length e1) (length e1 + 1)) (e2 ++ [v2]) ->
     resolve (t k) e1 = resolve (t k) e2) -> both reg_is e1 e2 t v1 v2.
Proof.
  intros L K. exists (length e1), [v1], [v2]. split; auto. split; [unfold reg_is; apply nth_last|]. split; [unfold reg_is; rewrite L; apply nth_last|].
  intros k H. apply K. now rewrite len_snoc in H.
Qed.

Lemma num1_some u a v : num1 Fo u a = Some v -> meth1 Fo (v_fop Fo) (fun c => c) u a tt = Ok (v, tt).
Proof. unfold num1. destruct (meth1 _ _ _ u a tt) as [[r []]|]; congruence. Qed.
Lemma num2_some b a1 a2 v : num2 Fo b a1 a2 = Some v -> meth2 Fo (v_fop Fo) (fun c => c) b a1 a2 tt = Ok (v, tt).
Proof. unfold num2. destruct (meth2 _ _ _ b a1 a2 tt) as [[r []]|]; congruence. Qed.
Lemma res1 u r env a v p : reg_is env r a -> meth1 Fo (v_fop Fo) (fun c => c) u a tt = Ok (v, tt) ->
  resolve (Let1 u r p) env = Let1 u r (resolve p (env ++ [v])).
Proof. intros E M. cbn [Instances.resolve]. unfold mbind, mlift. now rewrite (get_is _ _ _ E), M. Qed.
Lemma res2 b r1 r2 env a1 a2 v p : reg_is env r1 a1 -> reg_is env r2 a2 -> meth2 Fo (v_fop Fo) (fun c => c) b a1 a2 tt = Ok (v, tt) ->
  resolve (Let2 b r1 r2 p) env = Let2 b r1 r2 (resolve p (env ++ [v])).
Proof. intros E1 E2 M. cbn [Instances.resolve]. unfold mbind, mlift. now rewrite (get_is _ _ _ E1), (get_is _ _ _ E2), M. Qed.
Lemma res3 r1 r2 r3 env a1 a2 a3 p : reg_is env r1 a1 -> reg_is env r2 a2 -> reg_is env r3 a3 ->
  resolve (LetMulAdd r1 r2 r3 p) env = LetMulAdd r1 r2 r3 (resolve p (env ++ [f_add Fo (f_mul Fo a1 a2) a3])).
Proof. intros E1 E2 E3. cbn [Instances.resolve]. unfold mbind, mlift. now rewrite (get_is _ _ _ E1), (get_is _ _ _ E2), (get_is _ _ _ E3). Qed.

Lemma both_const e1 e2 c : length e1 = length e2 -> both reg_is e1 e2 (fun k => LetC c (k (length e1) (length e1 + 1))) c c.
Proof. intros L. apply both_push; auto. intros k H. cbn. now rewrite H. Qed.
Lemma both_op b e1 e2 r1 r2 a1 a2 b1 b2 v1 v2 : length e1 = length e2 ->
  reg_is e1 r1 a1 -> reg_is e2 r1 a2 -> reg_is e1 r2 b1 -> reg_is e2 r2 b2 ->
  meth2 Fo (v_fop Fo) (fun c => c) b a1 b1 tt = Ok (v1, tt) -> meth2 Fo (v_fop Fo) (fun c => c) b a2 b2 tt = Ok (v2, tt) ->
  both reg_is e1 e2 (fun k => Let2 b r1 r2 (k (length e1) (length e1 + 1))) v1 v2.
Proof.
  intros L A1 A2 B1 B2 M1 M2. apply both_push; auto. intros k H. rewrite (res2 _ _ _ _ _ _ _ _ A1 B1 M1), (res2 _ _ _ _ _ _ _ _ A2 B2 M2). now rewrite H.
Qed.

Lemma both_num_r o c r e1 e2 a1 a2 : length e1 = length e2 -> reg_is e1 r a1 -> reg_is e2 r a2 ->
  both reg_is e1 e2 (fun k => LetC (conv c) (Let2 (a_bin o) r (length e1) (k (length e1 + 1) (length e1 + 2)))) (arith Fo o a1 (conv c)) (arith Fo o a2 (conv c)).
Proof.
  intros L A1 A2. exists (length e1 + 1), [conv c; arith Fo o a1 (conv c)], [conv c; arith Fo o a2 (conv c)]. split; auto.
  assert (forall env v, reg_is (env ++ [conv c; v]) (length env + 1) v) as N
    by (intros env v; unfold reg_is; rewrite nth_error_app2 by lia; replace (length env + 1 - length env) with 1 by lia; reflexivity).
  split; [apply N|]. split; [rewrite L; apply N|]. intros k H.
  replace (length (e1 ++ [conv c; arith Fo o a1 (conv c)])) with (length e1 + 2) in H by (rewrite app_length; reflexivity).
  cbn [Instances.resolve]. f_equal. fold resolve.
  pose proof (res2 (a_bin o) r (length e1) (e1 ++ [conv c]) a1 (conv c) _ (k (length e1 + 1) (length e1 + 2)) (nth_more _ _ _ _ A1) (nth_last _ _) (arith_meth _ _ _)) as Q1.
  pose proof (res2 (a_bin o) r (length e1) (e2 ++ [conv c]) a2 (conv c) _ (k (length e1 + 1) (length e1 + 2)) (nth_more _ _ _ _ A2) ltac:(unfold reg_is; rewrite L; apply nth_last) (arith_meth _ _ _)) as Q2.
  cbn [Instances.resolve] in Q1, Q2. rewrite Q1, Q2, <- !app_assoc. cbn [app]. now rewrite H.
Qed.
Lemma both_num_l o c r e1 e2 a1 a2 : length e1 = length e2 -> reg_is e1 r a1 -> reg_is e2 r a2 ->
  both reg_is e1 e2 (fun k => LetC (conv c) (Let2 (a_bin o) (length e1) r (k (length e1 + 1) (length e1 + 2)))) (arith Fo o (conv c) a1) (arith Fo o (conv c) a2).
Proof.
  intros L A1 A2. exists (length e1 + 1), [conv c; arith Fo o (conv c) a1], [conv c; arith Fo o (conv c) a2]. split; auto.
  assert (forall env v, reg_is (env ++ [conv c; v]) (length env + 1) v) as N
    by (intros env v; unfold reg_is; rewrite nth_error_app2 by lia; replace (length env + 1 - length env) with 1 by lia; reflexivity).
  split; [apply N|]. split; [rewrite L; apply N|]. intros k H.
  replace (length (e1 ++ [conv c; arith Fo o (conv c) a1])) with (length e1 + 2) in H by (rewrite app_length; reflexivity).
  cbn [Instances.resolve]. f_equal. fold resolve.
  pose proof (res2 (a_bin o) (length e1) r (e1 ++ [conv c]) (conv c) a1 _ (k (length e1 + 1) (length e1 + 2)) (nth_last _ _) (nth_more _ _ _ _ A1) (arith_meth _ _ _)) as Q1.
  pose proof (res2 (a_bin o) (length e1) r (e2 ++ [conv c]) (conv c) a2 _ (k (length e1 + 1) (length e1 + 2)) ltac:(unfold reg_is; rewrite L; apply nth_last) (nth_more _ _ _ _ A2) (arith_meth _ _ _)) as Q2.
  cbn [Instances.resolve] in Q1, Q2. rewrite Q1, Q2, <- !app_assoc. cbn [app]. now rewrite H.
Qed.

Ltac inv2 E1 E2 :=
  match type of E1 with match ?a with _ => _ end = _ => let X1 := fresh "X" in destruct a eqn:X1; [|discriminate E1] end;
  match type of E2 with match ?a with _ => _ end = _ => let X2 := fresh "X" in destruct a eqn:X2; [|discriminate E2] end.

Lemma both_expr e : forall regs e1 e2 vs1 vs2 v1 v2, length e1 = length e2 -> holds e1 regs vs1 -> holds e2 regs vs2 ->
  p_expr vs1 e = Some v1 -> p_expr vs2 e = Some v2 -> both reg_is e1 e2 (t_expr conv e regs (length e1)) v1 v2.
Proof.
  induction e as [x|c|u e IH|b e1 IH1 e2 IH2|o e IH c|o c e IH|e1 IH1 e2 IH2 e3 IH3]; intros regs n1 n2 vs1 vs2 v1 v2 L H1 H2 E1 E2;
    cbn [SourceSpec.p_expr t_expr] in *.
  - pose proof (holds_nth _ _ _ x H1) as N1. pose proof (holds_nth _ _ _ x H2) as N2. rewrite E1 in N1. rewrite E2 in N2.
    destruct N1 as (r & N1 & A1), N2 as (r' & N2 & A2). rewrite N1. assert (r' = r) as -> by congruence. apply both_now; auto.
  - injection E1 as <-. injection E2 as <-. now apply both_const.
  - inv2 E1 E2. eapply both_trans; [auto|eapply IH; eauto|]. intros a ex1 ex2 L' R1 R2. cbv beta.
    apply both_push; auto. intros k H. rewrite (res1 _ _ _ _ _ _ R1 (num1_some _ _ _ E1)), (res1 _ _ _ _ _ _ R2 (num1_some _ _ _ E2)). now rewrite H.
  - inv2 E1 E2. inv2 E1 E2. eapply (both_trans _ _ _ _ _ (fun k r1 n => t_expr conv e2 regs n (fun r2 n => Let2 b r1 r2 (k n (n + 1))))); [auto|eapply IH1; eauto|]. intros a ex1 ex2 L' R1 R2. cbv beta.
    eapply (both_trans _ _ _ _ _ (fun k r2 n => Let2 b a r2 (k n (n + 1)))); [auto|eapply IH2; eauto using holds_app|]. intros a' ey1 ey2 L2 Q1 Q2. cbv beta.
    eapply both_op; eauto; try (apply nth_more; eassumption); apply num2_some; auto.
  - inv2 E1 E2. injection E1 as <-. injection E2 as <-. eapply both_trans; [auto|eapply IH; eauto|]. intros a ex1 ex2 L' R1 R2. cbv beta.
    eapply both_num_r; eauto.
  - inv2 E1 E2. injection E1 as <-. injection E2 as <-. eapply both_trans; [auto|eapply IH; eauto|]. intros a ex1 ex2 L' R1 R2. cbv beta.
    eapply both_num_l; eauto.
  - inv2 E1 E2. inv2 E1 E2. inv2 E1 E2. injection E1 as <-. injection E2 as <-.
    eapply (both_trans _ _ _ _ _ (fun k r1 n => t_expr conv e2 regs n (fun r2 n => t_expr conv e3 regs n (fun r3 n => LetMulAdd r1 r2 r3 (k n (n + 1)))))); [auto|eapply IH1; eauto|]. intros a ex1 ex2 L' R1 R2. cbv beta.
    eapply (both_trans _ _ _ _ _ (fun k r2 n => t_expr conv e3 regs n (fun r3 n => LetMulAdd a r2 r3 (k n (n + 1))))); [auto|eapply IH2; eauto using holds_app|]. intros a' ey1 ey2 L2 Q1 Q2. cbv beta.
    eapply (both_trans _ _ _ _ _ (fun k r3 n => LetMulAdd a a' r3 (k n (n + 1)))); [auto|eapply IH3; eauto using holds_app|]. intros a3 ez1 ez2 L3 T1 T2. cbv beta.
    apply both_push; auto. intros k H. erewrite (res3 a a' a3 _ _ _ _ _ (nth_more _ _ _ _ (nth_more _ _ _ _ R1)) (nth_more _ _ _ _ Q1) T1).
    erewrite (res3 a a' a3 _ _ _ _ _ (nth_more _ _ _ _ (nth_more _ _ _ _ R2)) (nth_more _ _ _ _ Q2) T2). now rewrite H.
Qed.

Lemma res_values xs : forall regs env vs l k, holds env regs vs -> p_vars vs xs = Some l -> resolve (t_values xs regs k) env = resolve (k l) env.
Proof.
  induction xs as [|x xs IH]; intros regs env vs l k H E; cbn [p_vars t_values] in *; [now injection E as <-|].
  pose proof (holds_nth _ _ _ x H) as N. destruct (nth_error vs x) as [v|]; [|discriminate]. destruct N as (r & -> & G).
  destruct (p_vars vs xs) as [l'|] eqn:E2; [|discriminate]. injection E as <-. cbn [Instances.resolve]. rewrite (get_is _ _ _ G).
  rewrite (IH regs env vs l' _ H E2). reflexivity.
Qed.

Lemma p_put_some (vs : list F) x v w : p_put vs x v = Some w -> x <? length vs = true /\ w = update vs x v.
Proof.
  unfold p_put. destruct (x <? length vs) eqn:E; [|discriminate]. intros [= <-]. split; auto. apply put_update. now apply Nat.ltb_lt.
Qed.
Lemma both_store e1 e2 regs (vs1 vs2 : list F) x r (v1 v2 : F) w1 w2 : length e1 = length e2 -> holds e1 regs vs1 -> holds e2 regs vs2 ->
  reg_is e1 r v1 -> reg_is e2 r v2 -> p_put vs1 x v1 = Some w1 -> p_put vs2 x v2 = Some w2 ->
  both holds e1 e2 (fun k => t_store regs x r (length e1) k) w1 w2.
Proof.
  intros L H1 H2 R1 R2 P1 P2. apply p_put_some in P1 as [A1 ->], P2 as [A2 ->]. unfold t_store. rewrite (holds_len _ _ _ H1), A1.
  apply both_now; now apply holds_update.
Qed.
Lemma both_same {A B : Type} (R : list F -> A -> B -> Prop) e1 e2 t t' v1 v2 :
  (forall k, resolve (t k) e1 = resolve (t' k) e1) -> (forall k, resolve (t k) e2 = resolve (t' k) e2) -> both R e1 e2 t' v1 v2 -> both R e1 e2 t v1 v2.
Proof.
  intros E1 E2 (a & ex1 & ex2 & L & R1 & R2 & K). exists a, ex1, ex2. repeat split; auto. intros k H. rewrite E1, E2. auto.
Qed.
Lemma both_leave e1 e2 t n w1 w2 : both holds e1 e2 t w1 w2 ->
  both holds e1 e2 (fun k => t (fun regs' n' => k (firstn n regs') n')) (firstn n w1) (firstn n w2).
Proof.
  intros (a & ex1 & ex2 & L & R1 & R2 & K). exists (firstn n a), ex1, ex2. split; auto. split; [now apply holds_firstn|]. split; [now apply holds_firstn|].
  intros k H. apply K. exact H.
Qed.
Lemma then_some (o : outcome (F := F)) k w d : p_then o k = Some (w, d) -> exists v d1 d2, o = Some (v, d1) /\ k v = Some (w, d2) /\ d = d1 ++ d2.
Proof.
  unfold p_then. destruct o as [[v d1]|]; [|discriminate]. destruct (k v) as [[w' d2]|] eqn:E; [|discriminate]. intros [= <- <-]. eauto 8.
Qed.
Lemma block_some (vs : list F) o w d : p_block vs o = Some (w, d) -> exists v, o = Some (v, d) /\ w = firstn (length vs) v.
Proof.
  unfold p_block. intros H. apply then_some in H as (v & d1 & d2 & -> & [= <- <-] & ->). rewrite app_nil_r. eauto.
Qed.

Definition same_way (s : sstmt F D) : Prop := forall regs e1 e2 vs1 vs2 w1 w2 d1 d2 z1 z2,
  length e1 = length e2 -> holds e1 regs vs1 -> holds e2 regs vs2 ->
  p_stmt s vs1 = Some (w1, d1) -> p_stmt s vs2 = Some (w2, d2) -> d1 ++ z1 = d2 ++ z2 ->
  z1 = z2 /\ both holds e1 e2 (t_stmt conv s regs (length e1)) w1 w2.

Ltac inv1 E := match type of E with match ?a with _ => _ end = _ => let X1 := fresh "X" in destruct a eqn:X1; [|discriminate E] end.

Lemma both_stmt s : same_way s.
Proof.
  induction s as [|e|x e|o x e|o x c|s1 IH1 s2 IH2|xs test s1 IH1 s2 IH2|n body IH|bound xs test body IH|];
    intros regs e1 e2 vs1 vs2 w1 w2 d1 d2 z1 z2 L H1 H2 E1 E2 Z; cbn [SourceSpec.p_stmt t_stmt] in *.
  - injection E1 as <- <-. injection E2 as <- <-. split; [exact Z|]. now apply both_now.
  - inv2 E1 E2. injection E1 as <- <-. injection E2 as <- <-. split; [exact Z|].
    eapply (both_trans _ _ _ _ _ (fun k r n => k (regs ++ [r]) n)); [auto|eapply both_expr; eauto|]. intros a ex1 ex2 L' R1 R2. cbv beta.
    apply both_now; apply holds_snoc; auto using holds_app.
  - inv2 E1 E2. inv2 E1 E2. injection E1 as <- <-. injection E2 as <- <-. split; [exact Z|].
    eapply (both_trans _ _ _ _ _ (fun k r n => t_store regs x r n k)); [auto|eapply both_expr; eauto|]. intros a ex1 ex2 L' R1 R2. cbv beta.
    eapply both_store; eauto using holds_app.
  - inv2 E1 E2. inv2 E1 E2. inv2 E1 E2. injection E1 as <- <-. injection E2 as <- <-. split; [exact Z|].
    eapply (both_trans _ _ _ _ _ (fun k r n => match nth_error regs x with Some a => Let2 (a_bin o) a r (t_store regs x n (n + 1) k) | None => Abort end)); [auto|eapply both_expr; eauto|].
    intros a ex1 ex2 L' R1 R2. cbv beta.
    pose proof (holds_nth _ _ _ x (holds_app _ ex1 _ _ H1)) as N1. pose proof (holds_nth _ _ _ x (holds_app _ ex2 _ _ H2)) as N2. rewrite X1 in N1. rewrite X2 in N2.
    destruct N1 as (r & N1 & A1), N2 as (r' & N2 & A2). rewrite N1. assert (r' = r) as -> by congruence.
    eapply (both_trans _ _ _ _ (fun k => Let2 (a_bin o) r a (k (length (e1 ++ ex1)) (length (e1 ++ ex1) + 1))) (fun k r n => t_store regs x r n k)); [auto|eapply both_op; eauto using arith_meth|].
    intros a' ey1 ey2 L2 Q1 Q2. cbv beta. eapply both_store; eauto using holds_app.
  - inv2 E1 E2. inv2 E1 E2. injection E1 as <- <-. injection E2 as <- <-. split; [exact Z|].
    pose proof (holds_nth _ _ _ x H1) as N1. pose proof (holds_nth _ _ _ x H2) as N2. rewrite X in N1. rewrite X0 in N2.
    destruct N1 as (r & N1 & A1), N2 as (r' & N2 & A2). rewrite N1. assert (r' = r) as -> by congruence.
    eapply (both_trans _ _ _ _ (fun k => LetC (conv c) (Let2 (a_bin o) r (length e1) (k (length e1 + 1) (length e1 + 2)))) (fun k r n => t_store regs x r n k)); [auto|eapply both_num_r; eauto|].
    intros a' ey1 ey2 L2 Q1 Q2. cbv beta. eapply both_store; eauto using holds_app.
  - apply then_some in E1 as (u1 & da1 & db1 & A1 & B1 & ->), E2 as (u2 & da2 & db2 & A2 & B2 & ->). rewrite <- !app_assoc in Z.
    destruct (IH1 _ _ _ _ _ _ _ _ _ _ _ L H1 H2 A1 A2 Z) as [Z' Q]. destruct Q as (a & ex1 & ex2 & Lx & R1 & R2 & K).
    assert (length (e1 ++ ex1) = length (e2 ++ ex2)) as L' by (rewrite !app_length; lia).
    destruct (IH2 _ _ _ _ _ _ _ _ _ _ _ L' R1 R2 B1 B2 Z') as [Z2 Q2]. split; auto.
    destruct Q2 as (a' & y1 & y2 & Ly & Q1 & Q2 & K'). exists a', (ex1 ++ y1), (ex2 ++ y2). rewrite !app_assoc. split; [rewrite !app_length; lia|]. split; auto.
  - inv2 E1 E2. rename l into l1, l0 into l2. assert (length vs1 = length vs2) as LV by (rewrite <- (holds_len _ _ _ H1); apply (holds_len _ _ _ H2)).
    destruct (test l1) eqn:T1, (test l2) eqn:T2; apply then_some in E1 as (u1 & da1 & db1 & A1 & B1 & ->), E2 as (u2 & da2 & db2 & A2 & B2 & ->);
      injection A1 as <- <-; injection A2 as <- <-; try discriminate Z; injection Z as Z;
      apply block_some in B1 as (o1 & B1 & ->), B2 as (o2 & B2 & ->); rewrite <- LV.
    + destruct (IH1 _ _ _ _ _ _ _ _ _ _ _ L H1 H2 B1 B2 Z) as [Z' Q]. split; auto. rewrite (holds_len _ _ _ H1).
      eapply both_same; [intros k; rewrite (res_values _ _ _ _ _ _ H1 X), T1; reflexivity|intros k; rewrite (res_values _ _ _ _ _ _ H2 X0), T2; reflexivity|].
      now apply both_leave.
    + destruct (IH2 _ _ _ _ _ _ _ _ _ _ _ L H1 H2 B1 B2 Z) as [Z' Q]. split; auto. rewrite (holds_len _ _ _ H1).
      eapply both_same; [intros k; rewrite (res_values _ _ _ _ _ _ H1 X), T1; reflexivity|intros k; rewrite (res_values _ _ _ _ _ _ H2 X0), T2; reflexivity|].
      now apply both_leave.
  - revert E1 E2. generalize 0. revert regs e1 e2 vs1 vs2 d1 d2 L H1 H2 Z.
    induction n as [|n IHn]; intros regs e1 e2 vs1 vs2 d1 d2 L H1 H2 Z i E1 E2; cbn [p_times t_times] in *.
    + injection E1 as <- <-. injection E2 as <- <-. split; [exact Z|]. now apply both_now.
    + apply then_some in E1 as (u1 & da1 & db1 & A1 & B1 & ->), E2 as (u2 & da2 & db2 & A2 & B2 & ->). rewrite <- !app_assoc in Z.
      assert (length vs1 = length vs2) as LV by (rewrite <- (holds_len _ _ _ H1); apply (holds_len _ _ _ H2)).
      apply block_some in A1 as (o1 & A1 & ->), A2 as (o2 & A2 & ->). rewrite <- LV in *.
      destruct (IH i _ _ _ _ _ _ _ _ _ _ _ L H1 H2 A1 A2 Z) as [Z' Q]. apply (both_leave _ _ _ (length vs1)) in Q. destruct Q as (a & ex1 & ex2 & Lx & R1 & R2 & K).
      assert (length (e1 ++ ex1) = length (e2 ++ ex2)) as L' by (rewrite !app_length; lia).
      destruct (IHn _ _ _ _ _ _ _ L' R1 R2 Z' _ B1 B2) as [Z2 Q2]. split; auto. rewrite (holds_len _ _ _ H1).
      destruct Q2 as (a' & y1 & y2 & Ly & Q1 & Q2 & K'). exists a', (ex1 ++ y1), (ex2 ++ y2). rewrite !app_assoc. split; [rewrite !app_length; lia|]. split; [auto|]. split; [auto|].
      intros k HK. apply (K (fun regs n0 => t_times _ n (i + 1) regs n0 k)). apply K'. exact HK.
  - revert E1 E2. revert regs e1 e2 vs1 vs2 d1 d2 L H1 H2 Z.
    induction bound as [|n IHn]; intros regs e1 e2 vs1 vs2 d1 d2 L H1 H2 Z E1 E2; cbn [p_while t_while] in *; inv2 E1 E2; rename l into l1, l0 into l2.
    + destruct (test l1) eqn:T1; [discriminate|]. destruct (test l2) eqn:T2; [discriminate|]. injection E1 as <- <-. injection E2 as <- <-. injection Z as Z. split; auto.
      eapply both_same; [intros k; rewrite (res_values _ _ _ _ _ _ H1 X), T1; reflexivity|intros k; rewrite (res_values _ _ _ _ _ _ H2 X0), T2; reflexivity|].
      now apply both_now.
    + destruct (test l1) eqn:T1, (test l2) eqn:T2.
      2:{ apply then_some in E1 as (? & ? & ? & [= <- <-] & _ & ->). injection E2 as <- <-. discriminate Z. }
      2:{ apply then_some in E2 as (? & ? & ? & [= <- <-] & _ & ->). injection E1 as <- <-. discriminate Z. }
      2:{ injection E1 as <- <-. injection E2 as <- <-. injection Z as Z. split; auto.
          eapply both_same; [intros k; rewrite (res_values _ _ _ _ _ _ H1 X), T1; reflexivity|intros k; rewrite (res_values _ _ _ _ _ _ H2 X0), T2; reflexivity|].
          now apply both_now. }
      apply then_some in E1 as (u1 & da1 & db1 & [= <- <-] & B1 & ->), E2 as (u2 & da2 & db2 & [= <- <-] & B2 & ->). injection Z as Z.
      apply then_some in B1 as (u1 & da1 & dc1 & A1 & B1 & ->), B2 as (u2 & da2 & dc2 & A2 & B2 & ->). rewrite <- !app_assoc in Z.
      assert (length vs1 = length vs2) as LV by (rewrite <- (holds_len _ _ _ H1); apply (holds_len _ _ _ H2)).
      apply block_some in A1 as (o1 & A1 & ->), A2 as (o2 & A2 & ->). rewrite <- LV in *.
      destruct (IH _ _ _ _ _ _ _ _ _ _ _ L H1 H2 A1 A2 Z) as [Z' Q]. apply (both_leave _ _ _ (length vs1)) in Q. destruct Q as (a & ex1 & ex2 & Lx & R1 & R2 & K).
      assert (length (e1 ++ ex1) = length (e2 ++ ex2)) as L' by (rewrite !app_length; lia).
      destruct (IHn _ _ _ _ _ _ _ L' R1 R2 Z' B1 B2) as [Z2 Q2]. split; auto. rewrite (holds_len _ _ _ H1).
      eapply both_same; [intros k; rewrite (res_values _ _ _ _ _ _ H1 X), T1; reflexivity|intros k; rewrite (res_values _ _ _ _ _ _ H2 X0), T2; reflexivity|].
      destruct Q2 as (a' & y1 & y2 & Ly & Q1 & Q2 & K'). exists a', (ex1 ++ y1), (ex2 ++ y2). rewrite !app_assoc. split; [rewrite !app_length; lia|]. split; [auto|]. split; [auto|].
      intros k HK. apply (K (fun regs n0 => t_while _ _ _ n regs n0 k)). apply K'. exact HK.
  - discriminate.
Qed.

Lemma res_outs l : forall regs acc vs ys env1 env2, holds env1 regs vs -> p_vars vs l = Some ys -> resolve (t_outs l regs acc) env1 = resolve (t_outs l regs acc) env2.
Proof.
  induction l as [|x l IH]; intros regs acc vs ys env1 env2 H E; cbn [t_outs p_vars] in *; [reflexivity|].
  pose proof (holds_nth _ _ _ x H) as N. destruct (nth_error vs x) as [v|]; [|discriminate]. destruct N as (r & -> & G).
  destruct (p_vars vs l) as [l'|] eqn:E2; [|discriminate]. eapply IH; eauto.
Qed.

Theorem same_decisions f x x' y y' d : length x' = length x -> plain Fo conv f x = Some (y, d) -> plain Fo conv f x' = Some (y', d) ->
  resolve (translate conv (length x) f) x = resolve (translate conv (length x) f) x'.
Proof.
  intros L P1 P2. unfold plain in P1, P2. destruct (p_stmt (fst f) x) as [[vs1 d1]|] eqn:E1; [|discriminate].
  destruct (p_stmt (fst f) x') as [[vs2 d2]|] eqn:E2; [|discriminate].
  destruct (p_vars vs1 (snd f)) as [ys1|] eqn:V1; [|discriminate]. destruct (p_vars vs2 (snd f)) as [ys2|] eqn:V2; [|discriminate].
  injection P1 as <- <-. injection P2 as <- <-.
  pose proof (holds_start x') as HS. rewrite L in HS.
  destruct (both_stmt (fst f) _ _ _ _ _ _ _ _ _ [] [] (eq_sym L) (holds_start x) HS E1 E2 eq_refl) as [_ Q].
  destruct Q as (a & ex1 & ex2 & Lx & R1 & R2 & K). unfold translate. apply K. eapply res_outs; eauto.
Qed.

(** A function written with [adv_fn!] *)
Definition written (n : nat) (f : source F D) : func F := AdvFn n (length (snd f)) (translate conv n f).

Lemma vars_len (vs : list F) l : forall ys, p_vars vs l = Some ys -> length ys = length l.
Proof.
  induction l as [|x l IH]; cbn; intros ys E; [now injection E as <-|]. destruct (nth_error vs x); [|discriminate].
  destruct (p_vars vs l) as [r|]; [|discriminate]. injection E as <-. cbn. f_equal. auto.
Qed.
Lemma written_eval f x : match plain Fo conv f x with
  | Some (y, _) => v_eval Fo (written (length x) f) x = Ok y
  | None => exists p, v_eval Fo (written (length x) f) x = Panic p
  end.
Proof.
  unfold v_eval, written. cbn [feval]. unfold mbind, mlift, assert. rewrite Nat.eqb_refl. cbn [bind].
  pose proof (plain_run f x) as P. unfold v_run in P. destruct (plain Fo conv f x) as [[y d]|] eqn:E.
  - destruct (run _ _ _ _ _ x tt) as [[r []]|]; cbn in P; [|discriminate]. injection P as ->.
    unfold plain in E. destruct (p_stmt (fst f) x) as [[vs1 d1]|]; [|discriminate]. destruct (p_vars vs1 (snd f)) as [ys|] eqn:V; [|discriminate].
    injection E as <- <-. rewrite (vars_len _ _ _ V), Nat.eqb_refl. reflexivity.
  - destruct P as [p P]. destruct (run _ _ _ _ _ x tt) as [[r []]|q]; cbn in P; [discriminate|]. cbn. eauto.
Qed.

(** The function called with [AFloat]s is the source executed with [AFloat]s, ... *)
Theorem written_executes f (x : list (AF F)) (w : world F) y w' :
  x_run Fo conv (from_op Fo Some) (af_const Fo) af_v f x w = Ok (y, w') <-> eval Fo (written (length x) f) x w = Ok (y, w').
Proof.
  unfold eval, written. cbn [feval]. unfold mbind, mlift, assert. rewrite Nat.eqb_refl. cbn [bind]. rewrite run_translate.
  destruct (x_run _ _ _ _ _ f x w) as [[r w2]|] eqn:E; [|split; discriminate].
  assert (length r = length (snd f)) as ->; [|rewrite Nat.eqb_refl; reflexivity].
  unfold x_run, mbind in E. destruct (x_stmt _ _ _ _ _ (fst f) x w) as [[vs w1]|]; [|discriminate].
  revert w1 r E. induction (snd f) as [|a l IH]; cbn; intros w1 r E; [now injection E as <- _|].
  unfold mbind, var in E. destruct (nth_error vs a); [|discriminate]. cbn in E. destruct (x_outs vs l w1) as [[r' w3]|] eqn:E2; [|discriminate].
  injection E as <- <-. cbn. f_equal. eapply IH; eauto.
Qed.
(** ... and its tape replays the source wherever that takes the same decisions. *)
Theorem written_replays f x x' y y' d w : length x' = length x -> plain Fo conv f x = Some (y, d) -> plain Fo conv f x' = Some (y', d) ->
  exists t w' t', fn_tape Fo (written (length x) f) x w = Ok (t, w') /\ tape_y t = Ok y /\ tape_zero_order Fo t x' = Ok t' /\ tape_y t' = Ok y'.
Proof.
  intros L P1 P2. pose proof (written_eval f x) as V. rewrite P1 in V. pose proof (written_eval f x') as V'. rewrite P2, L in V'.
  pose proof (fn_tape_total Fo (written (length x) f) x w) as T. rewrite V in T. destruct T as (t & w' & T).
  destruct (replay_same_path Fo _ _ _ _ _ x' T L) as (t' & y2 & A & B & C).
  { unfold same_path, written. cbn [resolve_f]. f_equal. eapply same_decisions; eauto. }
  destruct (fn_tape_fresh Fo _ _ _ _ _ T) as (_ & (y0 & V0 & Y0 & _) & _).
  exists t, w', t'. repeat split; auto; congruence.
Qed.


(** *** Without branches on values there is nothing to agree on *)
Lemma nth_total (vs1 vs2 : list F) x v1 : length vs1 = length vs2 -> nth_error vs1 x = Some v1 -> exists v2, nth_error vs2 x = Some v2.
Proof.
  intros L E. destruct (nth_error vs2 x) as [v|] eqn:E2; [eauto|]. apply nth_error_None in E2.
  assert (x < length vs1) by (apply nth_error_Some; congruence). lia.
Qed.
Lemma expr_total e : forall vs1 vs2 v1, length vs1 = length vs2 -> p_expr vs1 e = Some v1 -> exists v2, p_expr vs2 e = Some v2.
Proof.
  induction e as [x|c|u e IH|b e1 IH1 e2 IH2|o e IH c|o c e IH|e1 IH1 e2 IH2 e3 IH3]; intros vs1 vs2 v1 L E; cbn [SourceSpec.p_expr] in *.
  - eapply nth_total; eauto.
  - eauto.
  - inv1 E. destruct (IH _ _ _ L X) as [v2 ->]. apply num1_some in E. unfold num1.
    destruct (meth1_shape Fo u f v2) as [(r1 & r2 & A & ->)|(q & A & B)]; [eauto|congruence].
  - inv1 E. inv1 E. destruct (IH1 _ _ _ L X) as [v2 ->], (IH2 _ _ _ L X0) as [v3 ->]. apply num2_some in E. unfold num2.
    destruct (meth2_shape Fo b f v2 f0 v3) as [(r1 & r2 & A & ->)|(q & A & B)]; [eauto|congruence].
  - inv1 E. destruct (IH _ _ _ L X) as [v2 ->]. eauto.
  - inv1 E. destruct (IH _ _ _ L X) as [v2 ->]. eauto.
  - inv1 E. inv1 E. inv1 E. destruct (IH1 _ _ _ L X) as [? ->], (IH2 _ _ _ L X0) as [? ->], (IH3 _ _ _ L X1) as [? ->]. eauto.
Qed.
Lemma update_len (vs : list F) : forall x v, length (update vs x v) = length vs.
Proof. induction vs as [|a vs IH]; intros [|x] v; cbn; auto. Qed.
Lemma put_total (vs1 vs2 : list F) x v1 v2 w1 : length vs1 = length vs2 -> p_put vs1 x v1 = Some w1 -> exists w2, p_put vs2 x v2 = Some w2 /\ length w1 = length w2.
Proof.
  intros L E. apply p_put_some in E as [A ->]. unfold p_put. rewrite <- L, A. eexists. split; auto. rewrite put_update; [|rewrite <- L; now apply Nat.ltb_lt].
  rewrite !update_len. auto.
Qed.
Lemma unconditional_total s : unconditional s -> forall vs1 vs2 w1 d1, length vs1 = length vs2 -> p_stmt s vs1 = Some (w1, d1) ->
  d1 = [] /\ exists w2, length w1 = length w2 /\ p_stmt s vs2 = Some (w2, []).
Proof.
  induction s as [|e|x e|o x e|o x c|s1 IH1 s2 IH2|xs test s1 IH1 s2 IH2|n body IH|bound xs test body IH|]; intros U vs1 vs2 w1 d1 L E;
    cbn [SourceSpec.p_stmt unconditional] in *; try contradiction; try discriminate.
  - injection E as <- <-. eauto.
  - inv1 E. injection E as <- <-. destruct (expr_total e _ _ _ L X) as [v2 ->]. split; auto. eexists. split; [|reflexivity]. rewrite !app_length, L. reflexivity.
  - inv1 E. inv1 E. injection E as <- <-. destruct (expr_total e _ _ _ L X) as [v2 ->]. destruct (put_total _ _ _ _ v2 _ L X0) as (w2 & -> & LL). eauto.
  - inv1 E. inv1 E. inv1 E. injection E as <- <-. destruct (expr_total e _ _ _ L X) as [v2 ->]. destruct (nth_total _ _ _ _ L X0) as [a2 ->].
    destruct (put_total _ _ _ _ (arith Fo o a2 v2) _ L X1) as (w2 & -> & LL). eauto.
  - inv1 E. inv1 E. injection E as <- <-. destruct (nth_total _ _ _ _ L X) as [a2 ->].
    destruct (put_total _ _ _ _ (arith Fo o a2 (conv c)) _ L X0) as (w2 & -> & LL). eauto.
  - destruct U as [U1 U2]. apply then_some in E as (u & da & db & A & B & ->).
    destruct (IH1 U1 _ vs2 _ _ L A) as (-> & u2 & Lu & ->). destruct (IH2 U2 _ u2 _ _ Lu B) as (-> & w2 & Lw & Q). split; auto.
    cbn. rewrite Q. eauto.
  - revert E. generalize 0. revert vs1 vs2 d1 L. induction n as [|n IHn]; intros vs1 vs2 d1 L i E; cbn [p_times] in *.
    + injection E as <- <-. eauto.
    + apply then_some in E as (u & da & db & A & B & ->). apply block_some in A as (o & A & ->).
      destruct (IH i (U i) _ vs2 _ _ L A) as (-> & o2 & Lo & Q). unfold p_block. rewrite Q. cbn.
      destruct (IHn (firstn (length vs1) o) (firstn (length vs2) o2) db) with (n := i + 1) as (-> & w2 & Lw & ->); [|auto|]; [|eauto].
      rewrite !firstn_length. lia.
Qed.
Lemma vars_total (vs1 vs2 : list F) xs : length vs1 = length vs2 -> forall y1, p_vars vs1 xs = Some y1 -> exists y2, p_vars vs2 xs = Some y2.
Proof.
  intros L. induction xs as [|x xs IH]; cbn; intros y1 E; [eauto|]. inv1 E. destruct (nth_total _ _ _ _ L X) as [v2 ->].
  destruct (p_vars vs1 xs) as [r|]; [|discriminate]. destruct (IH r eq_refl) as [y2 ->]. eauto.
Qed.
Theorem unconditional_plain f x x' y d : unconditional (fst f) -> length x' = length x -> plain Fo conv f x = Some (y, d) ->
  d = [] /\ exists y', plain Fo conv f x' = Some (y', []).
Proof.
  intros U L. unfold plain. intros E. destruct (p_stmt (fst f) x) as [[vs d1]|] eqn:P; [|discriminate].
  destruct (unconditional_total _ U _ x' _ _ (eq_sym L) P) as (-> & w2 & Lw & ->). inv1 E. injection E as <- <-. split; auto.
  destruct (vars_total _ w2 _ Lw _ X) as [y2 ->]. eauto.
Qed.

Theorem written_records f x w : (exists t w', fn_tape Fo (written (length x) f) x w = Ok (t, w')) <-> (exists y d, plain Fo conv f x = Some (y, d)).
Proof.
  pose proof (written_eval f x) as V. pose proof (fn_tape_total Fo (written (length x) f) x w) as T.
  destruct (plain Fo conv f x) as [[y d]|].
  - rewrite V in T. split; eauto.
  - destruct V as [p V]. rewrite V in T. split; [intros (t & w' & E); congruence|intros (y & d & E); discriminate].
Qed.
Theorem unconditional_replays f x w t w' x' : unconditional (fst f) -> length x' = length x ->
  fn_tape Fo (written (length x) f) x w = Ok (t, w') ->
  exists t' y', tape_zero_order Fo t x' = Ok t' /\ tape_y t' = Ok y' /\ plain Fo conv f x' = Some (y', []).
Proof.
  intros U L T. destruct (proj1 (written_records f x w)) as (y & d & P); [eauto|].
  destruct (unconditional_plain f x x' y d U L P) as (-> & y' & P').
  destruct (written_replays f x x' y y' [] w L P P') as (t2 & w2 & t' & T2 & _ & Z & Y). rewrite T in T2. injection T2 as <- <-. eauto 6.
Qed.
End Main.
