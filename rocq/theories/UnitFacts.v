(** The library's unit tests, for all inputs. *)
From Coq Require Import Reals Lra List Arith ZArith Bool Lia.
From Verif Require Import Base Float Operation Tape AContext Methods Function Spec TapeFacts AContextFacts
  RealInst Param Instances FunctionFacts MethodSpec MethodFacts Native NativeFacts Build UnitTests Checkpoint CheckSpec CheckRun CheckMain.
Import ListNotations.
Local Close Scope R_scope.

(** ** vector_10_max *)
Lemma get_some {A} (l : list A) i a : nth_error l i = Some a -> get l i = Ok a.
Proof. unfold get. intros ->. reflexivity. Qed.
Lemma nth_app_l {A} (l e : list A) i a : nth_error l i = Some a -> nth_error (l ++ e) i = Some a.
Proof. intros H. rewrite nth_error_app1; auto. apply nth_error_Some. congruence. Qed.
Lemma nth_last {A} (l : list A) a : nth_error (l ++ [a]) (length l) = Some a.
Proof. rewrite nth_error_app2, Nat.sub_diag; auto. Qed.

Section MaxR.
Context (x : list R).
Lemma max_loop_R k : forall i acc env a,
  (forall j e, nth_error x j = Some e -> nth_error env j = Some e) -> nth_error env acc = Some a ->
  i + k <= length x ->
  exists m, run Rops (v_fop Rops) (fun c => c) (fun v => v) (max_loop i k acc (length env)) env tt = Ok ([m], tt) /\
    (m = a \/ In m x) /\ (a <= m)%R /\ (forall j e, i <= j < i + k -> nth_error x j = Some e -> (e <= m)%R).
Proof.
  induction k as [|k IH]; intros i acc env a HX HA HL; cbn [max_loop].
  - exists a. cbn. unfold mlift. rewrite (get_some _ _ _ HA). cbn. split; auto. split; auto. split; [lra|lia].
  - destruct (nth_error x i) as [e|] eqn:Ee; [|apply nth_error_None in Ee; lia].
    cbn [run]. unfold mbind at 1, mlift at 1. rewrite (get_some _ _ _ HA). unfold mbind at 1, mlift at 1.
    rewrite (get_some _ _ _ (HX _ _ Ee)). unfold mbind at 1. rewrite real2 by exact I. cbn [sem2].
    replace (length env + 1) with (length (env ++ [Rmax a e])) by (rewrite app_length; auto).
    destruct (IH (i + 1) (length env) (env ++ [Rmax a e]) (Rmax a e)) as (m & E & H1 & H2 & H3).
    { intros j u Hu. apply nth_app_l; auto. } { apply nth_last. } { lia. }
    exists m. split; [exact E|].
    pose proof (Rmax_l a e). pose proof (Rmax_r a e).
    split; [|split; [lra|]].
    + destruct H1 as [->|H1]; auto. unfold Rmax. destruct (Rle_dec a e); auto. right. eapply nth_error_In; eauto.
    + intros j u Hj Hu. destruct (Nat.eq_dec j i) as [->|N]; [|apply (H3 j); auto; lia].
      rewrite Ee in Hu. injection Hu as <-. lra.
Qed.
End MaxR.

Theorem vector_max_value n x w : 1 <= n -> length x = n ->
  exists m, eval_float Rops (vector_max n) x w = Ok ([m], w) /\ In m x /\ forall e, In e x -> (e <= m)%R.
Proof.
  intros Hn HL. destruct x as [|x0 x]; [cbn in HL; lia|].
  destruct (max_loop_R (x0 :: x) (n - 1) 1 0 (x0 :: x) x0) as (m & E & H1 & H2 & H3); auto; [cbn in *; lia|].
  exists m. rewrite eval_float_v. unfold v_eval, vector_max. cbn [feval]. unfold mbind, mlift.
  rewrite HL, Nat.eqb_refl in *. cbn [assert bind]. rewrite E. cbn [bind fst assert length Nat.eqb mret]. split; [reflexivity|]. split.
  - destruct H1 as [->|H1]; [left; reflexivity|exact H1].
  - intros e He. apply In_nth_error in He as (j & Hj). destruct j as [|j]; [cbn in Hj; injection Hj as <-; auto|].
    assert (Datatypes.S j < length (x0 :: x)) by (apply nth_error_Some; congruence).
    apply (H3 (Datatypes.S j)); auto. lia.
Qed.

(** ** Recording in a context that is alive *)
Section Live.
Context {F : Type} (Fo : Fops F).
Definition in_ctx (c : nat) (x : AF F) : Prop := exists k, af_ctx x = Some (c, k).
Definition fits (c : nat) (x : AF F) : Prop := af_ctx x = None \/ in_ctx c x.
Definition count (oc : OpCode) (ops : list operation) : nat :=
  length (filter (fun o => opcode_eqb (opcode o) oc) ops).

(** what context [c] contains: inputs, outputs, and how many abs *)
Definition state (w : world F) (c : nat) (ni nd na : nat) : Prop :=
  exists i, w_ctx w c = Some i /\ length (i_indeps i) = ni /\ length (i_deps i) = nd /\ length (filter is_abs (i_ops i)) = na.

Lemma upd_same (w : world F) c i : w_ctx (upd_ctx w c i) c = i.
Proof. cbn. now rewrite Nat.eqb_refl. Qed.

Lemma ensure_state w c ni nd na x : state w c ni nd na -> fits c x ->
  exists j w', ensure_id Some c x w = Ok (j, w') /\ state w' c ni nd na.
Proof.
  intros (i & Hi & H1 & H2 & H3) [Hx|(k & Hx)]; unfold ensure_id; rewrite Hx; [|eexists _, w; split; [reflexivity|exists i; auto]].
  unfold record, with_ctx. rewrite Hi. cbn. eexists _, _. split; [reflexivity|].
  eexists. rewrite upd_same. split; [reflexivity|]. cbn. split; auto. split; auto.
  rewrite filter_app. cbn. now rewrite app_nil_r.
Qed.

Lemma pick_fits c x y : fits c x -> match y with Some y' => fits c y' | None => True end ->
  (in_ctx c x \/ exists y', y = Some y' /\ in_ctx c y') -> pick_cid x y = Ok (Some c).
Proof.
  unfold pick_cid. intros Hx Hy H. destruct y as [y|].
  - destruct Hy as [Ey|(k & Ey)]; rewrite Ey; destruct Hx as [Ex|(j & Ex)]; rewrite Ex; auto.
    + exfalso. destruct H as [(j & E)|(y' & E & (j & E'))]; congruence.
    + rewrite Nat.eqb_refl. reflexivity.
  - destruct H as [(j & E)|(y' & E & _)]; [rewrite E; auto|discriminate].
Qed.

Lemma op_state w c ni nd na oc x y : state w c ni nd na -> arity_ok oc y -> fits c x ->
  match y with Some y' => fits c y' | None => True end ->
  (in_ctx c x \/ exists y', y = Some y' /\ in_ctx c y') ->
  exists r w', from_op Fo Some oc x y w = Ok (r, w') /\ in_ctx c r /\
    state w' c ni nd (na + if opcode_eqb oc Abs then 1 else 0).
Proof.
  intros HS Ha Hx Hy H. unfold from_op, mbind, mlift.
  destruct (zero_order_value_total Fo oc (af_v x) (option_map af_v y)) as [v ->].
  { destruct y; cbn in *; [right; split; auto; discriminate | auto]. }
  destruct (first_order_value_total Fo oc (af_v x) (option_map af_v y) (af_dv x)
              (option_map af_dv y)) as [dv ->].
  { destruct y; cbn in *; [right; repeat split; auto; discriminate | auto]. }
  rewrite (pick_fits c x y Hx Hy H). unfold from_cid.
  destruct HS as (i & Hi & HS). rewrite Hi.
  destruct (ensure_state w c ni nd na x) as (j & w1 & -> & HS1); [exists i; auto|auto|].
  assert (forall w2 a2, state w2 c ni nd na -> exists r w', (k <~ record Some c oc v (Some j) a2 ;; mret (mkAF v dv (Some (c, k)))) w2 = Ok (r, w') /\
    in_ctx c r /\ state w' c ni nd (na + if opcode_eqb oc Abs then 1 else 0)) as HR.
  { intros w2 a2 (i2 & Hi2 & L1 & L2 & L3). unfold mbind, record, with_ctx. rewrite Hi2. cbn.
    eexists _, _. split; [reflexivity|]. split; [eexists; reflexivity|].
    eexists. rewrite upd_same. split; [reflexivity|]. cbn. split; auto. split; auto.
    rewrite filter_app, app_length, L3. cbn. unfold is_abs. cbn. destruct (opcode_eqb oc Abs); reflexivity. }
  destruct y as [y|].
  - destruct (ensure_state w1 c ni nd na y) as (j2 & w2 & -> & HS2); auto. cbn. apply (HR w2 (Some j2) HS2).
  - cbn. apply (HR w1 None HS1).
Qed.

Lemma max_state w c ni nd na x y : state w c ni nd na -> in_ctx c x -> in_ctx c y ->
  exists r w', meth2 Fo (from_op Fo Some) (af_const Fo) BMax x y w = Ok (r, w') /\ in_ctx c r /\ state w' c ni nd (na + 1).
Proof.
  intros HS Hx Hy. cbn [meth2]. unfold m_max, m_add, m_sub, m_abs, m_mul.
  assert (forall z, in_ctx c z -> fits c z) as FI by (right; auto).
  destruct (op_state w c ni nd na Add x (Some y) HS eq_refl) as (r1 & w1 & E1 & I1 & S1); auto.
  unfold mbind at 1. rewrite E1.
  destruct (op_state w1 c ni nd _ Sub x (Some y) S1 eq_refl) as (r2 & w2 & E2 & I2 & S2); auto.
  unfold mbind at 1. rewrite E2.
  destruct (op_state w2 c ni nd _ Abs r2 None S2 eq_refl) as (r3 & w3 & E3 & I3 & S3); auto.
  unfold mbind at 1. rewrite E3.
  destruct (op_state w3 c ni nd _ Add r1 (Some r3) S3 eq_refl) as (r4 & w4 & E4 & I4 & S4); auto.
  unfold mbind at 1. rewrite E4.
  destruct (op_state w4 c ni nd _ Mul (af_const Fo (f_half Fo)) (Some r4) S4 eq_refl) as (r5 & w5 & E5 & I5 & S5); eauto.
  { left; reflexivity. }
  exists r5, w5. split; [exact E5|]. split; auto. cbn in S5. rewrite !Nat.add_0_r in S5. exact S5.
Qed.

Lemma max_loop_state n c ni nd k : forall i acc env a w na,
  (forall j, j < n -> exists e, nth_error env j = Some e /\ in_ctx c e) ->
  nth_error env acc = Some a -> in_ctx c a -> i + k <= n -> state w c ni nd na ->
  exists m w', run Fo (from_op Fo Some) (af_const Fo) af_v (max_loop i k acc (length env)) env w = Ok ([m], w') /\
    in_ctx c m /\ state w' c ni nd (na + k).
Proof.
  induction k as [|k IH]; intros i acc env a w na HX HA IA HL HS; cbn [max_loop].
  - exists a, w. cbn. unfold mlift. rewrite (get_some _ _ _ HA). cbn. rewrite Nat.add_0_r. auto.
  - destruct (HX i) as (e & Ee & Ie); [lia|].
    cbn [run]. unfold mbind at 1, mlift at 1. rewrite (get_some _ _ _ HA). unfold mbind at 1, mlift at 1.
    rewrite (get_some _ _ _ Ee). unfold mbind at 1.
    destruct (max_state w c ni nd na a e HS IA Ie) as (r & w1 & -> & I1 & S1).
    replace (length env + 1) with (length (env ++ [r])) by (rewrite app_length; auto).
    destruct (IH (i + 1) (length env) (env ++ [r]) r w1 (na + 1)) as (m & w' & E & H1 & H2); auto.
    { intros j Hj. destruct (HX j Hj) as (u & Hu & Iu). exists u. split; auto. apply nth_app_l; auto. }
    { apply nth_last. } { lia. }
    exists m, w'. split; auto. split; auto. replace (na + Datatypes.S k) with (na + 1 + k) by lia. auto.
Qed.

Lemma set_indeps_state c xs : forall w ni nd na, state w c ni nd na ->
  exists ys w', set_indeps Some c xs w = Ok (ys, w') /\ length ys = length xs /\ Forall (in_ctx c) ys /\
    state w' c (ni + length xs) nd na.
Proof.
  induction xs as [|x xs IH]; intros w ni nd na HS; cbn [set_indeps length].
  - exists [], w. cbn. rewrite Nat.add_0_r. auto.
  - destruct HS as (i & Hi & L1 & L2 & L3). unfold mbind, set_indep, with_ctx. rewrite Hi. cbn.
    match goal with |- context [set_indeps Some c xs ?W] => destruct (IH W (ni + 1) nd na) as (ys & w' & E & L & HF & S') end.
    { eexists. rewrite upd_same. split; [reflexivity|]. cbn. rewrite app_length. cbn. auto. }
    rewrite E. cbn. eexists _, w'. split; [reflexivity|]. cbn. split; auto. split; [constructor; auto; eexists; reflexivity|].
    replace (ni + Datatypes.S (length xs)) with (ni + 1 + length xs) by lia. auto.
Qed.

Theorem vector_max_tape n x w : 1 <= n -> length x = n ->
  exists t w', fn_tape Fo (vector_max n) x w = Ok (t, w') /\ num_indeps t = n /\ num_deps t = 1 /\ num_abs t = n - 1.
Proof.
  intros Hn HL. unfold fn_tape. unfold mbind at 1. cbn [ctx_new].
  set (c := w_next w). set (w0 := mkWorld _ _).
  assert (state w0 c 0 0 0) as S0.
  { exists (mkInner [] [] [] []). split; [|auto]. cbn. now rewrite Nat.eqb_refl. }
  destruct (set_indeps_state c (map (af_const Fo) x) w0 0 0 0 S0) as (ys & w1 & E1 & L1 & F1 & S1).
  unfold mbind at 1. rewrite E1. rewrite map_length, HL in *.
  unfold mbind at 1. unfold eval, vector_max. cbn [feval]. unfold mbind at 1, mlift at 1. rewrite L1, Nat.eqb_refl. cbn [assert].
  destruct ys as [|y ys]; [cbn in L1; lia|].
  destruct (max_loop_state n c (0 + n) 0 (n - 1) 1 0 (y :: ys) y w1 0) as (m & w2 & E2 & I2 & S2); auto.
  { intros j Hj. destruct (nth_error (y :: ys) j) as [e|] eqn:E; [|apply nth_error_None in E; lia].
    exists e. split; auto. rewrite Forall_forall in F1. apply F1. eapply nth_error_In; eauto. }
  { inversion F1; auto. } { lia. }
  unfold mbind at 1. rewrite L1 in E2. rewrite E2. cbn [length Nat.eqb assert]. unfold mbind at 1, mlift at 1. unfold mret at 1.
  destruct I2 as (k & Ek). destruct S2 as (i & Hi & N1 & N2 & N3).
  unfold mbind at 1. cbn [set_dep_slice]. unfold mbind at 1. unfold set_dep, with_ctx. rewrite Hi, Ek, Nat.eqb_refl. cbn [assert bind mret].
  unfold mbind at 1. unfold ctx_tape, with_ctx. rewrite upd_same. cbn [mbind ctx_drop mret].
  eexists _, _. split; [reflexivity|]. unfold num_indeps, num_deps, num_abs. cbn. rewrite app_length, N2, N3. auto.
Qed.
End Live.
