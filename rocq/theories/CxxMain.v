(** C++ programs as they are written (C97): the compiled calls on the C++ process. *)
From Coq Require Import List Arith ZArith Bool Lia Lra Reals SpecFloat.
From Flocq Require Import Core IEEE754.BinarySingleNaN.
From Verif Require Import Base Float Operation Tape AContext Methods FloatInst Ffi FfiSpec FfiFacts FfiPanicSpec FfiPanics CxxSpec CxxFacts.
Import ListNotations.
Open Scope nat_scope.

Section Main.
Context {S : Type} (So : Fops S).

(** ** No copy of an object onto itself, and as many KNew as declared contexts *)
Lemma c_expr_code e : forall n vars, let '(n1, p, r, t) := c_expr (S := S) n vars e in
  n <= n1 /\ Forall not_self_copy p /\ filter creates p = [] /\ match e with EVar _ => True | _ => n <= r < n1 end.
Proof.
  assert (forall (g : nat -> nat -> nat -> stmt S) (a b : expr S), (forall x y z, not_self_copy (g x y z) /\ creates (g x y z) = false) ->
    (forall n vars, let '(n1, p, r, t) := c_expr n vars a in n <= n1 /\ Forall not_self_copy p /\ filter creates p = [] /\ match a with EVar _ => True | _ => n <= r < n1 end) ->
    (forall n vars, let '(n1, p, r, t) := c_expr n vars b in n <= n1 /\ Forall not_self_copy p /\ filter creates p = [] /\ match b with EVar _ => True | _ => n <= r < n1 end) ->
    forall n vars, let '(n1, p1, r1, t1) := c_expr n vars a in let '(n2, p2, r2, t2) := c_expr n1 vars b in forall x y,
      n <= n2 /\ Forall not_self_copy (p1 ++ p2 ++ [g n2 x y]) /\ filter creates (p1 ++ p2 ++ [g n2 x y]) = []) as two.
  { intros g a b Hg IA IB n vars. specialize (IA n vars). destruct (c_expr n vars a) as [[[n1 p1] r1] t1].
    specialize (IB n1 vars). destruct (c_expr n1 vars b) as [[[n2 p2] r2] t2]. intros x y.
    destruct IA as (A1 & A2 & A3 & _), IB as (B1 & B2 & B3 & _), (Hg n2 x y) as (G1 & G2). split; [lia|]. split.
    - repeat (apply Forall_app; split; auto).
    - rewrite !filter_app, A3, B3. cbn. rewrite G2. reflexivity. }
  induction e as [x|c|o rl a IA b IB|o c b IB|f rl a IA b IB|f a IA]; intros n vars.
  - cbn. repeat split; auto.
  - cbn. repeat split; auto; try lia; repeat constructor.
  - cbn. destruct rl.
    + pose proof (two (SBin o) b a ltac:(split; cbn; auto) IB IA n vars) as X. destruct (c_expr n vars b) as [[[n1 p1] r1] t1].
      destruct (c_expr n1 vars a) as [[[n2 p2] r2] t2]. destruct (X r2 r1) as (X1 & X2 & X3). repeat split; auto; lia.
    + pose proof (two (SBin o) a b ltac:(split; cbn; auto) IA IB n vars) as X. destruct (c_expr n vars a) as [[[n1 p1] r1] t1].
      destruct (c_expr n1 vars b) as [[[n2 p2] r2] t2]. destruct (X r1 r2) as (X1 & X2 & X3). repeat split; auto; lia.
  - cbn. specialize (IB n vars). destruct (c_expr n vars b) as [[[n1 p1] r1] t1]. destruct IB as (B1 & B2 & B3 & _).
    repeat split; auto; try lia. { apply Forall_app; split; auto; repeat constructor. } rewrite filter_app, B3. reflexivity.
  - cbn. destruct rl.
    + pose proof (two (SFn2 f) b a ltac:(split; cbn; auto) IB IA n vars) as X. destruct (c_expr n vars b) as [[[n1 p1] r1] t1].
      destruct (c_expr n1 vars a) as [[[n2 p2] r2] t2]. destruct (X r2 r1) as (X1 & X2 & X3). repeat split; auto; lia.
    + pose proof (two (SFn2 f) a b ltac:(split; cbn; auto) IA IB n vars) as X. destruct (c_expr n vars a) as [[[n1 p1] r1] t1].
      destruct (c_expr n1 vars b) as [[[n2 p2] r2] t2]. destruct (X r1 r2) as (X1 & X2 & X3). repeat split; auto; lia.
  - cbn. specialize (IA n vars). destruct (c_expr n vars a) as [[[n1 p1] r1] t1]. destruct IA as (B1 & B2 & B3 & _).
    repeat split; auto; try lia. { apply Forall_app; split; auto; repeat constructor. } rewrite filter_app, B3. reflexivity.
Qed.
Lemma dtors_plain (t : list nat) : Forall (@not_self_copy S) (map SDtor t) /\ filter creates (map (@SDtor S) t) = [].
Proof. induction t as [|x t [I1 I2]]; cbn; split; auto; repeat constructor; auto. Qed.

Ltac ce X := match goal with |- context [c_expr ?n ?v ?e] => pose proof (c_expr_code e n v) as X;
  let n1 := fresh "n" in let p := fresh "p" in let r := fresh "r" in let t := fresh "t" in
  destruct (c_expr n v e) as [[[n1 p] r] t] end.
Definition fits (n : nat) (vars : list nat) : Prop := NoDup vars /\ Forall (fun x => x < n) vars.
Lemma fits_le n n' vars : fits n vars -> n <= n' -> fits n' vars.
Proof. intros [F1 F2] L. split; auto. eapply Forall_impl; [|exact F2]. cbn. intros; lia. Qed.
Lemma fits_cons n n' r vars : fits n vars -> n <= r < n' -> fits n' (r :: vars).
Proof.
  intros [F1 F2] L. split.
  - constructor; auto. intros H. rewrite Forall_forall in F2. apply F2 in H. lia.
  - constructor; [lia|]. eapply Forall_impl; [|exact F2]. cbn. intros; lia.
Qed.
Ltac init_case := cbn [c_simple]; let Y := fresh in ce Y; destruct Y as (Y1 & Y2 & Y3 & Y4);
  split; [eapply fits_cons; eauto|]; split; [reflexivity|]; split;
  [apply Forall_app; split; auto; apply dtors_plain|rewrite filter_app, Y3, (proj2 (dtors_plain _)); reflexivity].
Ltac assign_case := cbn [c_simple]; let Y := fresh in ce Y; destruct Y as (Y1 & Y2 & Y3 & Y4);
  split; [eapply fits_le; eauto|]; split; [reflexivity|]; split;
  [apply Forall_app; split; auto; constructor; [exact I|apply dtors_plain]|
   rewrite !filter_app, Y3, (proj2 (dtors_plain _)); reflexivity].
Lemma c_simple_code n vars ctxs nk (s : simple S) : fits n vars -> ok_simple (length vars) nk s = true ->
  let '(n1, p, it, vars', ctxs') := c_simple n vars ctxs s in
  fits n1 vars' /\ length vars' = new_v s + length vars /\ Forall not_self_copy p /\ length (filter creates p) = new_k s.
Proof.
  intros F HK. destruct s as [|e|y|k| |x e|x y|k e|e]; cbn [ok_simple] in HK.
  - cbn. split; [eapply fits_cons; eauto; lia|]. repeat split; repeat constructor.
  - destruct e as [y|c|o rl a b|o c b|f rl a b|f a].
    { cbn. split; [eapply fits_cons; eauto; lia|]. repeat split; repeat constructor. }
    all: init_case.
  - cbn. split; [eapply fits_cons; eauto; lia|]. repeat split; repeat constructor.
  - cbn. split; [eapply fits_cons; eauto; lia|]. repeat split; repeat constructor.
  - cbn. split; [eapply fits_le; eauto; lia|]. repeat split; repeat constructor.
  - destruct e as [y|c|o rl a b|o c b|f rl a b|f a].
    { cbn. split; auto. repeat split; auto. apply andb_prop in HK as [HK H3]. apply andb_prop in HK as [H1 H2].
      cbn in H2. apply Nat.ltb_lt in H1, H2. apply negb_true_iff, Nat.eqb_neq in H3. constructor; auto. cbn.
      intros E. apply H3. destruct F as [F _]. rewrite (NoDup_nth vars 0) in F. auto. }
    all: assign_case.
  - cbn. split; auto. repeat split; auto; repeat constructor.
  - cbn [c_simple]. pose proof (c_expr_code e n vars) as X. destruct (c_expr n vars e) as [[[n1 p] r] t]. destruct X as (X1 & X2 & X3 & _).
    split; [eapply fits_le; eauto|]. split; [reflexivity|]. split.
    + apply Forall_app; split; auto. constructor; [exact I|apply dtors_plain].
    + rewrite !filter_app, X3, (proj2 (dtors_plain _)). reflexivity.
  - cbn [c_simple]. pose proof (c_expr_code e n vars) as X. destruct (c_expr n vars e) as [[[n1 p] r] t]. destruct X as (X1 & X2 & X3 & _).
    split; [eapply fits_le; eauto|]. split; [reflexivity|]. split.
    + apply Forall_app; split; auto. apply dtors_plain.
    + rewrite !filter_app, X3, (proj2 (dtors_plain _)). reflexivity.
Qed.
Lemma c_end_code its : forall vars ctxs, Forall (@not_self_copy S) (c_end its vars ctxs) /\ filter creates (c_end (S := S) its vars ctxs) = [].
Proof. induction its as [|[] its IH]; intros vars ctxs; cbn; [split; auto|..]; split; repeat constructor; apply IH. Qed.
Lemma c_block_code b : forall n its vars ctxs nk, fits n vars -> ok_block (length vars) nk b = true ->
  let '(n1, p) := c_block (S := S) n its vars ctxs b in
  n <= n1 /\ Forall not_self_copy p /\ length (filter creates p) = contexts b.
Proof.
  induction b as [|s b IH|b1 IH1 b2 IH2]; intros n its vars ctxs nk F HK.
  - cbn. split; auto. destruct (c_end_code its vars ctxs) as [E1 E2]. rewrite E2. auto.
  - cbn [ok_block] in HK. apply andb_prop in HK as [H1 H2]. cbn [c_block contexts].
    pose proof (c_simple_code n vars ctxs nk s F H1) as X. assert (n <= fst (fst (fst (fst (c_simple n vars ctxs s))))) as LN.
    { destruct s as [|e|y|k| |x e|x y|k e|e]; cbn; try lia; destruct e; cbn -[c_expr]; try lia;
        match goal with |- context [c_expr n vars ?e] => pose proof (c_expr_code e n vars) as Y;
        destruct (c_expr n vars e) as [[[n1 p] r] t] end; cbn; apply Y. }
    destruct (c_simple n vars ctxs s) as [[[[n1 p1] it] vars'] ctxs']. destruct X as (X1 & X2 & X3 & X4). cbn in LN.
    rewrite <- X2 in H2. specialize (IH n1 (it ++ its) vars' ctxs' _ X1 H2). destruct (c_block n1 (it ++ its) vars' ctxs' b) as [n2 p2].
    destruct IH as (I1 & I2 & I3). split; [lia|]. split; [apply Forall_app; auto|]. rewrite filter_app, app_length. lia.
  - cbn [ok_block] in HK. apply andb_prop in HK as [H1 H2]. cbn [c_block contexts].
    specialize (IH1 n [] vars ctxs nk F H1). destruct (c_block n [] vars ctxs b1) as [n1 p1]. destruct IH1 as (I1 & I2 & I3).
    specialize (IH2 n1 its vars ctxs nk (fits_le _ _ _ F I1) H2). destruct (c_block n1 its vars ctxs b2) as [n2 p2]. destruct IH2 as (J1 & J2 & J3).
    split; [lia|]. split; [apply Forall_app; auto|]. rewrite filter_app, app_length. lia.
Qed.
Lemma program_code b : ok_block 0 0 b = true ->
  Forall not_self_copy (program (S := S) b) /\ length (filter creates (program b)) = contexts b.
Proof.
  intros HK. unfold program. pose proof (c_block_code b 0 [] [] [] 0) as X. destruct (c_block 0 [] [] [] b) as [n p]. cbn.
  apply X; auto. split; constructor.
Qed.

(** ** The C++ process *)
Theorem program_means b w : ids_fresh w -> ok_block 0 0 b = true ->
  match meaning So (fun _ => CoAdd) b w with
  | Ok (_, w') => exists m, cxx So (program b) (mach0 w) = Done (tt, m) /\ m_w m = w' /\ all_freed w m
  | Panic p => cxx So (program b) (mach0 w) = Err (RustPanic p)
  end.
Proof.
  intros F HK. destruct (program_code b HK) as [NS _]. pose proof (run_agree So w _ F NS) as A.
  pose proof (program_run So plus b w HK) as X. unfold plus in X at 1. destruct (meaning So (fun _ => CoAdd) b w) as [[u w']|q].
  - destruct X as (st & R & W & V & C). rewrite R in A.
    destruct (cxx So (program b) (mach0 w)) as [[[] m]|e] eqn:EC; [|contradiction]. destruct A as [I _]. exists m. split; auto.
    pose proof (inv_shows _ _ _ I) as (SW & SV & SC).
    assert (forall x, m_obj m x = None) as O1.
    { intros x. destruct (obj_cases _ _ _ x I) as [[E1 E2]|(i & p & v & E1 & E2 & E3 & E4)]; auto. rewrite V in E4. discriminate. }
    assert (forall k, m_cobj m k = None) as O2.
    { intros k. destruct (ctx_cases _ _ _ k I) as [[E1 E2]|[[E1 E2]|(i & p & c & E1 & E2 & E3 & E4)]]; auto; rewrite C in *; discriminate. }
    split; [congruence|]. unfold all_freed. split; auto. split; auto. eapply no_leak; eauto.
  - rewrite X in A. destruct (cxx So (program b) (mach0 w)) as [[[] m]|e]; [contradiction|]. cbn in A. congruence.
Qed.
Theorem one_context_runs b w : ids_fresh w -> ok_block 0 0 b = true -> contexts b <= 1 ->
  exists m w', cxx So (program b) (mach0 w) = Done (tt, m) /\ meaning So (fun _ => CoAdd) b w = Ok (tt, w') /\ m_w m = w' /\ all_freed w m.
Proof.
  intros F HK L. destruct (program_code b HK) as [NS NC]. pose proof (program_means b w F HK) as X.
  destruct (meaning So (fun _ => CoAdd) b w) as [[[] w']|q].
  - destruct X as (m & X1 & X2 & X3). exists m, w'. auto.
  - exfalso. eapply (one_context So w (program b) q); eauto. lia.
Qed.

(** ** Programs without c - x, c * x, c / x *)
Lemma plain_m_expr left env e : left CoAdd = CoAdd -> plain_expr e = true -> forall w,
  m_expr So left env e w = m_expr So (fun o => o) env e w.
Proof.
  intros HL. induction e as [x|c|o rl a IA b IB|o c b IB|f rl a IA b IB|f a IA]; cbn [plain_expr]; intros HP w; cbn [m_expr]; auto.
  - apply andb_prop in HP as [P1 P2]. unfold mbind. destruct rl.
    + rewrite IB by auto. destruct (m_expr So _ env b w) as [[v w1]|]; auto. rewrite IA by auto. reflexivity.
    + rewrite IA by auto. destruct (m_expr So _ env a w) as [[v w1]|]; auto. rewrite IB by auto. reflexivity.
  - destruct o; try discriminate. rewrite HL. unfold mbind. rewrite IB by auto. reflexivity.
  - apply andb_prop in HP as [P1 P2]. unfold mbind. destruct rl.
    + rewrite IB by auto. destruct (m_expr So _ env b w) as [[v w1]|]; auto. rewrite IA by auto. reflexivity.
    + rewrite IA by auto. destruct (m_expr So _ env a w) as [[v w1]|]; auto. rewrite IB by auto. reflexivity.
  - unfold mbind. rewrite IA by auto. reflexivity.
Qed.
Lemma plain_m_block left b : left CoAdd = CoAdd -> plain b = true -> forall its env cenv w,
  m_block So left its env cenv b w = m_block So (fun o => o) its env cenv b w.
Proof.
  intros HL. induction b as [|s b IH|b1 IH1 b2 IH2]; cbn [plain]; intros HP its env cenv w; cbn [m_block]; auto.
  - apply andb_prop in HP as [P1 P2]. unfold mbind.
    assert (m_simple So left env cenv s w = m_simple So (fun o => o) env cenv s w) as ->.
    { destruct s; cbn [m_simple plain_simple] in *; auto; unfold mbind; rewrite plain_m_expr by auto; reflexivity. }
    destruct (m_simple So _ env cenv s w) as [[a w1]|]; auto.
  - apply andb_prop in HP as [P1 P2]. unfold mbind. rewrite IH1 by auto. destruct (m_block So _ [] env cenv b1 w) as [[a w1]|]; auto.
Qed.
Theorem plain_means b w : ids_fresh w -> ok_block 0 0 b = true -> plain b = true ->
  match meaning So (fun o => o) b w with
  | Ok (_, w') => exists m, cxx So (program b) (mach0 w) = Done (tt, m) /\ m_w m = w' /\ all_freed w m
  | Panic p => cxx So (program b) (mach0 w) = Err (RustPanic p)
  end.
Proof.
  intros F HK HP. pose proof (program_means b w F HK) as X.
  assert (meaning So (fun _ => CoAdd) b w = meaning So (fun o => o) b w) as E; [|rewrite <- E; exact X].
  unfold meaning, mbind. rewrite plain_m_block by auto. reflexivity.
Qed.

(** ** tests/cxx *)
Theorem tests_pass b w : In b (cxx_tests So) -> ids_fresh w ->
  exists m, cxx So (program b) (mach0 w) = Done (tt, m) /\ all_freed w m.
Proof.
  intros HI F. assert (ok_block 0 0 b = true /\ contexts b <= 1) as [H1 H2].
  { cbn [cxx_tests In] in HI. repeat (destruct HI as [<-|HI]; [split; [reflexivity|cbn; lia]|]). destruct HI. }
  destruct (one_context_runs b w F H1 H2) as (m & w' & E1 & _ & _ & E2). eauto.
Qed.
End Main.

(** ** min and max of doubles *)
Lemma SFltb_asym a b : SFltb a b = true -> SFltb b a = false.
Proof.
  destruct a as [[]|[]| |[] m e], b as [[]|[]| |[] m' e']; cbn; auto; try discriminate;
    unfold SFltb, SFcompare; rewrite (Z.compare_antisym e e'); destruct (e ?= e')%Z eqn:E; cbn; auto; try discriminate;
    change (Pos.compare_cont Eq m' m) with (m' ?= m)%positive; change (Pos.compare_cont Eq m m') with (m ?= m')%positive;
    rewrite (Pos.compare_antisym m m'); destruct (m ?= m')%positive; cbn; auto; discriminate.
Qed.
Lemma SFltb_irrefl a : SFltb a a = false.
Proof. destruct (SFltb a a) eqn:E; auto. rewrite (SFltb_asym _ _ E) in E. discriminate. Qed.
Theorem min_max_order T a b : let mn := double_min (f64ops T) a b in let mx := double_max (f64ops T) a b in
  (mn = a /\ mx = b \/ mn = b /\ mx = a) /\ SFltb a mn = false /\ SFltb b mn = false /\ SFltb mx a = false /\ SFltb mx b = false.
Proof.
  unfold double_min, double_max. cbn -[SFltb]. destruct (SFltb a b) eqn:E; repeat split; auto using SFltb_irrefl, SFltb_asym.
Qed.
Theorem min_max_value T (a b : binary_float 53 1024) : is_finite a = true -> is_finite b = true ->
  SF2R radix2 (double_min (f64ops T) (B2SF a) (B2SF b)) = Rmin (B2R a) (B2R b) /\
  SF2R radix2 (double_max (f64ops T) (B2SF a) (B2SF b)) = Rmax (B2R a) (B2R b).
Proof.
  intros Fa Fb. unfold double_min, double_max. cbn -[SFltb].
  change (SFltb (B2SF a) (B2SF b)) with (Bltb a b). rewrite (Bltb_correct _ _ a b Fa Fb).
  destruct (Rlt_bool_spec (B2R a) (B2R b)) as [H|H]; rewrite !SF2R_B2SF.
  - rewrite Rmin_left, Rmax_right by lra. auto.
  - rewrite Rmin_right, Rmax_left by lra. auto.
Qed.
Theorem min_max_nan T x : double_min (f64ops T) S754_nan x = x /\ double_min (f64ops T) x S754_nan = S754_nan /\
  double_max (f64ops T) S754_nan x = S754_nan /\ double_max (f64ops T) x S754_nan = x.
Proof. destruct x as [| | |]; repeat split. Qed.
