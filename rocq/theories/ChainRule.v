(** The chain rule for tapes of chains. *)
From Coq Require Import Reals Lra List Arith ZArith Bool Lia.
From Verif Require Import Base Float Operation Tape AContext Methods Function Spec Param TapeFacts SweepFacts
  Instances FunctionFacts ReplayFacts ApiFacts3 Replay2 Matrix MatrixFacts Jacobian JacobianFacts RealInst Approx DerivSpec DerivFacts
  LinearFacts DerivFacts2 ChainFacts AnfSpec RVec AnfFacts ChainRuleSpec.
Import ListNotations.

Section Gen.
Context {F : Type} (Fo : Fops F).

Lemma links_exist fs : forall x y,
  pipe (feval Fo (v_fop Fo) (fun c => c) (fun v => v)) fs x tt = Ok (y, tt) -> exists ts, links Fo fs x ts y.
Proof.
  induction fs as [|f fs IH]; intros x z H; cbn [pipe] in H.
  - injection H as <-. exists []. constructor.
  - unfold mbind in H.
    destruct (feval Fo (v_fop Fo) (fun c => c) (fun v => v) f x tt) as [[y []]|] eqn:E; [|discriminate].
    destruct (IH _ _ H) as [ts Hts].
    assert (v_eval Fo f x = Ok y) as Ev by (unfold v_eval; rewrite E; reflexivity).
    pose proof (fn_tape_total Fo f x world0) as HT. rewrite Ev in HT. destruct HT as (t & w' & HT).
    destruct (fn_tape_fresh Fo _ _ _ _ _ HT) as (_ & (y' & Ev' & Ey & _) & _).
    exists (t :: ts). econstructor; eauto. congruence.
Qed.

(** If the chain can be taped, so can its functions, each at the values the ones before it return. *)
Theorem links_of_chain c x w t w' : fn_tape Fo c x w = Ok (t, w') ->
  exists ts y, links Fo (fn_iter c) x ts y /\ tape_y t = Ok y.
Proof.
  intros HT. destruct (fn_tape_fresh Fo _ _ _ _ _ HT) as (_ & (y & Ev & Ey & _) & _).
  unfold v_eval in Ev. rewrite eval_is_pipe in Ev.
  destruct (pipe _ (fn_iter c) x tt) as [[y' []]|] eqn:E; cbn in Ev; [|discriminate]. injection Ev as ->.
  destruct (links_exist _ _ _ E) as [ts Hts]. exists ts, y. auto.
Qed.

Lemma links_forward fs x ts z : links Fo fs x ts z -> forall dx, length dx = length x -> steady Fo fs ts x dx ->
  exists yd, pipe (feval Fo (d_fop Fo) (d_cst Fo) fst) fs (combine x dx) tt = Ok (yd, tt) /\
    push Fo ts dx = Ok (map snd yd) /\ map fst yd = z.
Proof.
  induction 1 as [x|f fs x w t w' y ts z HT Hy HL IH]; intros dx L HS.
  - exists (combine x dx). split; [reflexivity|]. cbn. split.
    + f_equal. clear -L. revert dx L. induction x as [|a x IH]; intros [|b dx] L; try discriminate; cbn; auto. f_equal. auto.
    + apply map_fst_combine. auto.
  - destruct HS as [HC HS].
    destruct (forward_tapeless Fo f x w t w' dx HT L HC) as (yd & D & Ef).
    destruct (fn_tape_fresh Fo _ _ _ _ _ HT) as (_ & (y' & Ev & Ey & _) & _).
    assert (y' = y) as -> by congruence.
    assert (map fst yd = y) as E1.
    { pose proof (d_eval_values Fo f (combine x dx)) as DV. rewrite map_fst_combine in DV by auto.
      rewrite D in DV. cbn in DV. congruence. }
    destruct (IH (map snd yd)) as (zd & Ez & Hp & Hz).
    { rewrite map_length, <- E1, map_length. reflexivity. }
    { apply HS; auto. }
    exists zd. cbn [pipe push]. unfold mbind. unfold d_eval in D.
    destruct (feval Fo (d_fop Fo) (d_cst Fo) fst f (combine x dx) tt) as [[yd' []]|]; cbn in D; [|discriminate].
    injection D as ->. rewrite Ef. cbn [bind]. split; [|auto].
    rewrite <- Ez. f_equal. subst y. clear. induction yd as [|[a b] yd IH]; cbn; congruence.
Qed.

(** The forward sweep of the tape of a chain: the forward sweeps of its functions one after the other. *)
Theorem chain_forward c x w t w' ts y dx :
  fn_tape Fo c x w = Ok (t, w') -> links Fo (fn_iter c) x ts y -> length dx = length x ->
  const_tangents_zero Fo c x dx -> steady Fo (fn_iter c) ts x dx ->
  exists dy, tape_forward Fo t dx = Ok dy /\ push Fo ts dx = Ok dy.
Proof.
  intros HT HL L HC HS.
  destruct (forward_tapeless Fo c x w t w' dx HT L HC) as (yd & D & Ef).
  destruct (links_forward _ _ _ _ HL dx L HS) as (yd' & E & Hp & _).
  exists (map snd yd). split; auto. unfold d_eval in D. rewrite eval_is_pipe, E in D. cbn in D. congruence.
Qed.

Lemma links_wf fs x ts z : links Fo fs x ts z ->
  Forall wf_tape ts /\ match ts with [] => z = x | t :: _ => num_indeps t = length x end.
Proof.
  induction 1 as [x|f fs x w t w' y ts z HT Hy HL [IH _]]; auto.
  destruct (fn_tape_wf Fo _ _ _ _ _ HT) as ([W _] & _ & N). auto.
Qed.
End Gen.

Open Scope R_scope.

Lemma R_steady fs : forall ts x dx, steady Rops fs ts x dx.
Proof. induction fs as [|f fs IH]; intros [|t ts] x dx; cbn; auto. split; [apply R_const_tangents|auto]. Qed.

Theorem chain_forward_R c x w t w' ts y dx :
  fn_tape Rops c x w = Ok (t, w') -> links Rops (fn_iter c) x ts y -> length dx = length x ->
  exists dy, tape_forward Rops t dx = Ok dy /\ push Rops ts dx = Ok dy.
Proof. intros. eapply chain_forward; eauto. apply R_const_tangents. apply R_steady. Qed.

Lemma links_adjoint fs x ts z : links Rops fs x ts z ->
  Forall no_abs ts -> Forall (fun t => NoDup (t_deps t)) ts ->
  forall ybar, length ybar = length z ->
  exists xbar, pull Rops ts ybar = Ok xbar /\ length xbar = length x /\
    forall dx, length dx = length x -> exists dy, push Rops ts dx = Ok dy /\ dot ybar dy = dot xbar dx.
Proof.
  induction 1 as [x|f fs x w t w' y ts z HT Hy HL IH]; intros NA ND ybar Ly.
  - exists ybar. cbn. split; auto. split; auto. intros dx L. exists dx. auto.
  - inversion NA as [|? ? NA1 NA2]; inversion ND as [|? ? ND1 ND2]; subst.
    destruct (IH NA2 ND2 ybar Ly) as (yb & Ep & Lb & Hyb).
    destruct (fn_tape_wf Rops _ _ _ _ _ HT) as ([W _] & _ & N).
    destruct (fn_tape_fresh Rops _ _ _ _ _ HT) as (_ & (y' & Ev & Ey & Hm) & _). assert (y' = y) as -> by congruence.
    destruct (adjoint_nodup t yb (repeat 0 (length x)) W NA1 ND1) as (xb & d0 & E1 & _ & _);
      [lia|rewrite repeat_length; lia|].
    exists xb. cbn [pull push]. rewrite Ep. cbn [bind]. split; [exact E1|].
    split; [apply tape_reverse_length in E1; lia|].
    intros dx L. destruct (adjoint_nodup t yb dx W NA1 ND1) as (xb' & dy & E1' & E2 & E3); [lia|lia|].
    assert (xb' = xb) as -> by congruence. rewrite E2. cbn [bind].
    destruct (Hyb dy) as (dz & Ez & Hd); [apply tape_forward_length in E2; lia|].
    exists dz. split; auto. lra.
Qed.

(** The reverse sweep of the tape of a chain: the reverse sweeps of its functions, the last one first. *)
Theorem chain_reverse c x w t w' ts y ybar :
  fn_tape Rops c x w = Ok (t, w') -> links Rops (fn_iter c) x ts y -> length ybar = length y ->
  no_abs t -> NoDup (t_deps t) -> Forall no_abs ts -> Forall (fun t => NoDup (t_deps t)) ts ->
  exists xbar, tape_reverse Rops t ybar = Ok xbar /\ pull Rops ts ybar = Ok xbar.
Proof.
  intros HT HL Ly NA ND NAs NDs.
  destruct (links_adjoint _ _ _ _ HL NAs NDs ybar Ly) as (xb & Ep & Lb & Hb).
  destruct (fn_tape_wf Rops _ _ _ _ _ HT) as ([W _] & _ & N).
  assert (num_deps t = length y) as Hm.
  { destruct (chain_forward_R c x w t w' ts y (repeat 0 (length x)) HT HL (repeat_length _ _)) as (dy & E1 & _).
    destruct (fn_tape_fresh Rops _ _ _ _ _ HT) as (_ & (y' & Ev & Ey & Hm) & _). rewrite Hm.
    destruct (links_forward Rops _ _ _ _ HL (repeat 0 (length x)) (repeat_length _ _) (R_steady _ _ _ _)) as (yd & E & _ & Hz).
    pose proof (d_eval_values Rops c (combine x (repeat 0 (length x)))) as DV.
    rewrite map_fst_combine in DV by (rewrite repeat_length; auto). rewrite Ev in DV.
    unfold d_eval in DV. rewrite eval_is_pipe, E in DV. cbn in DV. congruence. }
  destruct (adjoint_nodup t ybar (repeat 0 (length x)) W NA ND) as (xb1 & d0 & E1 & _ & _);
    [lia|rewrite repeat_length; lia|].
  exists xb1. split; auto. rewrite Ep. f_equal. symmetry. apply dot_nondeg.
  - apply tape_reverse_length in E1. lia.
  - intros dx L. rewrite (tape_reverse_length Rops _ _ _ E1), N in L.
    destruct (adjoint_nodup t ybar dx W NA ND) as (xb' & dy & E1' & E2 & E3); [lia|lia|].
    destruct (Hb dx L) as (dy' & Ed & H').
    destruct (chain_forward_R c x w t w' ts y dx HT HL L) as (dy2 & F1 & F2).
    assert (xb' = xb1) by congruence. assert (dy2 = dy) by congruence. assert (dy' = dy) by congruence. subst. lra.
Qed.

(** The same for a chain given by its parts, which may be chains themselves. *)
Lemma chain_is_pipe {F V St : Type} (Fo : Fops F) (fop : OpCode -> V -> option V -> M St V) cst val fs : forall x s,
  feval Fo fop cst val (Chain fs) x s = pipe (feval Fo fop cst val) fs x s.
Proof.
  induction fs as [|f fs IH]; intros x s; [reflexivity|].
  change (feval Fo fop cst val (Chain (f :: fs)) x s)
    with ((y <~ feval Fo fop cst val f x ;; feval Fo fop cst val (Chain fs) y) s).
  cbn [pipe]. unfold mbind. destruct (feval Fo fop cst val f x s) as [[y s']|]; auto.
Qed.

Lemma parts_forward fs x w t w' ts y dx :
  fn_tape Rops (Chain fs) x w = Ok (t, w') -> links Rops fs x ts y -> length dx = length x ->
  exists dy, tape_forward Rops t dx = Ok dy /\ push Rops ts dx = Ok dy.
Proof.
  intros HT HL L.
  destruct (forward_tapeless Rops (Chain fs) x w t w' dx HT L (R_const_tangents _ _ _)) as (yd & D & Ef).
  destruct (links_forward Rops _ _ _ _ HL dx L (R_steady _ _ _ _)) as (yd' & E & Hp & _).
  exists (map snd yd). split; auto. unfold d_eval in D. rewrite chain_is_pipe, E in D. cbn in D. congruence.
Qed.

Lemma jacobian_represents red f x w t w' n m :
  rayon red -> fn_n f = Ok n -> fn_m f = Ok m -> length x = n ->
  fn_tape Rops f x w = Ok (t, w') -> num_deps t = m -> no_abs t ->
  exists J, jacobian_forward Rops red f x w = Ok J /\ represents t J.
Proof.
  intros HR Hn Hm Lx HT Hd NA.
  destruct (jacobian_forward_sweeps Rops red f x w t w' n m HR Hn Hm Lx HT Hd) as (J & EJ & WJ & Rj & Cj & HJ).
  { intros j _. apply R_const_tangents. }
  destruct (fn_tape_wf Rops _ _ _ _ _ HT) as ([W _] & _ & N).
  pose proof (represented t W NA) as HM. exists J. split; auto.
  replace J with (tmat t); auto. destruct HM as [SM HM]. subst m. rewrite N, Lx in *.
  apply (shape_ext _ _ (num_deps t) n); [auto|split; auto|].
  intros i j Hi Hj. destruct (HJ j Hj) as (dy & E & Ld & He). rewrite He by auto.
  rewrite HM in E by (apply unitv_length). injection E as <-. rewrite nth_mulv.
  rewrite dot_unit_r; [apply eq_sym, row_ent| |auto]. eapply row_len; eauto.
Qed.

(** Jacobians multiply. *)
Theorem chain_jacobian red f g x w t w' tf tg wf wf' wg wg' y n k m :
  rayon red -> fn_n f = Ok n -> fn_m f = Ok k -> fn_n g = Ok k -> fn_m g = Ok m ->
  length x = n -> length y = k ->
  fn_tape Rops f x wf = Ok (tf, wf') -> tape_y tf = Ok y ->
  fn_tape Rops g y wg = Ok (tg, wg') -> num_deps tg = m -> no_abs tg ->
  fn_tape Rops (Chain [f; g]) x w = Ok (t, w') -> num_deps t = m ->
  exists A B, jacobian_forward Rops red f x wf = Ok A /\ jacobian_forward Rops red g y wg = Ok B /\
    jacobian_forward Rops red (Chain [f; g]) x w = Ok (mm B A).
Proof.
  intros HR Hnf Hmf Hng Hmg Lx Ly HTf Hy HTg Dg NAg HT Dt.
  destruct (jacobian_represents red g y wg tg wg' k m HR Hng Hmg Ly HTg Dg NAg) as (B & EB & SB & HB).
  destruct (fn_tape_fresh Rops _ _ _ _ _ HTf) as (_ & (y' & _ & Ey' & Df) & _). assert (y' = y) as -> by congruence.
  destruct (jacobian_forward_sweeps Rops red f x wf tf wf' n k HR Hnf Hmf Lx HTf ltac:(lia)) as (A & EA & WA & RA & CA & HA).
  { intros j _. apply R_const_tangents. }
  destruct (jacobian_forward_sweeps Rops red (Chain [f; g]) x w t w' n m HR Hnf Hmg Lx HT Dt) as (J & EJ & WJ & RJ & CJ & HJ).
  { intros j _. apply R_const_tangents. }
  exists A, B. split; auto. split; auto. rewrite EJ. f_equal.
  destruct (fn_tape_wf Rops _ _ _ _ _ HTg) as ([Wg _] & _ & Ng). destruct SB as (WB & RB & CB).
  apply (shape_ext _ _ m n); [split; auto|pose proof (shape_mm B A) as S; rewrite RB, CA, Dg in S; exact S|].
  intros i j Hi Hj. destruct (HJ j Hj) as (dy & E & Ld & He). rewrite He by auto.
  destruct (HA j Hj) as (dz & Ez & Lz & Hz).
  assert (dz = col A j) as ->.
  { apply nth_ext0; [rewrite col_len; destruct WA; congruence|]. intros l Hl.
    rewrite nth_col. symmetry. apply Hz. lia. }
  assert (tape_forward Rops tg (col A j) = Ok dy) as Eg.
  { destruct (parts_forward [f; g] x w t w' [tf; tg] (match tape_y tg with Ok z => z | _ => [] end) (unitv Rops n j) HT) as (dy' & F1 & F2).
    - econstructor; eauto. destruct (fn_tape_fresh Rops _ _ _ _ _ HTg) as (_ & (z & _ & Ez' & _) & _). rewrite Ez'. econstructor; eauto. constructor.
    - rewrite unitv_length. auto.
    - cbn [push] in F2. rewrite Ez in F2. cbn [bind] in F2.
      assert (dy' = dy) as -> by congruence. destruct (tape_forward Rops tg (col A j)) as [q|]; cbn in F2; congruence. }
  rewrite HB in Eg by (rewrite col_len; destruct WA; congruence). injection Eg as <-.
  rewrite nth_mulv. unfold mm. rewrite ent_tab; auto; lia.
Qed.

Lemma chain_repeated :
  exists (c : func R) (t : tape R) (w' : world R) (ts : list (tape R)) (y : list R),
  fn_tape Rops c [3] world0 = Ok (t, w') /\ links Rops (fn_iter c) [3] ts y /\ length y = 1%nat /\
  no_abs t /\ NoDup (t_deps t) /\ Forall no_abs ts /\
  tape_reverse Rops t [1] = Ok [2] /\ pull Rops ts [1] = Ok [1].
Proof.
  exists (Chain [Simple 1 2 (Ret [0; 0]%nat); Simple 2 1 (Let2 BAdd 0 1 (Ret [2]%nat))]).
  rtape. eexists _, _, _, _. split; [reflexivity|]. split.
  { cbn [fn_iter]. eapply (links_cons _ _ _ _ world0); [rtape; reflexivity|reflexivity|].
    eapply (links_cons _ _ _ _ world0); [rtape; reflexivity|reflexivity|]. constructor. }
  split; [reflexivity|]. split; [reflexivity|]. split; [repeat constructor; cbn; intuition discriminate|].
  split; [repeat constructor|]. split.
  - match goal with |- tape_reverse ?o ?t ?y = _ =>
      let v := eval lazy -[IZR Rplus Rmult] in (tape_reverse o t y) in
      assert (tape_reverse o t y = v) as -> by reflexivity end.
    apply f_equal. apply f_equal2; [ring|reflexivity].
  - match goal with |- pull ?o ?t ?y = _ =>
      let v := eval lazy -[IZR Rplus Rmult] in (pull o t y) in
      assert (pull o t y = v) as -> by reflexivity end.
    apply f_equal. apply f_equal2; [ring|reflexivity].
Qed.

Lemma chain_abs :
  exists f g A B J y w1 w2,
  fn_tape Rops f [-1] world0 = Ok (w1) /\ tape_y (fst w1) = Ok y /\ fn_tape Rops g y world0 = Ok w2 /\
  jacobian_forward Rops (@concat _) f [-1] world0 = Ok A /\
  jacobian_forward Rops (@concat _) g y world0 = Ok B /\
  jacobian_forward Rops (@concat _) (Chain [f; g]) [-1] world0 = Ok J /\
  ent Rops (mm B A) 0 0 = -4 /\ ent Rops J 0 0 = 2.
Proof.
  exists (Simple 1 1 (LetC 4 (LetC 3 (Let2 BMul 1 0 (Let2 BAdd 3 2 (Ret [4]%nat)))))), (Simple 1 1 (Let1 UAbs 0 (Ret [1]%nat))).
  do 6 eexists. split; [rtape; reflexivity|]. split; [reflexivity|]. split; [rtape; reflexivity|].
  do 3 (split; [match goal with |- jacobian_forward ?o ?r ?f ?x ?w = _ =>
      let v := eval lazy -[IZR Rplus Rmult Rabs Rminus] in (jacobian_forward o r f x w) in
      assert (jacobian_forward o r f x w = v) as -> by reflexivity end; reflexivity|]).
  split.
  - match goal with |- ?a = _ => let v := eval lazy -[IZR Rplus Rmult Rabs Rminus] in a in change (v = -4) end.
    replace (0 * -1 + 4 * 1 + 0) with 4 by ring.
    replace (4 * -1 + 3 + 1) with 0 by ring. replace (4 * -1 + 3) with (-(1)) by ring.
    rewrite Rabs_Ropp, Rabs_R0, Rabs_R1. ring.
  - match goal with |- ?a = _ => let v := eval lazy -[IZR Rplus Rmult Rabs Rminus] in a in change (v = 2) end.
    replace (0 * -1 + 4 * 1 + 0) with 4 by ring. replace (4 * -1 + 3 + 4) with 3 by ring.
    replace (4 * -1 + 3) with (-(1)) by ring. rewrite Rabs_Ropp, Rabs_R1, Rabs_pos_eq by lra. ring.
Qed.
