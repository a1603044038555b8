(** Generalized Jacobians of functions that return no variable twice and pass none to abs twice. *)
From Coq Require Import Reals Lra List Arith ZArith NArith Bool Lia.
From Verif Require Import Base Float Operation Tape AContext Methods Function Spec TapeFacts AContextFacts
  SweepFacts RealInst Param Instances FunctionFacts RecordFacts ReplayFacts Replay2 ApiFacts3 DerivSpec DerivFacts LinearFacts DerivFacts2
  Matrix MatrixFacts Jacobian JacobianFacts AbsNormal AbsNormalFacts AnfSpec RVec AnfFacts AnfFacts2
  ChainFacts Checkpoint CheckSpec CheckMain GenJac GenSpec GenFacts GenMain GenExplicit LimitSpec LimitFacts
  DriverSpec TapeShape StraightSpec StraightFacts StraightMain.
Import ListNotations.
Local Open Scope R_scope.

Lemma once_tape (f : func R) x y w : once_f f -> eval_float Rops f x w = Ok (y, w) ->
  exists t w', fn_tape Rops f x w = Ok (t, w') /\ NoDup (t_deps t) /\ abs_once t /\ tape_y t = Ok y.
Proof.
  intros HO E. destruct (proj2 (record_iff Rops f x w)) as (t & w' & ET); [eauto|].
  destruct (once_shape Rops f x w t w' HO ET) as [A B].
  destruct (fn_tape_fresh Rops _ _ _ _ _ ET) as (_ & (y' & Hv & Hy' & _) & _).
  rewrite eval_float_v, Hv in E. cbn in E. injection E as ->. exists t, w'. auto.
Qed.

Theorem once_tame fs : forall x z, Forall once_f fs -> reaches Rops fs x z -> tame fs x.
Proof.
  induction fs as [|f fs IH]; intros x z HF H; [exact I|].
  inversion HF; subst. inversion H; subst. split; [auto|].
  match goal with E : eval_float _ _ _ _ = Ok (?y, _) |- _ => destruct (once_tape f x y world0) as (t & w' & A & B & C & D); auto;
    exists t, w', y end. repeat (split; [auto; fail|]). eauto.
Qed.

(** *** The theorems about one function *)
Section One.
Context (red : list (list (nat * list R)) -> list (nat * list R)) (HR : rayon red).
Context (f : func R) (x y : list R) (w : world R).
Context (HO : once_f f) (En : fn_n f = Ok (length x)) (Ey : eval_float Rops f x w = Ok (y, w)).

Theorem once_direction dx bits : length dx = length x ->
  exists G w' outs, generalized_jacobian Rops red f x dx bits None w = Ok (G, w') /\
    (forall w2, eval Rops f (map (fun p => af_new (fst p) (snd p)) (combine x dx)) w2 = Ok (outs, w2)) /\
    shape (g_hom G) (length y) (length x) /\
    vadd (mulv (g_hom G) dx) (g_inh G) = map af_dv outs.
Proof.
  intros L. destruct (once_tape f x y w HO Ey) as (t & w' & ET & ND & NA & Hy).
  destruct (fn_tape_wf Rops _ _ _ _ _ ET) as ([W _] & _ & _). destruct (anf_exists t W) as [N HN].
  destruct (gj_correct red f x dx bits None w t w' N HR En ET ND NA HN L I) as (G & dz & sg & E & SW & HS & _ & SG & LG & HG).
  pose proof (compatible_dx N bits dx dz sg SW HS) as HC.
  destruct (forward_is_tapeless Rops f x w t w' dx ET L (R_const_tangents f x dx)) as (outs & Eo & Ef).
  exists G, w', outs. split; [exact E|]. split; [exact Eo|].
  assert (num_deps t = length y) as Nd by (apply gather_length in Hy; auto).
  cbn in SG. rewrite Nd in SG. split; [auto|]. specialize (HG dx _ L HC Ef). exact HG.
Qed.

Theorem once_pair bits next : (forall k, bit bits k = false) -> next_ok (length y) next ->
  exists G w', generalized_jacobian Rops red f x (repeat 0 (length x)) bits next w = Ok (G, w') /\
    forall v, length v = length x -> exists ys, pair_eval right_if_positive f x v = Ok ys /\ map fst ys = y /\
      mulv (g_hom G) v = mulv (next_hom (length y) next) (map snd ys).
Proof.
  intros Hb Hnx. destruct (once_tape f x y w HO Ey) as (t & w' & ET & ND & NA & Hy).
  assert (num_deps t = length y) as Nd by (apply gather_length in Hy; auto).
  rewrite <- Nd in Hnx.
  destruct (gj_straight_zero red HR f x w t w' ET NA bits next Hb Hnx) as (G & EG & H).
  exists G, w'. split.
  { unfold generalized_jacobian, mbind, mlift. rewrite En, ?repeat_length, Nat.eqb_refl. cbn [assert]. rewrite ET.
    rewrite EG. reflexivity. }
  intros v Lv. destruct (H v Lv) as (d & Ed & Ld & Em). destruct (straight_pair _ _ _ _ _ Ed) as (ys & Ep & <-).
  exists ys. split; [auto|]. split.
  { pose proof (pair_values _ _ _ _ _ Lv Ep) as Q. rewrite eval_float_v, Q in Ey. cbn in Ey. congruence. }
  rewrite Em, <- Nd, seed_rows_nodup; auto; destruct next as [g|]; cbn in *; try apply Hnx; apply shape_id.
Qed.
End One.

(** *** Chains *)
Lemma compose_pair red fs : rayon red -> forall x, tame fs x ->
  exists G y, compose red fs x (repeat 0 (length x)) = Ok G /\ shape (g_hom G) (length y) (length x) /\
    length (g_inh G) = length y /\
    forall v, length v = length x -> exists ys,
      pipe (feval Rops (pair_fop right_if_positive) (fun c => (c, 0)) fst) fs (combine x v) tt = Ok (ys, tt) /\
      map fst ys = y /\ mulv (g_hom G) v = map snd ys.
Proof.
  intros HR. induction fs as [|f fs IH]; intros x HT.
  - exists (mkG (m_id Rops (length x)) (repeat 0 (length x)) 0), x. split; [reflexivity|]. cbn [g_hom g_inh].
    split; [apply shape_id|]. split; [apply repeat_length|]. intros v Lv. exists (combine x v).
    split; [reflexivity|]. rewrite mulv_id by auto. split; [apply map_fst_combine; auto|].
    symmetry. clear -Lv. revert v Lv. induction x as [|a x IHx]; intros [|b v] L; try discriminate; auto.
    cbn. f_equal. apply IHx. auto.
  - destruct HT as (En & t & w0 & y & ET & ND & NA & Ey & HT).
    destruct (fn_tape_wf Rops _ _ _ _ _ ET) as ([W _] & _ & Nx).
    assert (num_deps t = length y) as Nd by (apply gather_length in Ey; auto).
    destruct (forward_is_tapeless Rops f x world0 t w0 (repeat 0 (length x)) ET (repeat_length _ _) (R_const_tangents f x _)) as (outs & Eo & Ef).
    assert (map af_v outs = y) as Ev.
    { destruct (fn_tape_fresh Rops _ _ _ _ _ ET) as (_ & (y' & Hv & Hy' & _) & _).
      assert (y' = y) as -> by congruence.
      pose proof (Eo world0) as E. unfold pairs in E. rewrite eval_detached in E.
      pose proof (d_eval_values Rops f (combine x (repeat 0 (length x)))) as Ed.
      rewrite map_fst_combine in Ed by (rewrite repeat_length; auto). rewrite Hv in Ed.
      destruct (d_eval Rops f (combine x (repeat 0 (length x)))) as [yy|]; cbn in E, Ed; [|discriminate].
      injection E as <-. injection Ed as Ed. rewrite map_map. transitivity (map fst yy); [|congruence]. apply map_ext. auto. }
    assert (map af_dv outs = repeat 0 (length y)) as Ed.
    { pose proof (forward_zero t W) as Z. rewrite Nx in Z. rewrite Z in Ef. injection Ef as <-. congruence. }
    destruct (IH y HT) as (G2 & y2 & E2 & S2 & L2 & H2).
    assert (next_ok (num_deps t) (Some G2)) as Hnx.
    { cbn. pose proof S2 as (_ & R2 & _). rewrite R2, Nd. auto. }
    destruct (gj_straight_zero red HR f x world0 t w0 ET NA [0%N] (Some G2)) as (G & EG & H); auto.
    { intros k. unfold bit. destruct (k / 8)%nat as [|q]; cbn; [|destruct q; reflexivity]. destruct (N.of_nat (k mod 8)); reflexivity. }
    assert (generalized_jacobian Rops red f x (repeat 0 (length x)) [0%N] (Some G2) world0 = Ok (G, w0)) as EG'.
    { unfold generalized_jacobian, mbind, mlift. rewrite En, ?repeat_length, Nat.eqb_refl. cbn [assert]. rewrite ET.
      rewrite EG. reflexivity. }
    destruct (anf_exists t W) as [N HN].
    destruct (gj_correct red f x (repeat 0 (length x)) [0%N] (Some G2) world0 t w0 N HR En ET ND NA HN (repeat_length _ _) Hnx)
      as (G' & _ & _ & EG2 & _ & _ & _ & SG & LG & _).
    assert (G' = G) by congruence. subst G'. cbn [next_rows] in SG, LG. pose proof S2 as (_ & R2 & _). rewrite R2 in SG, LG.
    exists G, y2. cbn [compose]. fold (pairs x (repeat 0 (length x))). rewrite Eo. cbn [bind fst]. rewrite Ev, Ed, E2. cbn [bind].
    rewrite EG'. cbn [bind fst]. split; [reflexivity|]. split; [exact SG|]. split; [exact LG|].
    intros v Lv. destruct (H v Lv) as (d & Ed' & Ld & Em). destruct (straight_pair _ _ _ _ _ Ed') as (ys & Ep & <-).
    rewrite map_length in Ld.
    assert (map fst ys = y) as Ey'.
    { pose proof (pair_values _ _ _ _ _ Lv Ep) as Q.
      destruct (fn_tape_fresh Rops _ _ _ _ _ ET) as (_ & (y' & Hv & Hy' & _) & _). congruence. }
    destruct (H2 (map snd ys)) as (zs & Ez & Ez1 & Ez2); [rewrite map_length; congruence|].
    exists zs. split.
    { cbn [pipe]. unfold mbind. unfold pair_eval in Ep. apply bind_ok in Ep as ((q & []) & Eq & Ep). injection Ep as ->.
      rewrite Eq. assert (combine y (map snd ys) = ys) as Ec.
      { rewrite <- Ey'. clear. induction ys as [|[a b] l IHl]; cbn; congruence. }
      rewrite <- Ec. exact Ez. }
    split; [auto|]. rewrite Em. cbn [next_hom]. rewrite seed_rows_nodup; auto; try apply S2.
    destruct S2 as (_ & _ & ->). auto.
Qed.

Theorem chain_pair red est (c : func R) x k w : rayon red -> tame (fn_iter c) x ->
  accurate est (Z.of_nat (chain_len c) + 1) -> (Z.of_nat (chain_len c) + 1 <= 2 ^ 32)%Z -> (2 <= k)%nat ->
  exists G w', generalized_jacobian_chain Rops red est c x (repeat 0 (length x)) (Some k) w = Ok (G, w') /\
    forall v, length v = length x -> exists ys, pair_eval right_if_positive c x v = Ok ys /\
      mulv (g_hom G) v = map snd ys.
Proof.
  intros HR HT A B Hk. destruct (compose_pair red (fn_iter c) HR x HT) as (G & y & E & _ & _ & H).
  pose proof (gj_chain_compose red est c x (repeat 0 (length x)) k w A B Hk) as Q. rewrite E in Q. destruct Q as [w' Q].
  exists G, w'. split; [auto|]. intros v Lv. destruct (H v Lv) as (ys & Ey & _ & Em). exists ys. split; [|auto].
  unfold pair_eval. rewrite eval_is_pipe, Ey. reflexivity.
Qed.

Theorem once_straight red (f : func R) x y w dx bits next : rayon red -> once_f f -> fn_n f = Ok (length x) ->
  eval_float Rops f x w = Ok (y, w) -> length dx = length x -> next_ok (length y) next ->
  exists G w' t N dz sigma, generalized_jacobian Rops red f x dx bits next w = Ok (G, w') /\
    fn_tape Rops f x w = Ok (t, w') /\ anf_of t N /\ switching N dx dz /\ selected bits dz sigma /\
    forall v, length v = length x -> exists d, straight_derivative (fun k _ => nth k sigma 0) f x v = Ok d /\
      mulv (g_hom G) v = mulv (next_hom (length y) next) d.
Proof.
  intros HR HO En Ey Ldx Hnx. destruct (once_tape f x y w HO Ey) as (t & w' & ET & ND & NA & Hy).
  assert (num_deps t = length y) as Nd by (apply gather_length in Hy; auto).
  rewrite <- Nd in Hnx. destruct (fn_tape_wf Rops _ _ _ _ _ ET) as ([W _] & _ & _). destruct (anf_exists t W) as [N HN].
  destruct (gj_straight red HR f x w t w' ET NA N dx bits next HN Ldx Hnx) as (G & dz & sigma & EG & SW & HS & _ & H).
  exists G, w', t, N, dz, sigma. split.
  { unfold generalized_jacobian, mbind, mlift. rewrite En, Nat.eqb_refl. cbn [assert]. rewrite ET.
    rewrite EG. reflexivity. }
  do 4 (split; [auto|]). intros v Lv. destruct (H (fun k _ => nth k sigma 0) (fun _ _ _ _ _ => eq_refl) v Lv) as (d & Ed & Ld & Em).
  exists d. split; [auto|]. rewrite Em, <- Nd, seed_rows_nodup; auto; destruct next as [g|]; cbn in *; try apply Hnx; apply shape_id.
Qed.

Theorem once_chain red est (c : func R) x z dx k w : rayon red -> Forall once_f (fn_iter c) -> reaches Rops (fn_iter c) x z ->
  length dx = length x ->
  accurate est (Z.of_nat (chain_len c) + 1) -> (Z.of_nat (chain_len c) + 1 <= 2 ^ 32)%Z -> (2 <= k)%nat ->
  exists G w' ys, generalized_jacobian_chain Rops red est c x dx (Some k) w = Ok (G, w') /\
    (forall w, eval Rops c (map (fun p => af_new (fst p) (snd p)) (combine x dx)) w = Ok (ys, w)) /\
    vadd (mulv (g_hom G) dx) (g_inh G) = map af_dv ys.
Proof.
  intros HR HF HZ L A B Hk. pose proof (once_tame _ _ _ HF HZ) as HT.
  destruct (gj_chain_correct red c x dx HR HT L) as (G & ys & E & Ee & _ & _ & Ed).
  pose proof (gj_chain_compose red est c x dx k w A B Hk) as Q. rewrite E in Q. destruct Q as [w' Q].
  exists G, w', ys. auto.
Qed.

Theorem once_chain_pair red est (c : func R) x z k w : rayon red -> Forall once_f (fn_iter c) -> reaches Rops (fn_iter c) x z ->
  accurate est (Z.of_nat (chain_len c) + 1) -> (Z.of_nat (chain_len c) + 1 <= 2 ^ 32)%Z -> (2 <= k)%nat ->
  exists G w', generalized_jacobian_chain Rops red est c x (repeat 0 (length x)) (Some k) w = Ok (G, w') /\
    forall v, length v = length x -> exists ys, pair_eval right_if_positive c x v = Ok ys /\
      mulv (g_hom G) v = map snd ys.
Proof. intros HR HF HZ. apply chain_pair; auto. eapply once_tame; eauto. Qed.

Theorem once_first_order red (f : func R) x y w : rayon red -> once_f f -> eval_float Rops f x w = Ok (y, w) ->
  regular f x -> same_branches_near f x ->
  exists N, abs_normal Rops red f x w = Ok N /\
  forall e, 0 < e -> exists d, 0 < d /\ forall h, length h = length x -> nrm1 h < d ->
    exists y' zh, (forall w2, eval_float Rops f (vadd x h) w2 = Ok (y', w2)) /\
      switching N h zh /\ (forall zh', switching N h zh' -> zh' = zh) /\
      forall k, (k < length y)%nat ->
        Rabs (nth k y' 0 - nth k y 0 - nth k (increment N h zh) 0) <= e * nrm1 h.
Proof.
  intros HR HO Ey Hr Hs. destruct (once_tape f x y w HO Ey) as (t & w' & ET & ND & NA & Hy).
  destruct (abs_normal_linearisation red f x w t w' HR ET ND NA Hr Hs) as (N & y' & EN & Hy' & H).
  assert (y' = y) as -> by congruence. exists N. auto.
Qed.
