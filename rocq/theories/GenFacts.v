(** The generalized Jacobian of one tape: the two fixed point iterations, signs and the result. *)
From Coq Require Import Reals Lra List Arith NArith Bool Lia.
From Verif Require Import Base Float Operation Tape AContext Methods Function Spec TapeFacts
  SweepFacts RealInst DerivSpec DerivFacts LinearFacts DerivFacts2 Matrix MatrixFacts Jacobian JacobianFacts
  AbsNormal AbsNormalFacts AnfSpec RVec AnfFacts AnfFacts2 GenJac GenSpec.
Import ListNotations.
Local Open Scope R_scope.

(** ** Iterating a map that settles one more place per round *)
Section Settle.
Context {A : Type} (Phi : A -> A) (dom : A -> Prop) (agree : nat -> A -> A -> Prop) (s : nat).
Context (Hdom : forall x, dom x -> dom (Phi x)).
Context (H0 : forall x y, dom x -> dom y -> agree 0 x y).
Context (HS : forall k x y, dom x -> dom y -> agree k x y -> agree (S k) (Phi x) (Phi y)).
Context (Hs : forall x y, dom x -> dom y -> agree s x y -> x = y).

Lemma settle_iter k x y : dom x -> dom y -> dom (Nat.iter k Phi x) /\ agree k (Nat.iter k Phi x) (Nat.iter k Phi y).
Proof.
  intros Dx Dy. assert (forall z, dom z -> forall k, dom (Nat.iter k Phi z)) as D.
  { intros z Dz j. induction j; cbn; auto. }
  induction k as [|k IH]; [cbn; auto|]. destruct IH as [D1 IH].
  split; [apply (D x Dx (S k))|]. apply (HS k (Nat.iter k Phi x) (Nat.iter k Phi y)); auto.
Qed.

Lemma iter_r k x : Nat.iter (S k) Phi x = Nat.iter k Phi (Phi x).
Proof. induction k as [|k IH]; auto. change (Phi (Nat.iter (S k) Phi x) = Phi (Nat.iter k Phi (Phi x))). congruence. Qed.

Lemma iter_fix k q : Phi q = q -> Nat.iter k Phi q = q.
Proof. intros E. induction k as [|k IH]; auto. change (Phi (Nat.iter k Phi q) = q). congruence. Qed.

Lemma settle_fix x : dom x -> exists p, dom p /\ Phi p = p /\ forall q, dom q -> Phi q = q -> q = p.
Proof.
  intros Dx. exists (Nat.iter s Phi x). destruct (settle_iter s x x Dx Dx) as [D _].
  assert (Phi (Nat.iter s Phi x) = Nat.iter s Phi x) as E.
  { apply Hs; auto. change (Phi (Nat.iter s Phi x)) with (Nat.iter (S s) Phi x).
    rewrite iter_r. apply settle_iter; auto. }
  split; [auto|]. split; [auto|]. intros q Dq Eq. apply Hs; auto.
  assert (Nat.iter s Phi q = q) as <- by (apply iter_fix; auto).
  apply settle_iter; auto.
Qed.

(** The loop with early exit ends in the fixed point. *)
Fixpoint settle (eqb : A -> A -> bool) (k : nat) (x : A) : A :=
  match k with
  | O => x
  | S k' => let x' := Phi x in if eqb x' x then x' else settle eqb k' x'
  end.

Lemma settle_spec eqb p : (forall x y, dom x -> dom y -> eqb x y = true -> x = y) ->
  dom p -> Phi p = p -> forall k x, dom x -> (k <= s)%nat -> agree (s - k) x p -> settle eqb k x = p.
Proof.
  intros He Dp Ep. induction k as [|k IH]; intros x Dx L Ag; cbn.
  - apply Hs; auto. rewrite Nat.sub_0_r in Ag. auto.
  - destruct (eqb (Phi x) x) eqn:E.
    + apply He in E; auto. destruct (settle_fix x Dx) as (q & Dq & Eq & U).
      rewrite (U p Dp Ep). apply U; auto. congruence.
    + apply IH; auto; [lia|]. replace (s - k)%nat with (S (s - S k)) by lia.
      rewrite <- Ep at 1. auto.
Qed.
End Settle.

(** ** Vectors and matrices *)
Lemma v_eqb_eq x y : v_eqb Rops x y = true -> x = y.
Proof.
  unfold v_eqb. intros H. apply andb_true_iff in H as [L H]. apply Nat.eqb_eq in L.
  revert y L H. induction x as [|a x IH]; intros [|b y] L H; try discriminate; auto.
  cbn in *. apply andb_true_iff in H as [E H]. f_equal; auto.
  unfold Reqb in E. destruct (Req_EM_T a b); [auto|discriminate].
Qed.

Lemma m_eqb_eq A B r c : shape A r c -> shape B r c -> m_eqb Rops A B = true -> A = B.
Proof.
  intros [[LA _] [RA CA]] [[LB _] [RB CB]] H. unfold m_eqb in H.
  apply andb_true_iff in H as [_ H]. destruct A as [ra ca da], B as [rb cb db]. cbn in *. subst.
  assert (length da = length db) as L by lia. f_equal; [lia|]. clear - L H.
  revert db L H. induction da as [|x da IH]; intros [|y db] L H; try discriminate; auto.
  cbn [combine forallb fst snd] in H. cbn in L. apply andb_true_iff in H as [E H]. f_equal; auto. apply v_eqb_eq; auto.
Qed.

Lemma col_of_vec (v : list R) : col (m_of_vec v) 0 = v.
Proof. unfold col, m_of_vec. cbn. rewrite map_map. cbn. apply map_id. Qed.

Lemma mul_right_vec_ok red t M v : rayon red -> represents t M -> length v = num_indeps t ->
  mul_right_vec Rops red t v = Ok (mulv M v).
Proof.
  intros HR HM L. unfold mul_right_vec. rewrite (mul_right_spec red t M); auto.
  2: { split; cbn; [rewrite map_length; auto|]. apply Forall_forall. intros r Hr.
       apply in_map_iff in Hr as (a & <- & _). auto. }
  cbn [bind]. destruct HM as [[[LM _] [RM CM]] _].
  assert (m_dat (mm M (m_of_vec v)) = map (fun a => [a]) (mulv M v)) as ->.
  { unfold mm, m_tab. cbn [m_dat m_cols m_of_vec]. unfold mulv. rewrite map_map.
    rewrite <- LM. transitivity (map (fun i => [dot (row M i) v]) (seq 0 (length (m_dat M)))).
    - apply map_ext. intros i. cbn [seq map]. rewrite col_of_vec. auto.
    - unfold row. rewrite <- (map_map (fun i => nth i (m_dat M) []) (fun r => [dot r v])).
      f_equal. clear. induction (m_dat M) as [|r l IH]; auto. cbn [length seq map nth]. f_equal.
      rewrite <- seq_shift, map_map. auto. }
  generalize (mulv M v). clear. induction l as [|a l IH]; auto. cbn. rewrite IH. auto.
Qed.

(** ** Scaling columns, adding matrices *)
Lemma shape_scale A sigma r c : shape A r c -> length sigma = c -> shape (scale_cols Rops A sigma) r c.
Proof.
  intros [[LA FA] [RA CA]] L. split; [split|split]; cbn; auto.
  - rewrite map_length; auto.
  - rewrite Forall_forall in *. intros x Hx. apply in_map_iff in Hx as (y & <- & Hy).
    unfold v_zip. rewrite map_length, combine_length. specialize (FA _ Hy). lia.
Qed.

Lemma row_scale A sigma i : row (scale_cols Rops A sigma) i = vmul (row A i) sigma.
Proof.
  unfold row, scale_cols. cbn [m_dat].
  change (@nil R) with ((fun r => v_zip (f_mul Rops) r sigma) []) at 1. rewrite map_nth. reflexivity.
Qed.

Lemma m_add2_ok A B r c : shape A r c -> shape B r c ->
  exists C, m_add2 Rops A B = Ok C /\ shape C r c /\ forall i, (i < r)%nat -> row C i = vadd (row A i) (row B i).
Proof.
  intros [[LA FA] [RA CA]] [[LB FB] [RB CB]]. unfold m_add2. rewrite RA, RB, CA, CB, !Nat.eqb_refl.
  cbn [andb]. eexists. split; [reflexivity|].
  assert (forall i, (i < r)%nat -> nth i (map (fun p => v_zip (f_add Rops) (fst p) (snd p)) (combine (m_dat A) (m_dat B))) []
    = vadd (row A i) (row B i)) as E.
  { intros i Hi. rewrite (nth_indep _ [] ((fun p => v_zip (f_add Rops) (fst p) (snd p)) ([], []))).
    2: { rewrite map_length, combine_length. lia. }
    rewrite (map_nth (fun p => v_zip (f_add Rops) (fst p) (snd p))), combine_nth by lia. reflexivity. }
  split; [|intros i Hi; apply E; auto].
  split; [split|split]; cbn; auto.
  - rewrite map_length, combine_length. lia.
  - apply Forall_forall. intros x Hx. apply (In_nth _ _ []) in Hx as (i & Hi & <-).
    rewrite map_length, combine_length in Hi. rewrite E by lia.
    unfold row. rewrite Forall_forall in FA, FB.
    assert (length (nth i (m_dat A) []) = c) as E1 by (rewrite FA; auto; apply nth_In; lia).
    assert (length (nth i (m_dat B) []) = c) as E2 by (rewrite FB; auto; apply nth_In; lia).
    rewrite vadd_len; congruence.
Qed.

Lemma row_ext A B r c : shape A r c -> shape B r c -> (forall i, (i < r)%nat -> row A i = row B i) -> A = B.
Proof.
  intros SA SB H. apply (shape_ext _ _ _ _ SA SB). intros i j Hi Hj. rewrite <- !row_ent, H; auto.
Qed.

(** ** The two iterations *)
Definition dz_step (L : matrix R) (c z : list R) : list R := vadd c (mulv L (vabs z)).

Lemma dz_loop_settle red lt L c s : rayon red -> represents lt L -> shape L s s -> num_indeps lt = s -> length c = s ->
  forall k z, length z = s -> dz_loop Rops red lt c k z = Ok (settle (dz_step L c) (v_eqb Rops) k z).
Proof.
  intros HR HL SL Hn Lc. induction k as [|k IH]; intros z Lz; cbn [dz_loop settle]; auto.
  rewrite (mul_right_vec_ok red lt L) by (auto; unfold v_abs; rewrite map_length; congruence). cbn [bind].
  change (v_abs Rops z) with (vabs z).
  rewrite v_add_ok by (rewrite (mulv_len L s s); auto). cbn [bind]. fold (dz_step L c z).
  destruct (v_eqb Rops (dz_step L c z) z); auto. apply IH. unfold dz_step.
  rewrite vadd_len; auto. rewrite (mulv_len L s s); auto.
Qed.

Theorem dz_loop_ok red lt L c s : rayon red -> represents lt L -> shape L s s -> num_indeps lt = s ->
  strictly_lower L -> length c = s ->
  exists dz, dz_loop Rops red lt c s c = Ok dz /\ length dz = s /\ dz = vadd c (mulv L (vabs dz)).
Proof.
  intros HR HL SL Hn Low Lc.
  set (dom := fun z : list R => length z = s).
  set (agree := fun k (x y : list R) => forall i, (i < k)%nat -> nth i x 0 = nth i y 0).
  assert (forall x, dom x -> dom (dz_step L c x)) as Hd.
  { intros x Dx. unfold dom, dz_step. rewrite vadd_len; auto. rewrite (mulv_len L s s); auto. }
  assert (forall x y, dom x -> dom y -> agree 0%nat x y) as H0 by (intros x y _ _ i Hi; lia).
  assert (forall k x y, dom x -> dom y -> agree k x y -> agree (S k) (dz_step L c x) (dz_step L c y)) as HS.
  { intros k x y Dx Dy Ag i Hi. unfold dz_step.
    rewrite !nth_vadd by (rewrite (mulv_len L s s); auto). f_equal.
    apply (lower_prefix L s); auto.
    - rewrite !vabs_len. unfold dom in *. congruence.
    - intros j Hj. rewrite !nth_vabs, Ag by lia. auto. }
  assert (forall x y, dom x -> dom y -> agree s x y -> x = y) as Hs.
  { intros x y Dx Dy Ag. unfold dom in *. apply nth_ext0; [congruence|]. intros i Hi. apply Ag. lia. }
  destruct (settle_fix (dz_step L c) dom agree s Hd H0 HS Hs c Lc) as (p & Dp & Ep & _).
  exists p. rewrite (dz_loop_settle red lt L c s) by auto.
  rewrite (settle_spec (dz_step L c) dom agree s Hd H0 HS Hs (v_eqb Rops) p); auto.
  - intros x y _ _. apply v_eqb_eq.
  - rewrite Nat.sub_diag. auto.
Qed.

(** one row of the second iteration: u -> (u L) Sigma + c *)
Lemma upper_suffix L s u v k j : shape L s s -> strictly_lower L -> length u = s -> length v = s ->
  (forall l, (s - k <= l)%nat -> nth l u 0 = nth l v 0) -> (s - S k <= j)%nat -> (j < s)%nat ->
  nth j (vmulm u L) 0 = nth j (vmulm v L) 0.
Proof.
  intros SL Low Lu Lv Ag Hk Hj. pose proof SL as [_ [_ CL]].
  rewrite !nth_vmulm by lia. rewrite (dot_sym u), (dot_sym v).
  assert (length (col L j) = s) as Lc by (rewrite col_len; destruct SL as [[? _] [? _]]; lia).
  apply dot_ext; [congruence|]. intros l. destruct (Nat.le_gt_cases l j) as [Hlj|Hlj].
  - rewrite nth_col, Low by lia. ring.
  - rewrite Ag by lia. auto.
Qed.

Definition u_row (L : matrix R) (sg c u : list R) : list R := vadd (vmul (vmulm u L) sg) c.
Definition u_step (L : matrix R) (sg : list R) (base U : matrix R) : matrix R :=
  mkM (m_rows base) (m_cols base) (map (fun i => u_row L sg (row base i) (row U i)) (seq 0 (m_rows base))).

Section UStep.
Context (L : matrix R) (s r : nat) (SL : shape L s s) (sg : list R) (Lsg : length sg = s)
  (base : matrix R) (SB : shape base r s).

Lemma row_u_step U i : (i < r)%nat -> row (u_step L sg base U) i = u_row L sg (row base i) (row U i).
Proof.
  intros Hi. unfold row at 1, u_step. cbn [m_dat]. destruct SB as [_ [RB _]].
  rewrite nth_map_seq by lia. auto.
Qed.
Lemma u_row_len c u : length c = s -> length (u_row L sg c u) = s.
Proof.
  intros Lc. unfold u_row. destruct SL as [_ [_ CL]].
  rewrite vadd_len; rewrite vmul_len; rewrite ?vmulm_len; congruence.
Qed.
Lemma shape_u_step U : shape (u_step L sg base U) r s.
Proof.
  pose proof SB as [_ [RB CB]]. split; [split|split]; cbn; auto.
  - rewrite map_length, seq_length. auto.
  - apply Forall_forall. intros x Hx. apply in_map_iff in Hx as (i & <- & Hi). apply in_seq in Hi.
    rewrite u_row_len; auto. apply (row_len base r s); auto. lia.
Qed.

Lemma u_step_ok red lt U : rayon red -> wf_tape lt -> no_abs lt -> NoDup (t_deps lt) -> represents lt L ->
  num_deps lt = s -> num_indeps lt = s -> shape U r s ->
  (u1 <- mul_left Rops red lt U ;; m_add2 Rops (scale_cols Rops u1 sg) base) = Ok (u_step L sg base U).
Proof.
  intros HR W NA ND HL Hd Hi SU. pose proof SU as [WU [RU CU]].
  rewrite (mul_left_spec red lt L U) by (auto; congruence). cbn [bind].
  assert (shape (mm U L) r s) as SM.
  { pose proof (shape_mm U L) as H. rewrite RU in H. destruct SL as [_ [_ ->]] in H. auto. }
  pose proof (shape_scale _ sg r s SM Lsg) as SS.
  destruct (m_add2_ok _ _ r s SS SB) as (C & -> & SC & HC). f_equal.
  apply (row_ext _ _ r s SC (shape_u_step U)). intros i Hi'.
  rewrite HC, row_u_step by auto. unfold u_row. rewrite row_scale, row_mm by lia. auto.
Qed.

Context (Low : strictly_lower L).
Theorem u_loop_ok red lt : rayon red -> wf_tape lt -> no_abs lt -> NoDup (t_deps lt) -> represents lt L ->
  num_deps lt = s -> num_indeps lt = s ->
  exists U, u_loop Rops red lt sg base s base = Ok U /\ shape U r s /\
    forall i, (i < r)%nat -> row U i = u_row L sg (row base i) (row U i).
Proof.
  intros HR W NA ND HL Hd Hi.
  assert (forall k U, shape U r s ->
    u_loop Rops red lt sg base k U = Ok (settle (u_step L sg base) (m_eqb Rops) k U)) as HE.
  { induction k as [|k IH]; intros U SU; cbn [u_loop settle]; auto.
    pose proof (u_step_ok red lt U HR W NA ND HL Hd Hi SU) as E.
    destruct (mul_left Rops red lt U) as [u1|p]; [|discriminate]. cbn [bind] in *. rewrite E. cbn [bind].
    destruct (m_eqb Rops _ _); auto. apply IH. apply shape_u_step. }
  set (dom := fun U : matrix R => shape U r s).
  set (agree := fun k (U V : matrix R) => forall i, (i < r)%nat -> forall j, (s - k <= j)%nat ->
     nth j (row U i) 0 = nth j (row V i) 0).
  assert (forall U, dom U -> dom (u_step L sg base U)) as Hdm by (intros; apply shape_u_step).
  assert (forall U V, dom U -> dom V -> agree 0%nat U V) as H0.
  { intros U V DU DV i Hi' j Hj. rewrite !nth_overflow; auto; [rewrite (row_len V r s)|rewrite (row_len U r s)]; auto; lia. }
  assert (forall k U V, dom U -> dom V -> agree k U V -> agree (S k) (u_step L sg base U) (u_step L sg base V)) as HS.
  { intros k U V DU DV Ag i Hi' j Hj. rewrite !row_u_step by auto.
    pose proof SL as [_ [_ CL]].
    destruct (Nat.lt_ge_cases j s) as [Hjs|Hjs].
    2: { rewrite !nth_overflow; auto; rewrite u_row_len; auto; apply (row_len base r s); auto. }
    unfold u_row. rewrite !nth_vadd, !nth_vmul by
      (rewrite ?vmul_len; rewrite ?vmulm_len; try congruence; rewrite (row_len base r s); auto; congruence).
    do 2 f_equal. apply (upper_suffix L s _ _ k); auto; try (apply (row_len _ r s); auto). }
  assert (forall U V, dom U -> dom V -> agree s U V -> U = V) as Hs.
  { intros U V DU DV Ag. apply (row_ext _ _ r s DU DV). intros i Hi'. apply nth_ext0.
    - rewrite (row_len U r s), (row_len V r s); auto.
    - intros j _. apply Ag; auto. lia. }
  destruct (settle_fix (u_step L sg base) dom agree s Hdm H0 HS Hs base SB) as (p & Dp & Ep & _).
  exists p. rewrite HE by auto.
  rewrite (settle_spec (u_step L sg base) dom agree s Hdm H0 HS Hs (m_eqb Rops) p); auto.
  - split; auto. split; auto. intros i Hi'. rewrite <- row_u_step by auto. congruence.
  - intros U V DU DV. apply (m_eqb_eq U V r s); auto.
  - rewrite Nat.sub_diag. auto.
Qed.
End UStep.

(** ** Signs *)
Lemma land_bit b i : N.ltb 0 (N.land b (N.shiftl 1 i)) = N.testbit b i.
Proof.
  destruct (N.testbit b i) eqn:E.
  - apply N.ltb_lt. destruct (N.eq_0_gt_0_cases (N.land b (N.shiftl 1 i))) as [Z|]; auto.
    assert (N.testbit (N.land b (N.shiftl 1 i)) i = true) as H.
    { rewrite N.land_spec, E, N.shiftl_spec_high' by lia. rewrite N.sub_diag. auto. }
    rewrite Z, N.bits_0 in H. discriminate.
  - assert (N.land b (N.shiftl 1 i) = 0%N) as ->; auto.
    apply N.bits_inj_0. intros j. rewrite N.land_spec.
    destruct (N.lt_trichotomy j i) as [H|[->|H]].
    + rewrite N.shiftl_spec_low by auto. apply andb_false_r.
    + rewrite E. auto.
    + rewrite N.shiftl_spec_high' by lia. replace (N.testbit 1 (j - i)) with false; [apply andb_false_r|].
      symmetry. change 1%N with (N.ones 1). apply N.ones_spec_high. lia.
Qed.

Lemma bit_over bytes k : (8 * length bytes <= k)%nat -> bit bytes k = false.
Proof.
  intros H. unfold bit. assert (length bytes <= k / 8)%nat as H1.
  { apply Nat.div_le_lower_bound; lia. }
  apply nth_error_None in H1. rewrite H1. auto.
Qed.

Lemma bit_next_spec bytes k :
  bit_next bytes (Nat.min k (8 * length bytes)) = (bit bytes k, Nat.min (S k) (8 * length bytes)).
Proof.
  unfold bit_next. destruct (Nat.lt_ge_cases k (8 * length bytes)) as [H|H].
  - rewrite Nat.min_l by lia. unfold bit.
    assert (k / 8 < length bytes)%nat as H1 by (apply Nat.div_lt_upper_bound; lia).
    destruct (nth_error bytes (k / 8)) eqn:E; [|apply nth_error_None in E; lia].
    rewrite land_bit. f_equal. lia.
  - rewrite Nat.min_r by lia. rewrite bit_over by auto.
    rewrite Nat.mul_comm, Nat.div_mul by lia.
    assert (nth_error bytes (length bytes) = None) as -> by (apply nth_error_None; lia).
    f_equal. lia.
Qed.

Lemma zeros_cons d dz : zeros (d :: dz) = ((if is_zero d then 1 else 0) + zeros dz)%nat.
Proof. unfold zeros. cbn. destruct (is_zero d); auto. Qed.

Lemma signs_spec bytes : forall dz k mult sg q,
  signs_loop Rops bytes (Nat.min k (8 * length bytes)) mult dz = (sg, q) ->
  length sg = length dz /\ q = (mult + zeros dz)%nat /\
  forall i, (i < length dz)%nat ->
    (0 < nth i dz 0 -> nth i sg 0 = 1) /\
    (nth i dz 0 < 0 -> nth i sg 0 = -1) /\
    (nth i dz 0 = 0 -> nth i sg 0 = if bit bytes (k + zeros (firstn i dz)) then 1 else -1).
Proof.
  induction dz as [|d dz IH]; intros k mult sg q E.
  - cbn in E. injection E as <- <-. cbn. repeat split; try lia.
  - cbn [signs_loop] in E. change (f_zero Rops) with 0 in E. change (f_ltb Rops) with Rltb in E.
    destruct (Rltb d 0) eqn:E1; [|destruct (Rltb 0 d) eqn:E2].
    + destruct (signs_loop _ _ _ _ dz) as [sg' q'] eqn:ES. injection E as <- <-.
      apply IH in ES as (L & -> & H). apply Rltb_true in E1.
      assert (is_zero d = false) as Z by (unfold is_zero; destruct (Req_EM_T d 0); auto; lra).
      rewrite zeros_cons, Z. cbn [length]. split; [lia|]. split; [lia|].
      intros [|i] Hi; cbn [nth firstn].
      * split; [intros; lra|]. split; [intros _; reflexivity|intros; lra].
      * rewrite zeros_cons, Z. apply H. lia.
    + destruct (signs_loop _ _ _ _ dz) as [sg' q'] eqn:ES. injection E as <- <-.
      apply IH in ES as (L & -> & H). apply Rltb_true in E2.
      assert (is_zero d = false) as Z by (unfold is_zero; destruct (Req_EM_T d 0); auto; lra).
      rewrite zeros_cons, Z. cbn [length]. split; [lia|]. split; [lia|].
      intros [|i] Hi; cbn [nth firstn].
      * split; [intros _; reflexivity|]. split; intros; lra.
      * rewrite zeros_cons, Z. apply H. lia.
    + apply Rltb_false in E1. apply Rltb_false in E2.
      rewrite bit_next_spec in E.
      destruct (signs_loop _ _ _ _ dz) as [sg' q'] eqn:ES. injection E as <- <-.
      apply IH in ES as (L & -> & H).
      assert (is_zero d = true) as Z by (unfold is_zero; destruct (Req_EM_T d 0); auto; lra).
      rewrite zeros_cons, Z. cbn [length]. split; [lia|]. split; [lia|].
      intros [|i] Hi; cbn [nth firstn].
      * split; [intros; lra|]. split; [intros; lra|]. intros _. unfold zeros. cbn [filter length].
        rewrite Nat.add_0_r. destruct (bit bytes k); reflexivity.
      * rewrite zeros_cons, Z. replace (k + (1 + zeros (firstn i dz)))%nat with (S k + zeros (firstn i dz))%nat by lia.
        apply H. lia.
Qed.

Theorem signs_ok bytes dz sg q : signs_loop Rops bytes 0 0 dz = (sg, q) ->
  selected bytes dz sg /\ q = zeros dz.
Proof.
  intros E. change 0%nat with (Nat.min 0 (8 * length bytes)) in E at 1.
  apply signs_spec in E as (L & -> & H). repeat split; auto; apply H; auto.
Qed.

Lemma selected_abs bytes dz sg : selected bytes dz sg -> vmul sg dz = vabs dz.
Proof.
  intros [L H]. apply nth_ext0; [rewrite vmul_len, vabs_len; auto|].
  intros i Hi. rewrite vmul_len in Hi by auto. rewrite L in Hi.
  rewrite nth_vmul, nth_vabs by auto. destruct (H i Hi) as (H1 & H2 & H3).
  destruct (Rtotal_order (nth i dz 0) 0) as [A|[A|A]].
  - rewrite H2, Rabs_left by auto. ring.
  - rewrite A, Rabs_R0. ring.
  - rewrite H1, Rabs_right by (auto; lra). ring.
Qed.

(** ** The result *)
Section Row.
Context (Z L J Y : matrix R) (n m s : nat) (SZ : shape Z s n) (SL : shape L s s) (SJ : shape J m n)
  (SY : shape Y m s) (a b sg : list R) (La : length a = s) (Lb : length b = m) (Lsg : length sg = s).

(** One row r of G2, with u = (u L) Sigma + (r Y) Sigma. *)
Lemma row_identity r u dx zh : length r = m -> length u = s -> length dx = n -> length zh = s ->
  u = u_row L sg (vmul (vmulm r Y) sg) u ->
  zh = vadd (vadd a (mulv Z dx)) (mulv L (vabs zh)) -> vmul sg zh = vabs zh ->
  dot (vadd (vmulm r J) (vmulm u Z)) dx + (dot r b + dot u a) =
  dot r (vadd (vadd b (mulv J dx)) (mulv Y (vabs zh))).
Proof.
  intros Lr Lu Ldx Lzh Eu Ez Es.
  pose proof SZ as [_ [RZ CZ]]. pose proof SL as [_ [RL CL]]. pose proof SJ as [_ [RJ CJ]]. pose proof SY as [_ [RY CY]].
  rewrite dot_vadd_l by (rewrite !vmulm_len; congruence).
  rewrite (vmulm_mulv r J dx m n), (vmulm_mulv u Z dx s n) by auto.
  rewrite !dot_vadd_r; try (rewrite ?vadd_len; rewrite ?(mulv_len Z s n), ?(mulv_len J m n), ?(mulv_len Y m s) by auto; auto; fail).
  assert (dot u zh = dot u a + dot u (mulv Z dx) + dot u (mulv L (vabs zh))) as E1.
  { rewrite Ez at 1. rewrite !dot_vadd_r; auto; rewrite ?vadd_len; rewrite ?(mulv_len Z s n), ?(mulv_len L s s) by auto; auto. }
  assert (dot u zh = dot u (mulv L (vabs zh)) + dot r (mulv Y (vabs zh))) as E2.
  { rewrite Eu at 1. unfold u_row. rewrite dot_vadd_l by (rewrite !vmul_len; rewrite !vmulm_len; congruence).
    rewrite !dot_vmul_l, Es. rewrite (vmulm_mulv u L _ s s), (vmulm_mulv r Y _ m s); auto; rewrite vabs_len; auto. }
  lra.
Qed.
End Row.

Definition gjac_data (m : nat) (next : option (gjac R)) : matrix R * list R :=
  match next with Some g => (g_hom g, g_inh g) | None => (m_id Rops m, repeat 0 m) end.

Lemma mulv_id n x : length x = n -> mulv (m_id Rops n) x = x.
Proof.
  intros Lx.
  assert (shape (m_of_vec x) n 1) as S.
  { split; [split|split]; cbn; auto; [rewrite map_length; auto|].
    apply Forall_forall. intros r Hr. apply in_map_iff in Hr as (y & <- & _). auto. }
  assert (mulv (m_of_vec x) [1] = x) as E.
  { unfold mulv, m_of_vec. cbn. rewrite map_map. rewrite <- (map_id x) at 2. apply map_ext. intros y. cbn. ring. }
  rewrite <- E at 1. rewrite <- (mulv_mm _ _ [1] n n 1 (shape_id n) S eq_refl).
  rewrite (mm_id_l _ n 1 S). auto.
Qed.

Theorem gj_tape_correct red (t : tape R) (N : anf) dx bits next :
  rayon red -> wf_tape t -> NoDup (t_deps t) -> (forall args, abs_args t = Ok args -> NoDup args) ->
  anf_of t N -> length dx = num_indeps t -> next_ok (num_deps t) next ->
  exists G dz sigma, generalized_jacobian_tape Rops red t dx bits next = Ok G /\
    switching N dx dz /\ selected bits dz sigma /\
    g_mult G = (zeros dz + next_mult next)%nat /\
    shape (g_hom G) (next_rows (num_deps t) next) (num_indeps t) /\
    length (g_inh G) = next_rows (num_deps t) next /\
    forall dx' dy', length dx' = num_indeps t -> compatible N sigma dx' ->
      tape_forward Rops t dx' = Ok dy' -> vadd (mulv (g_hom G) dx') (g_inh G) = next_map next dy'.
Proof.
  intros HR W ND NA HN Ldx Hnx.
  pose proof (anf_lower t N W HN) as Low.
  pose proof (fun dx => anf_correct t N dx W HN) as AC.
  pose proof HN as [(a & z & EN & EZ & Rz & Rl & Rj & Ry & Ea & Eb)].
  destruct (abs_args_ok t W) as (args & EA & LA). specialize (NA args EA).
  destruct (subtapes_ok t a W EN) as (HS & N1 & N2 & N3 & N4 & N5 & N6 & N7 & N8).
  destruct (HS (z_tape a)) as [Wz Az]; [cbn; auto|]. destruct (HS (l_tape a)) as [Wl Al]; [cbn; auto|].
  destruct (HS (j_tape a)) as [Wj Aj]; [cbn; auto|]. destruct (HS (y_tape a)) as [Wy Ay]; [cbn; auto|].
  destruct (sub_tapes t a args EN EA) as (Tz & Tl & Tj & Ty & _).
  assert (NoDup (t_deps (z_tape a)) /\ NoDup (t_deps (l_tape a)) /\
          NoDup (t_deps (j_tape a)) /\ NoDup (t_deps (y_tape a))) as (D1 & D2 & D3 & D4).
  { rewrite Tz, Tl, Tj, Ty. cbn. auto. }
  assert (shape (f_zmat N) (num_abs t) (num_indeps t)) as SZ by (rewrite <- N1, <- N2; apply Rz).
  assert (shape (f_lmat N) (num_abs t) (num_abs t)) as SL by (rewrite <- N3 at 2; rewrite <- N4 at 1; apply Rl).
  assert (shape (f_jmat N) (num_deps t) (num_indeps t)) as SJ by (rewrite <- N5, <- N6; apply Rj).
  assert (shape (f_ymat N) (num_deps t) (num_abs t)) as SY by (rewrite <- N7, <- N8; apply Ry).
  destruct (an_z_ok t a W EN) as (z' & EZ' & Lz). assert (z' = z) as -> by congruence.
  assert (length (f_a N) = num_abs t) as Lfa.
  { rewrite Ea, vsub_len; auto. rewrite (mulv_len _ _ _ _ SL). auto. }
  assert (length (f_b N) = num_deps t) as Lfb.
  { rewrite Eb, map_length, (mulv_len _ _ _ _ SY). auto. }
  unfold generalized_jacobian_tape. rewrite Ldx, Nat.eqb_refl. cbn [assert bind].
  rewrite EN. cbn [bind]. rewrite EZ. cbn [bind]. change (v_abs Rops z) with (vabs z).
  rewrite (mul_right_vec_ok red _ _ _ HR Rl) by (rewrite vabs_len; congruence). cbn [bind].
  rewrite v_sub_ok by (rewrite (mulv_len _ _ _ _ SL); auto). cbn [bind]. rewrite <- Ea.
  rewrite (mul_right_vec_ok red _ _ _ HR Ry) by (rewrite vabs_len; congruence). cbn [bind].
  change (v_neg Rops (mulv (f_ymat N) (vabs z))) with (map Ropp (mulv (f_ymat N) (vabs z))). rewrite <- Eb.
  rewrite (mul_right_vec_ok red _ _ _ HR Rz) by congruence. cbn [bind].
  rewrite v_add_ok by (rewrite (mulv_len _ _ _ _ SZ); auto). cbn [bind].
  set (c := vadd (f_a N) (mulv (f_zmat N) dx)).
  assert (length c = num_abs t) as Lc by (unfold c; rewrite vadd_len; rewrite ?(mulv_len _ _ _ _ SZ); auto).
  destruct (dz_loop_ok red _ _ c (num_abs t) HR Rl SL N3 Low Lc) as (dz & -> & Ldz & Edz). cbn [bind].
  destruct (signs_loop Rops bits 0 0 dz) as [sg mu] eqn:ES.
  apply signs_ok in ES as (HSel & ->). pose proof (proj1 HSel) as Lsg. rewrite Ldz in Lsg.
  destruct (gjac_data (num_deps t) next) as [G2 gamma2] eqn:EG.
  assert (shape G2 (next_rows (num_deps t) next) (num_deps t) /\ length gamma2 = next_rows (num_deps t) next) as [SG Lg].
  { destruct next as [g|]; cbn in EG, Hnx |- *; injection EG as <- <-; auto.
    split; [apply shape_id|apply repeat_length]. }
  assert (forall y, length y = num_deps t -> next_map next y = vadd (mulv G2 y) gamma2) as Hmap.
  { intros y Ly. destruct next as [g|]; cbn in EG |- *; injection EG as <- <-; auto.
    rewrite mulv_id by auto. apply nth_ext0; [rewrite vadd_len; auto; rewrite repeat_length; auto|].
    intros i Hi. rewrite nth_vadd by (rewrite repeat_length; auto). rewrite nth_repeat. lra. }
  set (k := next_rows (num_deps t) next) in *.
  assert (match next with
    | Some g => (g_hom g, g_inh g, (zeros dz + g_mult g)%nat)
    | None => (m_id Rops (num_deps t), repeat (f_zero Rops) (num_deps t), zeros dz)
    end = (G2, gamma2, (zeros dz + next_mult next)%nat)) as ->.
  { destruct next as [g|]; cbn in EG |- *; injection EG as <- <-; auto; rewrite Nat.add_0_r; auto. }
  rewrite (mul_left_spec red (y_tape a) (f_ymat N) G2) by (auto; try apply SG; destruct SG as [_ [_ ->]]; auto).
  cbn [bind].
  assert (forall M c', shape M (num_deps t) c' -> shape (mm G2 M) k c') as SMM.
  { intros M c' [_ [_ <-]]. destruct SG as [_ [<- _]]. apply shape_mm. }
  set (base := scale_cols Rops (mm G2 (f_ymat N)) sg).
  assert (shape base k (num_abs t)) as SB by (apply shape_scale; auto).
  destruct (u_loop_ok (f_lmat N) (num_abs t) k SL sg Lsg base SB Low red (l_tape a)) as (U & -> & SU & HU); auto.
  cbn [bind].
  rewrite (mul_left_spec red (j_tape a) (f_jmat N) G2) by (auto; try apply SG; destruct SG as [_ [_ ->]]; auto).
  cbn [bind].
  rewrite (mul_left_spec red (z_tape a) (f_zmat N) U) by (auto; try apply SU; destruct SU as [_ [_ ->]]; auto).
  cbn [bind].
  assert (shape (mm U (f_zmat N)) k (num_indeps t)) as SUZ.
  { pose proof SZ as [_ [_ <-]]. pose proof SU as [_ [<- _]]. apply shape_mm. }
  destruct (m_add2_ok _ _ k (num_indeps t) (SMM _ _ SJ) SUZ) as (H & -> & SH & HH). cbn [bind].
  rewrite (m_mulv_ok G2 k (num_deps t)) by auto. cbn [bind].
  rewrite v_add_ok by (rewrite (mulv_len _ _ _ _ SG); auto). cbn [bind].
  rewrite (m_mulv_ok U k (num_abs t)) by auto. cbn [bind].
  rewrite v_add_ok.
  2: { rewrite vadd_len; rewrite ?(mulv_len _ _ _ _ SG), ?(mulv_len _ _ _ _ SU); auto. }
  cbn [bind]. eexists _, dz, sg. split; [reflexivity|]. cbn [g_hom g_inh g_mult].
  split; [split; [congruence|exact Edz]|]. split; [exact HSel|]. split; [reflexivity|]. split; [exact SH|].
  split.
  { rewrite !vadd_len; rewrite ?vadd_len; rewrite ?(mulv_len _ _ _ _ SG), ?(mulv_len _ _ _ _ SU); auto. }
  intros dx' dy' Ldx' (zh & SW & HC) EF.
  destruct (AC dx' Ldx') as (zh0 & _ & Uq & EF0). apply Uq in SW as E. subst zh0.
  rewrite EF in EF0. apply Ok_inj in EF0. destruct SW as [Lzh Ezh]. rewrite Lfa in Lzh.
  assert (vmul sg zh = vabs zh) as Es.
  { apply nth_ext0; [rewrite vmul_len, vabs_len; congruence|]. intros i Hi.
    rewrite vmul_len in Hi by congruence. rewrite nth_vmul, nth_vabs by congruence. apply HC. lia. }
  assert (length dy' = num_deps t) as Ldy by (apply tape_forward_length in EF; auto).
  rewrite Hmap by auto. apply nth_ext0.
  { rewrite !vadd_len; rewrite ?vadd_len; rewrite ?(mulv_len _ _ _ _ SG), ?(mulv_len _ _ _ _ SU), ?(mulv_len _ _ _ _ SH); auto.
    rewrite vadd_len; rewrite ?(mulv_len _ _ _ _ SG); auto. }
  intros i Hi.
  assert (i < k)%nat as Hk.
  { rewrite vadd_len in Hi; rewrite ?(mulv_len _ _ _ _ SH) in *; auto.
    rewrite !vadd_len; rewrite ?vadd_len; rewrite ?(mulv_len _ _ _ _ SG), ?(mulv_len _ _ _ _ SU); auto. }
  assert (length (vadd gamma2 (mulv G2 (f_b N))) = k) as L1 by (rewrite vadd_len; rewrite ?(mulv_len _ _ _ _ SG); auto).
  rewrite nth_vadd.
  2: { rewrite vadd_len; rewrite ?(mulv_len _ _ _ _ SH), ?(mulv_len _ _ _ _ SU); auto. }
  rewrite nth_vadd by (rewrite ?(mulv_len _ _ _ _ SU); auto).
  rewrite nth_vadd by (rewrite ?(mulv_len _ _ _ _ SG); auto).
  rewrite nth_vadd by (rewrite ?(mulv_len _ _ _ _ SG); auto).
  rewrite !nth_mulv. rewrite HH by auto. pose proof SG as [_ [RG _]]. pose proof SU as [_ [RU _]].
  rewrite !row_mm by lia. rewrite EF0. unfold increment.
  rewrite <- (row_identity (f_zmat N) (f_lmat N) (f_jmat N) (f_ymat N) (num_indeps t) (num_deps t) (num_abs t)
    SZ SL SJ SY (f_a N) (f_b N) sg Lfa Lfb Lsg (row G2 i) (row U i) dx' zh); auto.
  - lra.
  - apply (row_len G2 k (num_deps t)); auto.
  - apply (row_len U k (num_abs t)); auto.
  - rewrite (HU i Hk) at 1. f_equal. unfold base. rewrite row_scale, row_mm by lia. auto.
Qed.
