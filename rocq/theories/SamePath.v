(** Functions that are recorded alike at two points, whatever values they look at on the way. *)
From Coq Require Import Reals Lra List Arith ZArith Bool Lia.
From Verif Require Import Base Float Operation Tape AContext Methods Function Spec Param Instances
  FunctionFacts ReplayFacts ApiFacts3 RealInst DerivSpec DerivFacts DerivFacts2 LinearFacts Matrix MatrixFacts Jacobian JacobianFacts RecordFacts Replay2 TapeFacts Shape SourceDeriv AbsNormal AbsNormalFacts AnfSpec RVec AnfFacts AnfFacts2 Tapeless.
From Coquelicot Require Import Coquelicot.
Import ListNotations.
Open Scope R_scope.

(** Two tapes have the same independents, dependents, operations and constants. *)
Definition same_tape {F} (t1 t2 : tape F) : Prop :=
  t_indeps t1 = t_indeps t2 /\ t_deps t1 = t_deps t2 /\ t_ops t1 = t_ops t2 /\
  forall o, In o (t_ops t1) -> opcode o = Const -> nth_error (t_vals t1) (vid o) = nth_error (t_vals t2) (vid o).

(** The function is recorded at both points, and alike. *)
Definition recorded_alike {F} (Fo : Fops F) (f : func F) (x x' : list F) : Prop :=
  exists w1 t1 w1' w2 t2 w2', fn_tape Fo f x w1 = Ok (t1, w1') /\ fn_tape Fo f x' w2 = Ok (t2, w2') /\ same_tape t1 t2.

(** It is recorded at all points near [x] as at [x]. *)
Definition alike_near (f : func R) (x : list R) : Prop :=
  exists r, 0 < r /\ forall h, length h = length x -> nrm1 h < r -> recorded_alike Rops f x (vadd x h).

Section Alike.
Context {F : Type} (Fo : Fops F).

Lemma count_le (t1 t2 : tape F) : recorded_tape t1 -> recorded_tape t2 -> t_indeps t1 = t_indeps t2 -> t_ops t1 = t_ops t2 ->
  (length (t_vals t2) <= length (t_vals t1))%nat.
Proof.
  intros R1 R2 I O. destruct (le_lt_dec (length (t_vals t2)) (length (t_vals t1))) as [|H]; auto. exfalso.
  destruct (rt_cover _ R2 _ H) as [K|K].
  - rewrite <- I in K. apply (wf_indep_range _ (rt_wf _ R1)) in K. lia.
  - rewrite <- O in K. apply in_def_ids in K as (o & Ho & NN & E). pose proof (wf_ops _ (rt_wf _ R1) o Ho) as Wo.
    unfold wf_op in Wo. destruct (opcode o); try congruence; lia.
Qed.

Theorem replay_iff f x w t w' g x' w2 t2 w2' :
  fn_tape Fo f x w = Ok (t, w') -> fn_tape Fo g x' w2 = Ok (t2, w2') ->
  (tape_zero_order Fo t x' = Ok t2 <-> same_tape t t2).
Proof.
  intros T T2. destruct (fn_tape_wf Fo _ _ _ _ _ T) as (R1 & _). destruct (fn_tape_wf Fo _ _ _ _ _ T2) as (R2 & _).
  pose proof (rt_wf _ R1) as W1.
  destruct (fresh Fo _ _ _ _ _ T2) as (_ & N2 & _). pose proof (fn_tape_stored Fo g x' w2 _ _ T2) as V2.
  split.
  - intros Z. destruct (zero_sweep_values Fo t x' W1) as (t3 & E3 & A1 & A2 & A3 & V3); [destruct (zero_order_same Fo _ _ _ Z) as (_ & _ & _ & L); exact L|].
    assert (t3 = t2) by congruence. subst t3. repeat split; auto. intros o Ho Co. symmetry. apply (va_keep _ _ _ _ V3).
    + pose proof (wf_ops _ W1 o Ho) as Wo. unfold wf_op in Wo. rewrite Co in Wo. tauto.
    + intros I. apply (wf_indep_def _ W1 _ I). apply in_def_ids. exists o. repeat split; auto. congruence.
    + intros o' Ho' E. left. destruct (sorted_inj _ o o' (wf_sorted _ W1) Ho Ho'); try congruence. apply (rt_no_nop _ R1); auto.
  - intros (I & D & O & C). assert (length (t_vals t) = length (t_vals t2)) as LV by (apply Nat.le_antisymm; apply count_le; auto).
    destruct (zero_sweep_values Fo t x' W1) as (t3 & E3 & A1 & A2 & A3 & V3); [unfold num_indeps in *; congruence|].
    rewrite E3. f_equal. assert (t_vals t3 = t_vals t2) as EV.
    { eapply (values_at_unique Fo t x'); eauto. destruct V2 as [L S O2 K]. constructor.
      - congruence.
      - now rewrite I.
      - intros o Ho. apply O2. congruence.
      - intros k Hk NI HK. destruct (rt_cover _ R1 k Hk) as [|DI]; [contradiction|]. apply in_def_ids in DI as (o & Ho & NN & <-).
        destruct (HK o Ho eq_refl) as [E|E]; [|contradiction]. symmetry. apply C; auto. }
    destruct t3, t2; cbn in *. congruence.
Qed.

Lemma path_alike f x x' w t w' : fn_tape Fo f x w = Ok (t, w') -> length x' = length x ->
  straight_f f \/ same_path Fo f x x' -> recorded_alike Fo f x x'.
Proof.
  intros T L H.
  assert (exists t2 w2, fn_tape Fo f x' w = Ok (t2, w2) /\ tape_zero_order Fo t x' = Ok t2) as (t2 & w2 & T2 & Z).
  { destruct H as [S|P]; [eapply replay_is_record; eauto|].
    rewrite fn_tape_resolve in T. destruct (replay_is_record Fo _ _ _ _ _ x' w T L (or_introl (resolve_f_straight Fo f x))) as (t2 & w2 & A & B).
    rewrite P in A. rewrite <- fn_tape_resolve in A. eauto. }
  exists w, t, w', w, t2, w2. repeat split; auto; apply (replay_iff f x w t w' f x' w t2 w2); auto.
Qed.

Lemma alike_eval f x x' w : recorded_alike Fo f x x' -> eval_float Fo (resolve_f Fo f x) x' w = eval_float Fo f x' w.
Proof.
  intros (w1 & t1 & w1' & w2 & t2 & w2' & T1 & T2 & S). pose proof (proj2 (replay_iff _ _ _ _ _ _ _ _ _ _ T1 T2) S) as Z.
  destruct (fresh Fo _ _ _ _ _ T2) as (_ & _ & _ & y & E & Y & _).
  destruct (zero_order_same Fo _ _ _ Z) as (_ & _ & _ & L). destruct (fresh Fo _ _ _ _ _ T1) as (_ & N & _).
  rewrite fn_tape_resolve in T1.
  destruct (replay_float Fo _ _ _ _ _ x' T1) as (t' & y' & A & B & C); [congruence|left; apply resolve_f_straight|].
  rewrite C. rewrite eval_float_v in E |- *. destruct (v_eval Fo f x'); [|discriminate]. cbn in *. congruence.
Qed.

Theorem alike_replay f x w t w' x' :
  fn_tape Fo f x w = Ok (t, w') -> recorded_alike Fo f x x' ->
  exists t' y', tape_zero_order Fo t x' = Ok t' /\ tape_y t' = Ok y' /\ forall w2, eval_float Fo f x' w2 = Ok (y', w2).
Proof.
  intros T A. assert (length x' = length x) as L.
  { destruct A as (w1 & t1 & w1' & w2 & t2 & w2' & T1 & T2 & S & _). destruct (fresh Fo _ _ _ _ _ T1) as (_ & N1 & _). destruct (fresh Fo _ _ _ _ _ T2) as (_ & N2 & _).
    unfold num_indeps in *. congruence. }
  rewrite fn_tape_resolve in T.
  destruct (replay_float Fo _ _ _ _ _ x' T L) as (t' & y' & Z & Y & E); [left; apply resolve_f_straight|].
  exists t', y'. repeat split; auto. intros w2. rewrite <- (alike_eval f x); auto.
Qed.
End Alike.

Lemma branches_alike f x w t w' : fn_tape Rops f x w = Ok (t, w') -> same_branches_near f x -> alike_near f x.
Proof.
  intros T [S|(d & Hd & A)].
  - exists 1. split; [lra|]. intros h L N. eapply path_alike; eauto. now apply SourceDeriv.vadd_len.
  - exists d. split; auto. intros h L N. pose proof (SourceDeriv.vadd_len x h L). eapply path_alike; eauto. right. apply agree_f_path; auto.
Qed.

Lemma regular_resolve f x : regular f x -> regular (resolve_f Rops f x) x.
Proof.
  intros RG ys Q E. apply (RG ys).
  assert (map fst (map (fun a : R => (a, false)) x) = x) as MX by (rewrite map_map; apply map_id).
  rewrite (feval_resolve Rops r_fop (fun c => (c, true)) fst); [rewrite MX; exact E| |reflexivity].
  intros oc a b s v s' _. unfold r_fop. destruct (zero_order_value Rops oc (fst a) (option_map fst b)) as [z|]; [|discriminate].
  intros [= <- <-]. reflexivity.
Qed.

Theorem alike_piecewise f x w t w' :
  fn_tape Rops f x w = Ok (t, w') -> regular f x -> alike_near f x ->
  exists y, tape_y t = Ok y /\
  forall e, 0 < e -> exists d, 0 < d /\ forall h, length h = length x -> nrm1 h < d ->
    exists y' dy, (forall w2, eval_float Rops f (vadd x h) w2 = Ok (y', w2)) /\
      tape_forward Rops t h = Ok dy /\ length y' = length y /\ length dy = length y /\
      forall k, (k < length y)%nat -> Rabs (nth k y' 0 - nth k y 0 - nth k dy 0) <= e * nrm1 h.
Proof.
  intros T RG (r & Hr & P). rewrite fn_tape_resolve in T.
  destruct (piecewise_linearisation _ x w t w' T (regular_resolve f x RG) (or_introl (resolve_f_straight Rops f x))) as (y & Ty & H).
  exists y. split; auto. intros e He. destruct (H e He) as (d & Hd & K). exists (Rmin d r). split; [apply Rmin_glb_lt; auto|].
  intros h L N. destruct (K h L) as (y' & dy & E & Fw & L1 & L2 & B); [eapply Rlt_le_trans; [exact N|apply Rmin_l]|].
  exists y', dy. repeat split; auto. intros w2. rewrite <- (alike_eval Rops f x); auto. apply P; auto.
  eapply Rlt_le_trans; [exact N|apply Rmin_r].
Qed.

Theorem alike_derivative f x w t w' :
  fn_tape Rops f x w = Ok (t, w') -> regular f x -> alike_near f x -> no_abs t ->
  forall dx, length dx = length x ->
  exists dy, tape_forward Rops t dx = Ok dy /\ length dy = length (outputs f x) /\
    forall k, (k < length dy)%nat -> derivable_pt_lim (fun s => nth k (outputs f (vadd x (vscal s dx))) 0) 0 (nth k dy 0).
Proof.
  intros T RG (r & Hr & P) NA dx L. rewrite fn_tape_resolve in T. set (g := resolve_f Rops f x) in *.
  destruct (forward_derivative g x w t w' T (regular_resolve f x RG) (or_introl (resolve_f_straight Rops f x)) NA dx L) as (dy & Fw & Ly & _ & DV).
  assert (forall h, length h = length x -> nrm1 h < r -> outputs g (vadd x h) = outputs f (vadd x h)) as OUT.
  { intros h Lh Nh. unfold outputs, g. rewrite alike_eval; auto. }
  assert (outputs g x = outputs f x) as OX.
  { unfold outputs, g. now rewrite !eval_float_v, <- v_eval_resolve. }
  rewrite OX in Ly. exists dy. split; auto. split; auto. intros k Hk.
  assert (0 <= nrm1 dx) as NN by (clear; induction dx; cbn; [lra|]; pose proof (Rabs_pos a); lra).
  set (e := r / (nrm1 dx + 1)). assert (0 < e) as He by (apply Rdiv_lt_0_compat; lra).
  apply (derivable_pt_lim_locally_ext (fun s => nth k (outputs g (vadd x (vscal s dx))) 0) _ 0 (- e) e); [lra| |apply DV; lia].
  intros s Hs. rewrite OUT; auto; [now rewrite vscal_length|]. rewrite nrm1_scal.
  assert (Rabs s < e) by (apply Rabs_def1; lra).
  apply Rle_lt_trans with (Rabs s * (nrm1 dx + 1)); [apply Rmult_le_compat_l; [apply Rabs_pos|lra]|].
  replace r with (e * (nrm1 dx + 1)) by (unfold e; field; lra). apply Rmult_lt_compat_r; lra.
Qed.

Theorem alike_jacobians red1 red2 f x w t w' n m :
  rayon red1 -> rayon red2 -> fn_n f = Ok n -> fn_m f = Ok m -> length x = n ->
  fn_tape Rops f x w = Ok (t, w') -> num_deps t = m ->
  regular f x -> alike_near f x -> no_abs t ->
  exists J, jacobian_forward Rops red1 f x w = Ok J /\
    (NoDup (t_deps t) -> jacobian_reverse Rops red2 t = Ok J) /\
    m_rows J = m /\ m_cols J = n /\
    forall i j, (i < m)%nat -> (j < n)%nat ->
      derivable_pt_lim (fun s => nth i (outputs f (update x j (nth j x 0 + s))) 0) 0 (ent Rops J i j).
Proof.
  intros H1 H2 N M L T ND RG P NA.
  destruct (jacobian_forward_sweeps Rops red1 f x w t w' n m H1 N M L T ND) as (J & EJ & WJ & Rj & Cj & HJ).
  { intros j _. apply R_const_tangents. }
  exists J. split; auto. split; [|split; [auto|split; [auto|]]].
  - intros NDp. destruct (jacobian_reverse_forward red2 red1 f x w t w' n m H2 H1 N M L T ND NA NDp) as (J' & A & B). congruence.
  - intros i j Hi Hj. destruct (HJ j Hj) as (dy & Ed & Ld & He). rewrite He by auto.
    destruct (alike_derivative f x w t w' T RG P NA (unitv Rops n j)) as (dy' & Ed' & _ & HD); [rewrite unitv_length; auto|].
    assert (dy' = dy) by congruence. subst dy'. specialize (HD i ltac:(lia)). cbn [f_zero Rops].
    intros e He'. destruct (HD e He') as [dl Hd']. exists dl. intros h Hh1 Hh2.
    specialize (Hd' h Hh1 Hh2). subst n. rewrite !vadd_unit in Hd' by auto. exact Hd'.
Qed.

Lemma affine_resolve f x : piecewise_affine f x -> piecewise_affine (resolve_f Rops f x) x.
Proof.
  intros RG ys Q E. apply (RG ys).
  assert (map fst (map (fun a : R => (a, false)) x) = x) as MX by (rewrite map_map; apply map_id).
  rewrite (feval_resolve Rops p_fop (fun c => (c, true)) fst); [rewrite MX; exact E| |reflexivity].
  intros oc a b s v s' _. unfold p_fop. destruct (zero_order_value Rops oc (fst a) (option_map fst b)) as [z|]; [|discriminate].
  intros [= <- <-]. reflexivity.
Qed.

Theorem alike_affine_exact f x w t w' :
  fn_tape Rops f x w = Ok (t, w') -> piecewise_affine f x ->
  exists y, tape_y t = Ok y /\
  forall h, length h = length x -> recorded_alike Rops f x (vadd x h) ->
    exists dy, tape_forward Rops t h = Ok dy /\ length dy = length y /\
      forall w2, eval_float Rops f (vadd x h) w2 = Ok (vadd y dy, w2).
Proof.
  intros T A. rewrite fn_tape_resolve in T.
  destruct (piecewise_affine_exact _ x w t w' T (affine_resolve f x A)) as (y & Y & H). exists y. split; auto. intros h L K.
  destruct (H h L (or_introl (resolve_f_straight Rops f x))) as (dy & Fw & Ld & E). exists dy. repeat split; auto.
  intros w2. rewrite <- (alike_eval Rops f x); auto.
Qed.

Lemma abs_normal_resolve red f x w : abs_normal Rops red (resolve_f Rops f x) x w = abs_normal Rops red f x w.
Proof. unfold abs_normal. now rewrite <- fn_tape_resolve. Qed.

Theorem alike_abs_normal red f x w t w' :
  rayon red -> fn_tape Rops f x w = Ok (t, w') -> NoDup (t_deps t) -> abs_once t ->
  regular f x -> alike_near f x ->
  exists N y, abs_normal Rops red f x w = Ok N /\ tape_y t = Ok y /\
  forall e, 0 < e -> exists d, 0 < d /\ forall h, length h = length x -> nrm1 h < d ->
    exists y' zh, (forall w2, eval_float Rops f (vadd x h) w2 = Ok (y', w2)) /\
      switching N h zh /\ (forall zh', switching N h zh' -> zh' = zh) /\
      forall k, (k < length y)%nat -> Rabs (nth k y' 0 - nth k y 0 - nth k (increment N h zh) 0) <= e * nrm1 h.
Proof.
  intros H T ND AO RG (r & Hr & P). rewrite fn_tape_resolve in T.
  destruct (abs_normal_linearisation red _ x w t w' H T ND AO (regular_resolve f x RG) (or_introl (resolve_f_straight Rops f x))) as (N & y & EN & Y & K).
  rewrite abs_normal_resolve in EN. exists N, y. split; auto. split; auto. intros e He. destruct (K e He) as (d & Hd & B).
  exists (Rmin d r). split; [apply Rmin_glb_lt; auto|]. intros h L Nh.
  destruct (B h L) as (y' & zh & E & Q); [eapply Rlt_le_trans; [exact Nh|apply Rmin_l]|]. exists y', zh. split; auto.
  intros w2. rewrite <- (alike_eval Rops f x); auto. apply P; auto. eapply Rlt_le_trans; [exact Nh|apply Rmin_r].
Qed.

Theorem alike_tapeless f x w t w' :
  fn_tape Rops f x w = Ok (t, w') -> regular f x -> alike_near f x -> no_abs t ->
  forall dx, length dx = length x ->
  exists outs, (forall w2, eval Rops f (pairs x dx) w2 = Ok (outs, w2)) /\ map af_v outs = outputs f x /\
    forall k, (k < length outs)%nat -> derivable_pt_lim (fun s => nth k (outputs f (vadd x (vscal s dx))) 0) 0 (nth k (map af_dv outs) 0).
Proof.
  intros T RG A NA dx L. destruct (alike_derivative f x w t w' T RG A NA dx L) as (dy & Fw & Ld & D).
  destruct (tapeless_is_taped R Rops f x w t w' dx T L (R_const_tangents f x dx)) as (outs & E & V & _ & F2).
  assert (dy = map af_dv outs) by congruence. subst dy. exists outs. split; auto. split.
  - unfold outputs. now rewrite V.
  - intros k Hk. apply D. now rewrite map_length.
Qed.
