(** Values and derivatives of the derived [Float] methods. *)
From Coq Require Import Reals Lra List Arith ZArith Bool Lia.
From Verif Require Import Base Float Operation Tape AContext Methods Function Spec Param
  AContextFacts Instances ApiFacts3 RealInst Replay2 Approx DerivSpec DerivFacts LinearFacts
  DerivFacts2 MethodSpec.
Import ListNotations.

(** ** Methods on variables (attached or not) compute with their values and derivatives *)
Section Dual.
Context {Sc F : Type} (So : Fops Sc) (tof : Sc -> option F).

Definition vd2 (x : AF Sc) : Sc * Sc := (af_v x, af_dv x).
Local Notation RSt := (fun (_ : unit) (_ : world F) (_ : unit) => True).
Local Notation RVt := (fun (_ : unit) x p => vd2 x = p).

Lemma sim_vd_fop u oc x1 y1 x2 y2 :
  arity_ok oc y1 -> vd2 x1 = x2 -> orel (fun x p => vd2 x = p) y1 y2 ->
  simM false (fun _ _ => True) RSt RVt u (from_op So tof oc x1 y1) (d_fop So oc x2 y2).
Proof.
  intros Ha <- Hy w [] _.
  assert (option_map vd2 y1 = y2) as <-.
  { destruct y1, y2; cbn in *; try contradiction; auto. congruence. }
  destruct (from_op So tof oc x1 y1 w) as [[r w']|p] eqn:E; [|discriminate].
  pose proof (from_op_spec _ _ _ _ _ _ _ _ E) as (Hz & Hf & _).
  exists (vd2 r), tt, tt. split; [|auto].
  unfold d_fop, mbind, mlift, vd2. cbn [fst snd].
  assert (option_map fst (option_map (fun x => (af_v x, af_dv x)) y1) = option_map af_v y1) as ->
    by (destruct y1; auto).
  assert (option_map snd (option_map (fun x => (af_v x, af_dv x)) y1) = option_map af_dv y1) as ->
    by (destruct y1; auto).
  rewrite Hz, Hf. reflexivity.
Qed.

Lemma sim_out {A B} (RA : unit -> A -> B -> Prop) (m1 : M (world F) A) (m2 : M unit B) w a w' :
  simM false (fun _ _ => True) RSt RA tt m1 m2 -> m1 w = Ok (a, w') ->
  exists b, m2 tt = Ok (b, tt) /\ RA tt a b.
Proof.
  intros H E. specialize (H w tt I). rewrite E in H.
  destruct H as (b & [] & [] & ? & _ & _ & ?). eauto.
Qed.

Lemma meth1_vd u x w r w' :
  meth1 So (from_op So tof) (af_const So) u x w = Ok (r, w') ->
  meth1 So (d_fop So) (d_cst So) u (vd2 x) tt = Ok (vd2 r, tt).
Proof.
  intros E. refine (match sim_out (fun _ x p => vd2 x = p) _ _ w r w' _ E with
                    | ex_intro _ b (conj H1 H2) => _ end); [|rewrite H1, H2; auto].
  apply sim_meth1; auto. intros [] oc x1 y1 x2 y2. apply sim_vd_fop.
Qed.

Lemma meth2_vd b x y w r w' :
  meth2 So (from_op So tof) (af_const So) b x y w = Ok (r, w') ->
  meth2 So (d_fop So) (d_cst So) b (vd2 x) (vd2 y) tt = Ok (vd2 r, tt).
Proof.
  intros E. refine (match sim_out (fun _ x p => vd2 x = p) _ _ w r w' _ E with
                    | ex_intro _ b (conj H1 H2) => _ end); [|rewrite H1, H2; auto].
  apply sim_meth2; auto. intros [] oc x1 y1 x2 y2. apply sim_vd_fop.
Qed.

Lemma mul_add_vd x y z w r w' :
  m_mul_add (from_op So tof) x y z w = Ok (r, w') ->
  m_mul_add (d_fop So) (vd2 x) (vd2 y) (vd2 z) tt = Ok (vd2 r, tt).
Proof.
  intros E. refine (match sim_out (fun _ x p => vd2 x = p) _ _ w r w' _ E with
                    | ex_intro _ b (conj H1 H2) => _ end); [|rewrite H1, H2; auto].
  apply sim_mul_add; auto. intros [] oc x1 y1 x2 y2. apply sim_vd_fop.
Qed.

(** Unattached operands: the methods that are supported never panic. *)
Lemma meth_detached1 u x w :
  af_ctx x = None -> u <> UUnsupported ->
  exists r, meth1 So (from_op So tof) (af_const So) u x w = Ok (r, w) /\ af_ctx r = None.
Proof.
  destruct x as [v d c]; cbn; intros -> Hu. destruct u; try congruence; eexists; split; reflexivity.
Qed.

Lemma meth_detached2 b x y w :
  af_ctx x = None -> af_ctx y = None -> b <> BUnsupported ->
  exists r, meth2 So (from_op So tof) (af_const So) b x y w = Ok (r, w) /\ af_ctx r = None.
Proof.
  destruct x as [v d c], y as [v2 d2 c2]; cbn; intros -> -> Hu. destruct b; try congruence; eexists; split; reflexivity.
Qed.
End Dual.

Open Scope R_scope.

Lemma Rpowf_half x : Rpowf x (/ 2) = sqrt x.
Proof.
  unfold Rpowf. destruct (Rlt_dec 0 x) as [H|H].
  - apply Rpower_sqrt; auto.
  - rewrite sqrt_neg_0 by lra.
    destruct (Req_EM_T (IZR (Int_part (/ 2))) (/ 2)) as [E|E]; auto.
    exfalso. assert (IZR (2 * Int_part (/ 2)) = 1) as E2 by (rewrite mult_IZR; lra).
    apply eq_IZR in E2. lia.
Qed.

Lemma Rpowf_2 x : Rpowf x 2 = x * x.
Proof. rewrite (Rpowf_int x 2). apply powerRZ_2. Qed.

Lemma dual1_value u x d r :
  valid1 u x -> meth1 Rops (d_fop Rops) (d_cst Rops) u (x, d) tt = Ok (r, tt) -> fst r = sem1 u x.
Proof.
  intros HV E. destruct u; cbn [valid1] in HV; try contradiction;
    cbn -[powerRZ IZR pow Rpowf] in E; apply Ok_inj in E; injection E as <-;
    cbn -[powerRZ IZR pow Rpowf sqrt sem1]; cbn [sem1]; try reflexivity.
  - lra.
  - apply Rpowf_int.
  - apply Rpowf_half.
  - apply Rpowf_pos; lra.
  - rewrite Rpowf_pos by auto. f_equal. lra.
Qed.

Lemma max_abs x y : / 2 * (x + y + Rabs (x - y)) = Rmax x y.
Proof. unfold Rmax, Rabs. destruct (Rle_dec x y), (Rcase_abs (x - y)); lra. Qed.
Lemma min_abs x y : / 2 * (x + y - Rabs (x - y)) = Rmin x y.
Proof. unfold Rmin, Rabs. destruct (Rle_dec x y), (Rcase_abs (x - y)); lra. Qed.

Lemma dual2_value b x y r :
  valid2 b (fst x) (fst y) ->
  meth2 Rops (d_fop Rops) (d_cst Rops) b x y tt = Ok (r, tt) -> fst r = sem2 b (fst x) (fst y).
Proof.
  intros HV E. destruct b; cbn [valid2] in HV; try contradiction;
    cbn -[powerRZ IZR pow Rpowf] in E; apply Ok_inj in E; injection E as <-;
    cbn -[powerRZ IZR pow Rpowf sqrt sem2]; cbn [sem2]; try reflexivity.
  - apply Rpowf_pos; auto.
  - apply max_abs.
  - apply min_abs.
  - rewrite Rmax_left by lra. apply Rabs_pos_eq. lra.
  - rewrite !Rpowf_2. apply Rpowf_half.
Qed.

(** ** Values, for variables attached to any context or to none *)
Theorem method1_value {F : Type} (tof : R -> option F) u x w r w' :
  meth1 Rops (from_op Rops tof) (af_const Rops) u x w = Ok (r, w') ->
  valid1 u (af_v x) -> af_v r = sem1 u (af_v x).
Proof.
  intros E V. apply meth1_vd in E. apply (dual1_value u _ _ _ V E).
Qed.

Theorem method2_value {F : Type} (tof : R -> option F) b x y w r w' :
  meth2 Rops (from_op Rops tof) (af_const Rops) b x y w = Ok (r, w') ->
  valid2 b (af_v x) (af_v y) -> af_v r = sem2 b (af_v x) (af_v y).
Proof.
  intros E V. apply meth2_vd in E. apply (dual2_value b (vd2 x) (vd2 y) _ V E).
Qed.

(** ** Derivatives *)
Lemma d_ext_near f g a l d :
  0 < d -> (forall h, Rabs h < d -> f (a + h) = g (a + h)) ->
  derivable_pt_lim f a l -> derivable_pt_lim g a l.
Proof.
  intros Hd E H e He. destruct (H e He) as [del Hdel].
  assert (0 < Rmin d del) as HP by (apply Rmin_pos; [auto|apply cond_pos]).
  exists (mkposreal _ HP). cbn. intros h Hh Hs.
  rewrite <- E. 2:{ eapply Rlt_le_trans; [apply Hs|apply Rmin_l]. }
  replace a with (a + 0) at 2 by ring. rewrite <- E by (rewrite Rabs_R0; auto). rewrite Rplus_0_r.
  apply Hdel; auto. eapply Rlt_le_trans; [apply Hs|apply Rmin_r].
Qed.

Lemma pos_near a d : 0 < a -> exists e, 0 < e /\ forall s, Rabs s < e -> 0 < a + s * d.
Proof.
  intros Ha. exists (a / (Rabs d + 1)). pose proof (Rabs_pos d).
  split; [apply Rdiv_lt_0_compat; lra|]. intros s Hs.
  assert (Rabs (s * d) < a).
  { rewrite Rabs_mult. apply Rle_lt_trans with (Rabs s * (Rabs d + 1)).
    - apply Rmult_le_compat_l; [apply Rabs_pos|lra].
    - apply Rmult_lt_reg_r with (/ (Rabs d + 1)); [apply Rinv_0_lt_compat; lra|].
      rewrite Rmult_assoc, Rinv_r by lra. rewrite Rmult_1_r. exact Hs. }
  unfold Rabs in H0. destruct (Rcase_abs (s * d)); lra.
Qed.

Definition fn1 (u : un) : func R := Simple 1 1 (Let1 u 0 (Ret [1%nat])).
Definition fn2 (b : bin) : func R := Simple 2 1 (Let2 b 0 1 (Ret [2%nat])).

Lemma regular1 u a : smooth1 u a -> regular (fn1 u) [a].
Proof.
  intros HS ys P H. unfold fn1 in H.
  destruct u; cbn [smooth1] in HS; try contradiction;
    cbn -[powerRZ IZR pow Rpowf] in H; apply Ok_inj in H; injection H as _ <-;
    repeat split; auto; try (intros ? [= <-]); auto; try lra.
  - destruct HS; right; split; eauto.
  - apply Rgt_not_eq. rewrite <- ln_1. apply ln_increasing; lra.
  - apply Rgt_not_eq. rewrite <- ln_1. apply ln_increasing; lra.
Qed.

Lemma regular2 b a c : smooth2 b a c -> regular (fn2 b) [a; c].
Proof.
  intros HS ys P H. unfold fn2 in H.
  destruct b; cbn [smooth2 valid2] in HS; try contradiction;
    cbn -[powerRZ IZR pow Rpowf] in H; apply Ok_inj in H; injection H as _ <-;
    repeat split; auto; try (intros ? [= <-]); auto; try lra; try tauto.
  - apply ln_neq_0; tauto.
  - right. split; auto. exists 2%Z. split; auto. right; lia.
  - right. split; auto. exists 2%Z. split; auto. right; lia.
  - left. rewrite !Rpowf_2.
    destruct HS as [H|H]; [pose proof (Rsqr_pos_lt _ H)|pose proof (Rsqr_pos_lt _ H)];
      unfold Rsqr in *; nra.
Qed.

Lemma tape1 u a : smooth1 u a -> exists t w', fn_tape Rops (fn1 u) [a] world0 = Ok (t, w') /\ no_abs t.
Proof.
  intros H. destruct u; cbn [smooth1] in H; try contradiction;
    rtape; eexists _, _; split; reflexivity.
Qed.
Lemma tape2 b a c : smooth2 b a c ->
  exists t w', fn_tape Rops (fn2 b) [a; c] world0 = Ok (t, w') /\ no_abs t.
Proof.
  intros H. destruct b; cbn [smooth2] in H; try contradiction;
    rtape; eexists _, _; split; reflexivity.
Qed.

Lemma out1 u a : (u = UCbrt -> 0 < a) -> u <> UUnsupported -> nth 0 (outputs (fn1 u) [a]) 0 = sem1 u a.
Proof.
  intros Hc Hn. unfold outputs.
  destruct u; try congruence; cbn -[powerRZ IZR pow Rpowf sqrt sem1]; cbn [sem1]; try reflexivity.
  - lra.
  - apply Rpowf_int.
  - apply Rpowf_half.
  - apply Rpowf_pos; lra.
  - rewrite Rpowf_pos by auto. f_equal. lra.
Qed.

Lemma out2 b a c : (b = BPowf -> 0 < a) -> smooth2 b 1 2 ->
  nth 0 (outputs (fn2 b) [a; c]) 0 = sem2 b a c.
Proof.
  intros Hc Hn. unfold outputs.
  destruct b; cbn in Hn; try contradiction;
    cbn -[powerRZ IZR pow Rpowf sqrt sem2]; cbn [sem2]; try reflexivity.
  - apply Rpowf_pos; auto.
  - rewrite !Rpowf_2. apply Rpowf_half.
Qed.

Theorem method1_derivative {F : Type} (tof : R -> option F) u x w r w' :
  meth1 Rops (from_op Rops tof) (af_const Rops) u x w = Ok (r, w') ->
  smooth1 u (af_v x) ->
  derivable_pt_lim (fun s => sem1 u (af_v x + s * af_dv x)) 0 (af_dv r).
Proof.
  intros E HS. apply meth1_vd in E. unfold vd2 in E. set (a := af_v x) in *. set (d := af_dv x) in *.
  destruct (tape1 u a HS) as (t & w1 & HT & NA).
  destruct (tapeless_derivative (fn1 u) [a] world0 t w1 HT (regular1 u a HS) (or_introl I) NA [d] eq_refl)
    as (outs & Ev & HD).
  specialize (Ev (world0 (F := R))).
  unfold eval, fn1 in Ev. cbn [feval run] in Ev. unfold mbind in Ev.
  cbn [pairs combine map mlift get nth_error bind] in Ev. unfold mlift, bind, get in Ev. cbn [nth_error] in Ev.
  match type of Ev with context[meth1 _ _ _ u ?z ?ww] =>
    destruct (meth1 Rops (from_op Rops Some) (af_const Rops) u z ww) as [[r1 w2]|] eqn:E1; [|discriminate] end.
  apply meth1_vd in E1. unfold vd2 in E1. cbn in E1. rewrite E in E1. injection E1 as E1 E2.
  cbn in Ev. apply Ok_inj in Ev. injection Ev as Ev _. rewrite <- Ev in HD.
  specialize (HD 0%nat ltac:(cbn; lia)). cbn [map nth] in HD. rewrite <- E2 in HD.
  assert (u <> UUnsupported) as Hu by (intros ->; contradiction).
  assert (exists e, 0 < e /\ forall s, Rabs s < e -> u = UCbrt -> 0 < a + s * d) as (e & He & Hs).
  { clear -HS; destruct u; try (exists 1; split; [lra|discriminate]).
    destruct (pos_near a d HS) as (e0 & ? & ?). eauto. }
  eapply (d_ext_near _ _ _ _ e He); [|exact HD]. intros s Hs1. cbv beta. rewrite Rplus_0_l.
  cbn [vadd vscal combine map fst snd]. apply out1; auto.
Qed.

Theorem method2_derivative {F : Type} (tof : R -> option F) b x y w r w' :
  meth2 Rops (from_op Rops tof) (af_const Rops) b x y w = Ok (r, w') ->
  smooth2 b (af_v x) (af_v y) ->
  derivable_pt_lim (fun s => sem2 b (af_v x + s * af_dv x) (af_v y + s * af_dv y)) 0 (af_dv r).
Proof.
  intros E HS. apply meth2_vd in E. unfold vd2 in E.
  set (a := af_v x) in *. set (d := af_dv x) in *.
  set (a' := af_v y) in *. set (d' := af_dv y) in *.
  destruct (tape2 b a a' HS) as (t & w1 & HT & NA).
  destruct (tapeless_derivative (fn2 b) [a; a'] world0 t w1 HT (regular2 b a a' HS) (or_introl I) NA
              [d; d'] eq_refl) as (outs & Ev & HD).
  specialize (Ev (world0 (F := R))).
  unfold eval, fn2 in Ev. cbn [feval run] in Ev. unfold mbind in Ev.
  cbn [pairs combine map mlift get nth_error bind] in Ev. unfold mlift, bind, get in Ev. cbn [nth_error] in Ev.
  match type of Ev with context[meth2 _ _ _ b ?z ?z2 ?ww] =>
    destruct (meth2 Rops (from_op Rops Some) (af_const Rops) b z z2 ww) as [[r1 w2]|] eqn:E1; [|discriminate] end.
  apply meth2_vd in E1. unfold vd2 in E1. cbn in E1. rewrite E in E1. injection E1 as E1 E2.
  cbn in Ev. apply Ok_inj in Ev. injection Ev as Ev _. rewrite <- Ev in HD.
  specialize (HD 0%nat ltac:(cbn; lia)). cbn [map nth] in HD. rewrite <- E2 in HD.
  assert (smooth2 b 1 2) as Hu.
  { clear -HS; destruct b; cbn in *; try contradiction; auto; lra. }
  assert (exists e, 0 < e /\ forall s, Rabs s < e -> b = BPowf -> 0 < a + s * d) as (e & He & Hs).
  { clear -HS; destruct b; try (exists 1; split; [lra|discriminate]).
    destruct (pos_near a d HS) as (e0 & ? & ?). eauto. }
  eapply (d_ext_near _ _ _ _ e He); [|exact HD]. intros s Hs1. cbv beta. rewrite Rplus_0_l.
  cbn [vadd vscal combine map fst snd]. apply out2; auto.
Qed.

(** max, min, abs: the derivative is the exact increment *)
Theorem max_min_increment {F : Type} (tof : R -> option F) b x y w r w' :
  meth2 Rops (from_op Rops tof) (af_const Rops) b x y w = Ok (r, w') ->
  b = BMax \/ b = BMin ->
  af_dv r = sem2 b (af_v x + af_dv x) (af_v y + af_dv y) - sem2 b (af_v x) (af_v y).
Proof.
  intros E Hb. apply meth2_vd in E. unfold vd2 in E.
  destruct Hb as [->| ->]; cbn [sem2]; [rewrite <- !max_abs|rewrite <- !min_abs];
    cbn -[powerRZ IZR pow Rpowf] in E; apply Ok_inj in E; injection E as _ <-.
  - replace (af_v x - af_v y + (af_dv x - af_dv y)) with (af_v x + af_dv x - (af_v y + af_dv y)) by ring.
    ring.
  - replace (af_v x - af_v y + (af_dv x - af_dv y)) with (af_v x + af_dv x - (af_v y + af_dv y)) by ring.
    ring.
Qed.

Theorem abs_increment {F : Type} (tof : R -> option F) x w r w' :
  meth1 Rops (from_op Rops tof) (af_const Rops) UAbs x w = Ok (r, w') ->
  af_dv r = Rabs (af_v x + af_dv x) - Rabs (af_v x).
Proof.
  intros E. apply meth1_vd in E. unfold vd2 in E. cbn in E. apply Ok_inj in E. injection E as _ <-. auto.
Qed.

Theorem mul_add_value {F : Type} (tof : R -> option F) x y z w r w' :
  m_mul_add (from_op Rops tof) x y z w = Ok (r, w') ->
  af_v r = af_v x * af_v y + af_v z /\
  af_dv r = af_dv x * af_v y + af_v x * af_dv y + af_dv z.
Proof.
  intros E. apply mul_add_vd in E. unfold vd2 in E. cbn in E. apply Ok_inj in E.
  injection E as <- <-. auto.
Qed.

Theorem abs_sub_value {F : Type} (tof : R -> option F) x y w r w' :
  meth2 Rops (from_op Rops tof) (af_const Rops) BAbsSub x y w = Ok (r, w') ->
  af_v r = Rabs (af_v x - af_v y).
Proof.
  intros E. apply meth2_vd in E. unfold vd2 in E. cbn in E. apply Ok_inj in E. injection E as <- _. auto.
Qed.

Theorem abs_sub_wrong {F : Type} (tof : R -> option F) x y w r w' :
  meth2 Rops (from_op Rops tof) (af_const Rops) BAbsSub x y w = Ok (r, w') ->
  af_v x < af_v y -> af_v r <> Rmax (af_v x - af_v y) 0.
Proof.
  intros E H. rewrite (abs_sub_value _ _ _ _ _ _ E), Rmax_right by lra.
  rewrite Rabs_left by lra. lra.
Qed.

Theorem max_min_exact {F : Type} (tof : R -> option F) b x y w r w' :
  meth2 Rops (from_op Rops tof) (af_const Rops) b x y w = Ok (r, w') ->
  (b = BMax -> af_v r = Rmax (af_v x) (af_v y)) /\ (b = BMin -> af_v r = Rmin (af_v x) (af_v y)).
Proof. intros E; split; intros ->; apply (method2_value tof _ _ _ _ _ _ E); exact I. Qed.

Theorem sin_cos_value {F : Type} (tof : R -> option F) x w s c w' :
  m_sin_cos (from_op Rops tof) x w = Ok ((s, c), w') ->
  af_v s = sin (af_v x) /\ af_v c = cos (af_v x) /\
  af_dv s = af_dv x * cos (af_v x) /\ af_dv c = - (af_dv x * sin (af_v x)).
Proof.
  unfold m_sin_cos, mbind. intros H.
  destruct (m_sin (from_op Rops tof) x w) as [[s1 w1]|] eqn:E1; [|discriminate].
  destruct (m_cos (from_op Rops tof) x w1) as [[c1 w2]|] eqn:E2; [|discriminate].
  cbn in H. injection H as <- <- <-.
  apply (meth1_vd Rops tof USin) in E1. apply (meth1_vd Rops tof UCos) in E2. unfold vd2 in *.
  cbn in E1, E2. apply Ok_inj in E1. apply Ok_inj in E2. injection E1 as <- <-. injection E2 as <- <-.
  repeat split. ring.
Qed.
