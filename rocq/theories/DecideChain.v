(** A chain whose functions decide stably is recorded alike near the point. *)
From Coq Require Import Reals Lra List Arith ZArith Bool Lia.
From Verif Require Import Base Float Operation Tape AContext Methods Function Spec Param Instances
  FunctionFacts ReplayFacts ApiFacts3 RealInst Approx DerivSpec DerivFacts DerivFacts2 LinearFacts Matrix Jacobian JacobianFacts Source SourceSpec DecideSpec Tapeless SamePath DecideMain DecideChainSpec.
Import ListNotations.
Open Scope R_scope.

Notation vrun := (run Rops (v_fop Rops) (fun c => c) (fun v => v)).
Notation reval := (feval Rops r_fop (fun c => (c, true)) fst).
Notation ceval := (feval Rops c_fop c_cst v3a).

Definition RVk (w : Prop) (p : R * bool) (q : V3 (T := list R)) : Prop :=
  fst p = v3a q /\ (w -> good nrm1 q /\ (snd p = true -> still q)).

Lemma family_sim f w env1 env2 : Forall2 (RVk w) env1 env2 ->
  simM true (fun P P' : Prop => P' -> P) (fun w s1 (_ : unit) => s1 = w) (RVs RVk) w (reval f env1) (ceval f env2).
Proof.
  intros HE. apply sim_feval; auto.
  - intros a b p q L [H1 H2]. split; auto.
  - clear. intros w oc x1 y1 x2 y2 Ha [Hx1 Hx2] Hy s1 [] ->.
    assert (option_map fst y1 = option_map v3a y2) as Ey.
    { destruct y1, y2; cbn in *; try contradiction; auto. destruct Hy as [Hy _]. congruence. }
    unfold r_fop. rewrite Hx1, Ey.
    destruct (c_fop oc x2 y2 tt) as [[r []]|p] eqn:Ec.
    + pose proof Ec as Ec'. unfold c_fop in Ec'.
      destruct (zero_order_value Rops oc (v3a x2) (option_map v3a y2)) as [r0|] eqn:E0; [|discriminate].
      injection Ec' as Er. exists r, tt. eexists. split; [reflexivity|].
      split; [|split; [reflexivity|]]; [tauto|].
      assert (arity_ok oc y2) as Ha2 by (destruct y1, y2; cbn in *; try contradiction; auto).
      split; [cbn; rewrite <- Er; reflexivity|].
      intros [Hw HD]. destruct (Hx2 Hw) as [Gx Sx].
      assert (forall z, y2 = Some z -> good nrm1 z) as Gy.
      { intros z ->. destruct y1; cbn in Hy; [|contradiction]. apply Hy; auto. }
      assert (match y1 with Some y' => snd y' | None => true end = true -> forall z, y2 = Some z -> still z) as Sy.
      { intros Hc z ->. destruct y1; cbn in Hy; [|contradiction]. apply Hy; auto. }
      split.
      * eapply op_good; eauto using nrm1_pos.
        destruct (match y1 with Some y' => snd y' | None => true end) eqn:Ec1; auto.
      * cbn. intros Hc. apply andb_prop in Hc as [Hc1 Hc2]. eapply still_op; eauto.
    + unfold c_fop in Ec.
      destruct (zero_order_value Rops oc (v3a x2) (option_map v3a y2)); [discriminate|].
      intros _. congruence.
  - intros w' c. split; auto. intros _. assert (still (T := list R) (c_cst c)) by (intros h; cbn; auto).
    split; auto. apply still_good; auto using nrm1_pos.
  - left. intros w' p q [H _]; auto.
Qed.

Lemma family_run f (P0 : Prop) env1 env2 ys1 P1 : Forall2 (RVk P0) env1 env2 -> reval f env1 P0 = Ok (ys1, P1) ->
  exists ys2, ceval f env2 tt = Ok (ys2, tt) /\ (P1 -> P0) /\ Forall2 (RVk P1) ys1 ys2.
Proof.
  intros HE E. pose proof (family_sim f P0 env1 env2 HE P0 tt eq_refl) as H. rewrite E in H.
  destruct H as (ys2 & [] & w' & E2 & L & -> & HR). exists ys2. auto.
Qed.

Lemma RVk_fst P env1 env2 : Forall2 (RVk P) env1 env2 -> map fst env1 = map v3a env2.
Proof. induction 1 as [|a b l l' [E _] H IH]; cbn; f_equal; auto. Qed.
Lemma RVk_good (P : Prop) env1 env2 : P -> Forall2 (RVk P) env1 env2 -> Forall (good nrm1) env2.
Proof. intros HP. induction 1 as [|a b l l' [_ G] H IH]; constructor; auto. apply G; auto. Qed.

Lemma v_val oc (a : R) b s r s' : arity_ok oc b -> v_fop Rops oc a b s = Ok (r, s') -> zero_order_value Rops oc a (option_map (fun v => v) b) = Ok r.
Proof. intros _. unfold v_fop, mlift. destruct b; cbn [option_map]; destruct (zero_order_value Rops oc a _); intros [= <- <-]; reflexivity. Qed.

Notation at_h h env := (map (fun z : V3 (T := list R) => v3p z h) env).

(** One function *)
Lemma stable_path_family p (P0 P1 : Prop) env1 env2 ys1 :
  Forall2 (RVk P0) env1 env2 -> run Rops r_fop (fun c => (c, true)) fst p env1 P0 = Ok (ys1, P1) -> P1 ->
  stable p (map v3a env2) ->
  exists d, 0 < d /\ forall h, nrm1 h < d -> resolve Rops p (at_h h env2) = resolve Rops p (map v3a env2).
Proof.
  intros HE E HP ST.
  rewrite (run_resolve Rops r_fop (fun c => (c, true)) fst r_fop_val (fun c => eq_refl)), (RVk_fst _ _ _ HE) in E.
  destruct (probe_run Rops _ _ _ _ (resolve_straight Rops p _) _ _ _ _ E) as (W1 & EP).
  set (q := probe (resolve Rops p (map v3a env2)) (length env1)) in *.
  destruct (family_run (Simple 0 0 q) P0 env1 env2 W1 P1 HE EP) as (zs & Ez & _ & HR).
  pose proof (feval_values Rops c_fop c_cst v3a c_fop_val (fun c => eq_refl) _ env2 tt zs tt Ez) as V.
  assert (length env1 = length env2) as L by (eapply Forall2_length_eq; eauto).
  assert (vrun (probe (resolve Rops p (map v3a env2)) (length (map v3a env2))) (map v3a env2) tt = Ok (map v3a zs, tt)) as EX.
  { rewrite map_length, <- L. fold q. unfold v_eval in V. cbn [feval] in V. destruct (vrun q (map v3a env2) tt) as [[u []]|]; [|discriminate]. cbn in V. congruence. }
  destruct (stable_path p _ ST _ EX) as (e & He & H).
  destruct (good_near e zs He (RVk_good _ _ _ HP HR)) as (d & Hd & N). exists d. split; auto. intros h Nh.
  apply (H _ (at_h h zs)); [now rewrite !map_length| |apply N; auto].
  pose proof (c_v (Simple 0 0 q) env2 h (probe_straight _ _)) as C. rewrite Ez in C.
  rewrite map_length, <- L. fold q. unfold v_eval in C. cbn [feval] in C. destruct (vrun q (at_h h env2) tt) as [[u []]|]; [|discriminate]. cbn in C. congruence.
Qed.

Lemma values_family f env2 ys2 h : ceval f env2 tt = Ok (ys2, tt) ->
  resolve_f Rops f (at_h h env2) = resolve_f Rops f (map v3a env2) -> v_eval Rops f (at_h h env2) = Ok (at_h h ys2).
Proof.
  intros E S. rewrite v_eval_resolve, S.
  pose proof (c_v (resolve_f Rops f (map v3a env2)) env2 h (resolve_f_straight Rops f _)) as C.
  rewrite (feval_resolve Rops c_fop c_cst v3a c_fop_val (fun c => eq_refl)) in E. rewrite E in C. exact C.
Qed.

Lemma outputs_val f x y : v_eval Rops f x = Ok y -> outputs f x = y.
Proof. intros V. unfold outputs. rewrite eval_float_v, V. reflexivity. Qed.

Lemma stable_family f : forall (P0 P1 : Prop) env1 env2 ys1,
  Forall2 (RVk P0) env1 env2 -> reval f env1 P0 = Ok (ys1, P1) -> P1 -> stable_f f (map v3a env2) ->
  exists d, 0 < d /\ forall h, nrm1 h < d -> resolve_f Rops f (at_h h env2) = resolve_f Rops f (map v3a env2).
Proof.
  induction f as [n m p|n m p|fs IH] using func_ind'; intros P0 P1 env1 env2 ys1 HE E HP ST.
  - destruct (stable_path_family p P0 P1 env1 env2 ys1 HE E HP ST) as (d & Hd & H). exists d. split; auto. intros h Nh. cbn. now rewrite H.
  - cbn [feval] in E. unfold mbind, mlift in E. destruct (assert (length env1 =? n)) as [[]|]; [|discriminate].
    destruct (run Rops r_fop (fun c => (c, true)) fst p env1 P0) as [[ys P2]|] eqn:E1; [|discriminate].
    assert (P2 = P1) as ->. { cbn in E. destruct (assert (length ys =? m)) as [[]|]; [|discriminate]. injection E as _ E. exact E. }
    destruct (stable_path_family p P0 P1 env1 env2 ys HE E1 HP ST) as (d & Hd & H). exists d. split; auto. intros h Nh. cbn. now rewrite H.
  - cbn [feval stable_f resolve_f] in *. revert P0 env1 env2 HE E ST. induction IH as [|g l Hg _ IHl]; intros P0 env1 env2 HE E ST.
    + exists 1. split; [lra|]. reflexivity.
    + unfold mbind in E. destruct (reval g env1 P0) as [[r1 Pm]|] eqn:E1; [|discriminate].
      destruct (family_run g P0 env1 env2 r1 Pm HE E1) as (r2 & E2 & _ & HR).
      destruct (family_run (Chain l) Pm r1 r2 ys1 P1 HR E) as (_ & _ & HM & _).
      destruct ST as [S1 S2].
      pose proof (feval_values Rops c_fop c_cst v3a c_fop_val (fun c => eq_refl) g env2 tt r2 tt E2) as V.
      rewrite (outputs_val _ _ _ V) in S2.
      destruct (Hg P0 Pm env1 env2 r1 HE E1 (HM HP) S1) as (d1 & Hd1 & H1).
      destruct (IHl Pm r1 r2 HR E S2) as (d2 & Hd2 & H2).
      exists (Rmin d1 d2). split; [apply Rmin_glb_lt; auto|]. intros h Nh.
      assert (nrm1 h < d1) as N1 by (eapply Rlt_le_trans; [exact Nh|apply Rmin_l]).
      assert (nrm1 h < d2) as N2 by (eapply Rlt_le_trans; [exact Nh|apply Rmin_r]).
      specialize (H2 h N2). injection H2 as H2.
      rewrite (H1 h N1), V, (values_family g env2 r2 h E2 (H1 h N1)). f_equal. f_equal. exact H2.
Qed.

Theorem stable_f_alike f x w t w' :
  fn_tape Rops f x w = Ok (t, w') -> regular f x -> stable_f f x -> alike_near f x.
Proof.
  intros T RG ST.
  destruct (fn_tape_fresh Rops f x w t w' T) as (_ & (y & Ey & _ & _) & _ & _).
  set (env1 := map (fun a : R => (a, false)) x).
  assert (Forall2 (RVk True) env1 (fam 0 x)) as HE.
  { unfold env1. pose proof (fam_good 0 x) as G. revert G. generalize 0%nat. induction x as [|a x' IHx] in |- *; intros k G; cbn; constructor.
    - split; [reflexivity|]. intros _. inversion G; subst. split; auto. discriminate.
    - apply IHx. inversion G; auto. }
  destruct (reval f env1 True) as [[ys1 P1]|pp] eqn:E.
  - destruct (stable_family f True P1 env1 (fam 0 x) ys1 HE E (RG _ _ E)) as (d & Hd & H); [now rewrite fam_a|].
    exists d. split; auto. intros h L Nh. eapply path_alike; [exact T|apply vadd_length; auto|]. right. unfold same_path.
    specialize (H h Nh). rewrite fam_a, fam_p in H by lia. cbn [skipn] in H. now rewrite H.
  - exfalso. pose proof (family_sim f True env1 (fam 0 x) HE True tt eq_refl) as H. rewrite E in H. specialize (H eq_refl).
    pose proof (c_v (resolve_f Rops f x) (fam 0 x) (map (fun _ => 0) x) (resolve_f_straight Rops f _)) as C.
    rewrite (feval_resolve Rops c_fop c_cst v3a c_fop_val (fun c => eq_refl)), fam_a in H. rewrite H in C.
    rewrite fam_p in C by (rewrite map_length; lia). cbn [skipn] in C. rewrite vadd_zeros, <- v_eval_resolve in C. congruence.
Qed.

Theorem stable_f_derivative f x w t w' :
  fn_tape Rops f x w = Ok (t, w') -> regular f x -> stable_f f x -> no_abs t ->
  forall dx, length dx = length x ->
  exists dy, tape_forward Rops t dx = Ok dy /\ length dy = length (outputs f x) /\
    forall k, (k < length dy)%nat ->
      derivable_pt_lim (fun s => nth k (outputs f (vadd x (vscal s dx))) 0) 0 (nth k dy 0).
Proof. intros T RG ST NA. apply (alike_derivative f x w t w'); auto. eapply stable_f_alike; eauto. Qed.

Theorem stable_f_jacobians red1 red2 n m f x w t w' :
  rayon red1 -> rayon red2 -> fn_n f = Ok n -> fn_m f = Ok m -> length x = n ->
  fn_tape Rops f x w = Ok (t, w') -> num_deps t = m ->
  regular f x -> stable_f f x -> no_abs t ->
  exists J, jacobian_forward Rops red1 f x w = Ok J /\
    (NoDup (t_deps t) -> jacobian_reverse Rops red2 t = Ok J) /\
    m_rows J = m /\ m_cols J = n /\
    forall i j, (i < m)%nat -> (j < n)%nat ->
      derivable_pt_lim (fun s => nth i (outputs f (update x j (nth j x 0 + s))) 0) 0 (ent Rops J i j).
Proof.
  intros H1 H2 Hn Hm L T Dm RG ST NA.
  apply (alike_jacobians red1 red2 f x w t w' n m); auto. eapply stable_f_alike; eauto.
Qed.
