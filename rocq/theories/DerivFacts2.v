(** Piecewise affine functions (exactness) and the derivative theorem. *)
From Coq Require Import Reals Lra List Arith ZArith Bool Lia.
From Verif Require Import Base Float Operation Tape AContext Methods Function Spec Param TapeFacts
  Instances FunctionFacts ReplayFacts ApiFacts3 Replay2 RealInst Approx DerivSpec DerivFacts
  LinearFacts RecordFacts.
Import ListNotations.
Open Scope R_scope.

(** ** Exactness on piecewise affine functions *)
Section Exact.
Context {T : Type}.

Definition exactv (x : V3 (T := T)) : Prop := forall h, v3p x h = v3a x + v3d x h.

Lemma still_exact x : still x -> exactv x.
Proof. intros H h. destruct (H h) as [-> ->]. ring. Qed.

Lemma op_exact oc x y r s xc yc :
  arity_ok oc y -> affine_op oc xc yc (option_map v3a y) ->
  (xc = true -> still x) -> (yc = true -> forall z, y = Some z -> still z) ->
  exactv x -> (forall z, y = Some z -> exactv z) ->
  c_fop oc x y tt = Ok (r, s) -> exactv r.
Proof.
  intros Ha HA Sx Sy Ex Ey E.
  assert ((xc = true /\ yc = true -> still r)) as Hst.
  { intros [-> ->]. eapply still_op; eauto. }
  pose proof E as E'. unfold c_fop in E'.
  destruct (zero_order_value Rops oc (v3a x) (option_map v3a y)) as [r0|] eqn:E0; [|discriminate].
  injection E' as Er. subst r.
  destruct oc; cbn in Ha; try (destruct y; discriminate); cbn in HA;
    try (apply still_exact, Hst; exact HA);
    (destruct y as [z|]; [try discriminate; specialize (Ey z eq_refl)|try discriminate]);
    cbn in E0; injection E0 as <-; intros h;
    unfold v3a at 1, v3p at 1, v3d at 1; cbn [fst snd]; unfold zv, fv; cbn -[powerRZ];
    rewrite ?(Ex h), ?(Ey h).
  - ring.
  - ring.
  - destruct HA as [->| ->].
    + destruct (Sx eq_refl h) as [_ ->]. ring.
    + destruct (Sy eq_refl z eq_refl h) as [_ ->]. ring.
  - destruct HA as [-> HA]. destruct (Sy eq_refl z eq_refl h) as [_ ->].
    assert (v3a z <> 0) by (cbn in HA; congruence). rewrite powerRZ_2. field. auto.
  - ring.
Qed.

Theorem family_exact f (x : list R) (env : list (V3 (T := T))) :
  piecewise_affine f x -> map v3a env = x -> Forall exactv env ->
  forall ys, feval Rops c_fop c_cst v3a f env tt = Ok (ys, tt) -> Forall exactv ys.
Proof.
  intros HR Ex HG ys E.
  set (RVk := fun (w : Prop) (p : R * bool) (q : V3) =>
                fst p = v3a q /\ (w -> exactv q /\ (snd p = true -> still q))).
  assert (H : simM true (fun P P' : Prop => P' -> P) (fun w s1 (_ : unit) => s1 = w)
    (RVs RVk) True
    (feval Rops p_fop (fun c => (c, true)) fst f (map (fun a => (a, false)) x))
    (feval Rops c_fop c_cst v3a f env)).
  { apply sim_feval; auto.
    - intros a b p q L [H1 H2]. split; auto.
    - intros w oc x1 y1 x2 y2 Ha [Hx1 Hx2] Hy s1 [] ->.
      assert (option_map fst y1 = option_map v3a y2) as Ey.
      { destruct y1, y2; cbn in *; try contradiction; auto. destruct Hy as [Hy _]. congruence. }
      unfold p_fop. rewrite Hx1, Ey.
      destruct (c_fop oc x2 y2 tt) as [[r []]|p] eqn:Ec.
      + pose proof Ec as Ec'. unfold c_fop in Ec'.
        destruct (zero_order_value Rops oc (v3a x2) (option_map v3a y2)) as [r0|] eqn:E0;
          [|discriminate].
        injection Ec' as Er. exists r, tt. eexists. split; [reflexivity|].
        split; [|split; [reflexivity|]]; [tauto|].
        assert (arity_ok oc y2) as Ha2.
        { destruct y1, y2; cbn in *; try contradiction; auto. }
        split; [cbn; rewrite <- Er; reflexivity|].
        intros [Hw HD]. destruct (Hx2 Hw) as [Gx Sx].
        assert (forall z, y2 = Some z -> exactv z) as Gy.
        { intros z ->. destruct y1; cbn in Hy; [|contradiction]. apply Hy; auto. }
        assert (match y1 with Some y' => snd y' | None => true end = true ->
                forall z, y2 = Some z -> still z) as Sy.
        { intros Hc z ->. destruct y1; cbn in Hy; [|contradiction]. apply Hy; auto. }
        split.
        * eapply op_exact; eauto.
        * cbn. intros Hc. apply andb_prop in Hc as [Hc1 Hc2].
          eapply still_op; eauto.
      + unfold c_fop in Ec.
        destruct (zero_order_value Rops oc (v3a x2) (option_map v3a y2)); [discriminate|].
        intros _. congruence.
    - intros w c. split; auto. intros _. assert (still (T := T) (c_cst c)) by (intros h; cbn; auto).
      split; auto using still_exact.
    - left. intros w p q [H _]; auto.
    - unfold RVs. rewrite <- Ex. clear -HG. induction HG; cbn; constructor; auto.
      split; auto. intros _. split; auto. discriminate. }
  specialize (H True tt eq_refl). unfold piecewise_affine in HR.
  destruct (feval Rops p_fop (fun c => (c, true)) fst f (map (fun a => (a, false)) x) True)
    as [[ps P]|p] eqn:Er.
  - specialize (HR _ _ eq_refl). destruct H as (ys' & [] & w' & E' & _ & Es & HF).
    assert (ys' = ys) by congruence. subst ys' P.
    clear -HF HR. unfold RVs in HF. induction HF as [|p q l1 l2 [H1 H2] HF IH]; constructor; auto.
    apply H2; auto.
  - rewrite (H eq_refl) in E. discriminate.
Qed.
End Exact.

Lemma fam_exact k x : Forall exactv (fam k x).
Proof.
  revert k; induction x as [|a x IH]; intros k; cbn; constructor; auto. intros h. reflexivity.
Qed.

(** The base family succeeds when recording does. *)
Lemma family_of_tape f x w t w' :
  fn_tape Rops f x w = Ok (t, w') ->
  exists zs y, feval Rops c_fop c_cst v3a f (fam 0 x) tt = Ok (zs, tt) /\ map v3a zs = y /\
    tape_y t = Ok y /\
    forall h, length h = length x -> tape_forward Rops t h = Ok (map (fun z => v3d z h) zs).
Proof.
  intros HT. destruct (fn_tape_fresh Rops f x w t w' HT) as (_ & (y & Ey & Ty & _) & _ & _).
  assert (exists zs, feval Rops c_fop c_cst v3a f (fam 0 x) tt = Ok (zs, tt) /\ map v3a zs = y)
    as (zs & Ez & Ezy).
  { pose proof (c_d f (fam 0 x) (map (fun _ => 0) x)) as D.
    destruct (feval Rops c_fop c_cst v3a f (fam 0 x) tt) as [[zs []]|p] eqn:E.
    - exists zs. split; auto.
      pose proof (feval_values Rops c_fop c_cst v3a c_fop_val (fun c => eq_refl) f (fam 0 x)
                    tt zs tt E) as V.
      rewrite fam_a in V. congruence.
    - rewrite fam_d in D by (rewrite map_length; lia). cbn [skipn] in D.
      pose proof (d_eval_values Rops f (combine x (map (fun _ => 0) x))) as DV.
      rewrite D in DV. cbn [bind] in DV.
      rewrite map_fst_combine in DV by (rewrite map_length; auto). congruence. }
  exists zs, y. split; [auto|]. split; [auto|]. split; [auto|]. intros h L.
  destruct (forward_tapeless Rops f x w t w' h HT L (R_const_tangents f x h)) as (yd & D & Ef).
  pose proof (c_d f (fam 0 x) h) as C. rewrite Ez in C. rewrite fam_d in C by lia.
  cbn [skipn] in C. rewrite D in C. injection C as ->. rewrite Ef. f_equal.
  rewrite map_map. reflexivity.
Qed.

(** Plain evaluation along the family. *)
Lemma family_eval f x zs h :
  feval Rops c_fop c_cst v3a f (fam 0 x) tt = Ok (zs, tt) -> length h = length x ->
  straight_f f \/ agree_f Rops f x (vadd x h) ->
  v_eval Rops f (vadd x h) = Ok (map (fun z => v3p z h) zs).
Proof.
  intros Ez L [HS|HB].
  - pose proof (c_v f (fam 0 x) h HS) as C. rewrite Ez in C. rewrite fam_p in C by lia. exact C.
  - rewrite v_eval_resolve. rewrite <- (agree_f_path Rops f x (vadd x h)); auto.
    2: { rewrite vadd_length; auto. }
    pose proof (c_v (resolve_f Rops f x) (fam 0 x) h (resolve_f_straight Rops f x)) as C.
    rewrite (feval_resolve Rops c_fop c_cst v3a c_fop_val (fun c => eq_refl)) in Ez.
    rewrite fam_a in Ez. rewrite Ez in C. rewrite fam_p in C by lia. exact C.
Qed.

Theorem piecewise_affine_exact f x w t w' :
  fn_tape Rops f x w = Ok (t, w') -> piecewise_affine f x ->
  exists y, tape_y t = Ok y /\
  forall h, length h = length x -> straight_f f \/ agree_f Rops f x (vadd x h) ->
    exists dy, tape_forward Rops t h = Ok dy /\ length dy = length y /\
      forall w2, eval_float Rops f (vadd x h) w2 = Ok (vadd y dy, w2).
Proof.
  intros HT HP. destruct (family_of_tape f x w t w' HT) as (zs & y & Ez & Ey & Ty & Tf).
  exists y. split; [auto|]. intros h L HB. exists (map (fun z => v3d z h) zs).
  split; [auto|]. split; [rewrite <- Ey, !map_length; auto|]. intros w2.
  rewrite eval_float_v, (family_eval f x zs h Ez L HB). cbn [bind]. repeat f_equal.
  pose proof (family_exact f x (fam 0 x) HP (fam_a 0 x) (fam_exact 0 x) zs Ez) as G.
  subst y. clear -G. unfold vadd. induction G as [|z zs Hz G IH]; cbn; auto.
  f_equal; auto.
Qed.

(** ** Without Abs the forward sweep computes the derivative *)

(** The outputs of [f] at [x] evaluated on plain numbers ([[]] if [f] panics). *)
Definition outputs (f : func R) (x : list R) : list R :=
  match eval_float Rops f x world0 with Ok (y, _) => y | Panic _ => [] end.

Lemma vscal_length s h : length (vscal s h) = length h.
Proof. apply map_length. Qed.

Lemma nrm1_scal s h : nrm1 (vscal s h) = Rabs s * nrm1 h.
Proof.
  unfold vscal. induction h; cbn; [ring|]. rewrite IHh, Rabs_mult. ring.
Qed.

Lemma vscal_0 h : forall x, length x = length h -> vadd x (vscal 0 h) = x.
Proof.
  induction h as [|a h IH]; intros [|b x] L; cbn in *; try discriminate; auto.
  unfold vadd in *. cbn. rewrite IH by lia. f_equal. ring.
Qed.

Lemma lincomb_scal s h : lincomb s 0 h h = vscal s h.
Proof. unfold lincomb, vscal. induction h; cbn; auto. rewrite IHh. f_equal. ring. Qed.

Theorem forward_derivative f x w t w' :
  fn_tape Rops f x w = Ok (t, w') -> regular f x -> same_branches_near f x -> no_abs t ->
  forall dx, length dx = length x ->
  exists dy, tape_forward Rops t dx = Ok dy /\ length dy = length (outputs f x) /\
    (exists d, 0 < d /\ forall s, Rabs s < d ->
       forall w2, eval_float Rops f (vadd x (vscal s dx)) w2
                  = Ok (outputs f (vadd x (vscal s dx)), w2)) /\
    forall k, (k < length dy)%nat ->
      derivable_pt_lim (fun s => nth k (outputs f (vadd x (vscal s dx))) 0) 0 (nth k dy 0).
Proof.
  intros HT HR HB NA dx L.
  destruct (piecewise_linearisation f x w t w' HT HR HB) as (y & Ty & HL).
  destruct (fn_tape_wf Rops f x w t w' HT) as ([W _] & _).
  destruct (fn_tape_fresh Rops f x w t w' HT) as (_ & (y' & Ey & Ty' & _) & Hni & _).
  assert (num_indeps t = length x) as Ln.
  { apply Hni. }
  assert (outputs f x = y) as Eo.
  { unfold outputs. rewrite eval_float_v, Ey. cbn. congruence. }
  destruct (forward_linear t 0 0 dx dx W NA) as (dy & _ & Fd & _ & _); try congruence.
  assert (forall s, tape_forward Rops t (vscal s dx) = Ok (vscal s dy)) as FS.
  { intros s. destruct (forward_linear t s 0 dx dx W NA) as (d1 & d2 & F1 & F2 & F3);
      try congruence.
    rewrite !lincomb_scal in F3. assert (d1 = dy) by congruence. assert (d2 = dy) by congruence.
    subst. rewrite lincomb_scal in F3. auto. }
  assert (length dy = length y) as Ld.
  { destruct (HL 1 Rlt_0_1) as (d & Hd & H). destruct (H (vscal 0 dx)) as (y1 & dy1 & _ & F & _ & L1 & _).
    - rewrite vscal_length; auto.
    - rewrite nrm1_scal, Rabs_R0. lra.
    - rewrite FS in F. injection F as <-. rewrite vscal_length in L1. auto. }
  exists dy. split; [auto|]. split; [congruence|].
  assert (forall B, 0 < B -> exists d, 0 < d /\ forall s, Rabs s < d -> nrm1 (vscal s dx) < B) as HN.
  { intros B HB'. exists (B / (nrm1 dx + 1)). pose proof (nrm1_pos dx).
    split; [apply Rdiv_lt_0_compat; lra|]. intros s Hs. rewrite nrm1_scal.
    apply Rle_lt_trans with (Rabs s * (nrm1 dx + 1)).
    - apply Rmult_le_compat_l; [apply Rabs_pos|lra].
    - apply Rmult_lt_reg_r with (/ (nrm1 dx + 1)); [apply Rinv_0_lt_compat; lra|].
      rewrite Rmult_assoc, Rinv_r by lra. rewrite Rmult_1_r. exact Hs. }
  split.
  { destruct (HL 1 Rlt_0_1) as (B & HB' & H). destruct (HN B HB') as (d & Hd & Hs).
    exists d. split; auto. intros s Hsd w2.
    destruct (H (vscal s dx)) as (y1 & dy1 & Ev & _); [rewrite vscal_length; auto|auto|].
    unfold outputs. rewrite !Ev. auto. }
  intros k Hk e He. set (N := nrm1 dx). pose proof (nrm1_pos dx) as HNp. fold N in HNp.
  destruct (HL (e / (2 * (N + 1)))) as (B & HB' & H); [apply Rdiv_lt_0_compat; lra|].
  destruct (HN B HB') as (d & Hd & Hs). exists (mkposreal d Hd). intros s Hs0 Hsd. cbn in Hsd.
  rewrite Rplus_0_l. rewrite vscal_0 by auto. rewrite Eo.
  destruct (H (vscal s dx)) as (y1 & dy1 & Ev & F & L1 & L2 & Hk2); [rewrite vscal_length; auto|auto|].
  rewrite FS in F. injection F as <-. specialize (Hk2 k ltac:(lia)).
  assert (outputs f (vadd x (vscal s dx)) = y1) as -> by (unfold outputs; rewrite Ev; auto).
  assert (nth k (vscal s dy) 0 = s * nth k dy 0) as En.
  { unfold vscal. rewrite <- (Rmult_0_r s) at 1. apply (map_nth (Rmult s)). }
  rewrite En, nrm1_scal in Hk2. fold N in Hk2.
  replace ((nth k y1 0 - nth k y 0) / s - nth k dy 0)
    with ((nth k y1 0 - nth k y 0 - s * nth k dy 0) / s) by (field; auto).
  unfold Rdiv at 1. rewrite Rabs_mult, Rabs_inv by auto.
  assert (0 < Rabs s) as Hsp by (apply Rabs_pos_lt; auto).
  apply Rmult_lt_reg_r with (Rabs s); auto. rewrite Rmult_assoc, Rinv_l, Rmult_1_r by lra.
  eapply Rle_lt_trans; [apply Hk2|].
  replace (e / (2 * (N + 1)) * (Rabs s * N)) with (Rabs s * e * (N / (2 * (N + 1)))) by (field; lra).
  rewrite (Rmult_comm e). rewrite <- (Rmult_1_r (Rabs s * e)) at 2.
  apply Rmult_lt_compat_l; [apply Rmult_lt_0_compat; auto|].
  apply Rmult_lt_reg_r with (2 * (N + 1)); [lra|]. unfold Rdiv. rewrite Rmult_assoc, Rinv_l by lra. lra.
Qed.

Corollary tapeless_derivative f x w t w' :
  fn_tape Rops f x w = Ok (t, w') -> regular f x -> same_branches_near f x -> no_abs t ->
  forall dx, length dx = length x ->
  exists outs, (forall w2, eval Rops f (pairs x dx) w2 = Ok (outs, w2)) /\
    forall k, (k < length outs)%nat ->
      derivable_pt_lim (fun s => nth k (outputs f (vadd x (vscal s dx))) 0) 0
                       (nth k (map af_dv outs) 0).
Proof.
  intros HT HR HB NA dx L.
  destruct (forward_is_tapeless Rops f x w t w' dx HT L (R_const_tangents f x dx)) as (outs & E & Ef).
  destruct (forward_derivative f x w t w' HT HR HB NA dx L) as (dy & Ed & _ & _ & HD).
  exists outs. split; auto. intros k Hk. assert (dy = map af_dv outs) by congruence. subst dy.
  apply HD. rewrite map_length; auto.
Qed.

(** Evaluates the taping of a concrete function over the reals, leaving real arithmetic alone. *)
Ltac rtape :=
  match goal with
  | |- context[fn_tape ?o ?f ?x ?w] =>
      let v := eval lazy -[IZR Rplus Rminus Rmult Rdiv Ropp Rabs Rinv sin cos tan exp ln asin acos
                           atan sqrt Rpowf powerRZ pow Rpower Reqb Rltb] in (fn_tape o f x w) in
      let H := fresh in
      assert (H : fn_tape o f x w = v) by reflexivity; rewrite H; clear H
  end.
