(** Derivatives: evaluation along a family of perturbed inputs. *)
From Coq Require Import Reals Lra List Arith ZArith Bool Lia.
From Verif Require Import Base Float Operation Tape AContext Methods Function Spec Param TapeFacts
  Instances FunctionFacts ReplayFacts ApiFacts3 Replay2 RealInst Approx DerivSpec.
Import ListNotations.
Open Scope R_scope.

Section Family.
Context {T : Type} (nrm : T -> R).
Hypothesis nrm_pos : forall h, 0 <= nrm h.

Notation approx := (approx nrm).

(** A value at the base point, on the perturbed inputs, and the computed increment. *)
Definition V3 : Type := (R * (T -> R) * (T -> R))%type.
Definition v3a (x : V3) : R := fst (fst x).
Definition v3p (x : V3) : T -> R := snd (fst x).
Definition v3d (x : V3) : T -> R := snd x.

Definition zv (oc : OpCode) (a : R) (b : option R) : R :=
  match zero_order_value Rops oc a b with Ok r => r | Panic _ => 0 end.
Definition fv (oc : OpCode) (a : R) (b : option R) (d : R) (e : option R) : R :=
  match first_order_value Rops oc a b d e with Ok r => r | Panic _ => 0 end.

Definition c_fop (oc : OpCode) (x : V3) (y : option V3) : M unit V3 :=
  fun s =>
    match zero_order_value Rops oc (v3a x) (option_map v3a y) with
    | Ok r => Ok ((r, fun h => zv oc (v3p x h) (option_map (fun z => v3p z h) y),
                   fun h => fv oc (v3a x) (option_map v3a y) (v3d x h)
                              (option_map (fun z => v3d z h) y)), s)
    | Panic p => Panic p
    end.
Definition c_cst (c : R) : V3 := (c, fun _ => c, fun _ => 0).

(** Evaluation at each single perturbation is plain evaluation ... *)
Lemma c_v f env h :
  straight_f f ->
  match feval Rops c_fop c_cst v3a f env tt with
  | Ok (ys, _) => v_eval Rops f (map (fun x => v3p x h) env) = Ok (map (fun x => v3p x h) ys)
  | Panic p => v_eval Rops f (map (fun x => v3p x h) env) = Panic p
  end.
Proof.
  intros HS.
  assert (H : simM true (fun _ _ => True) (fun (_ : unit) (_ _ : unit) => True)
    (RVs (fun (_ : unit) (x : V3) v => v3p x h = v)) tt
    (feval Rops c_fop c_cst v3a f env)
    (feval Rops (v_fop Rops) (fun c => c) (fun v => v) f (map (fun x => v3p x h) env))).
  { apply sim_feval; auto.
    - intros [] oc x1 y1 x2 y2 Ha <- Hy [] [] _.
      assert (y2 = option_map (fun z => v3p z h) y1) as ->.
      { destruct y1, y2; cbn in *; try contradiction; congruence. }
      unfold c_fop, v_fop, mlift.
      assert (unary_oc oc = true \/ binary_oc oc = true /\ y1 <> None) as Hs.
      { destruct y1; cbn in Ha; [right; split; auto; discriminate|auto]. }
      destruct (zero_order_value_total Rops oc (v3a x1) (option_map v3a y1)) as [r1 ->].
      { destruct Hs as [|[? ?]]; auto. right; split; auto. destruct y1; cbn; congruence. }
      destruct (zero_order_value_total Rops oc (v3p x1 h) (option_map (fun z => v3p z h) y1))
        as [r2 E2].
      { destruct Hs as [|[? ?]]; auto. right; split; auto. destruct y1; cbn; congruence. }
      exists r2, tt, tt. rewrite E2. unfold v3p at 1; cbn. unfold zv. rewrite E2. auto.
    - unfold RVs. clear. induction env; constructor; auto. }
  specialize (H tt tt I). unfold v_eval.
  destruct (feval Rops c_fop c_cst v3a f env tt) as [[ys []]|p].
  - destruct H as (vs & [] & [] & -> & _ & _ & HR). cbn. f_equal. clear -HR.
    unfold RVs in HR. induction HR; cbn; congruence.
  - rewrite (H eq_refl). reflexivity.
Qed.

(** ... and tapeless forward mode. *)
Lemma c_d f env h :
  match feval Rops c_fop c_cst v3a f env tt with
  | Ok (ys, _) => d_eval Rops f (map (fun x => (v3a x, v3d x h)) env)
                  = Ok (map (fun x => (v3a x, v3d x h)) ys)
  | Panic p => d_eval Rops f (map (fun x => (v3a x, v3d x h)) env) = Panic p
  end.
Proof.
  assert (H : simM true (fun _ _ => True) (fun (_ : unit) (_ _ : unit) => True)
    (RVs (fun (_ : unit) (x : V3) v => (v3a x, v3d x h) = v)) tt
    (feval Rops c_fop c_cst v3a f env)
    (feval Rops (d_fop Rops) (d_cst Rops) fst f (map (fun x => (v3a x, v3d x h)) env))).
  { apply sim_feval; auto.
    - intros [] oc x1 y1 x2 y2 Ha <- Hy [] [] _.
      assert (y2 = option_map (fun z => (v3a z, v3d z h)) y1) as ->.
      { destruct y1, y2; cbn in *; try contradiction; congruence. }
      unfold c_fop, d_fop, mbind, mlift. cbn [fst snd].
      assert (option_map fst (option_map (fun z => (v3a z, v3d z h)) y1) = option_map v3a y1) as ->
        by (destruct y1; auto).
      assert (option_map snd (option_map (fun z => (v3a z, v3d z h)) y1)
              = option_map (fun z => v3d z h) y1) as -> by (destruct y1; auto).
      destruct (zero_order_value Rops oc (v3a x1) (option_map v3a y1)) as [r1|p]; auto.
      destruct (first_order_value_total Rops oc (v3a x1) (option_map v3a y1) (v3d x1 h)
                  (option_map (fun z => v3d z h) y1)) as [d E2].
      { destruct y1; cbn in Ha |- *; [right; repeat split; auto; discriminate|auto]. }
      rewrite E2. exists (r1, d), tt, tt. cbn. unfold fv. rewrite E2. auto.
    - left. intros ? ? ? <-; auto.
    - unfold RVs. clear. induction env; constructor; auto. }
  specialize (H tt tt I). unfold d_eval.
  destruct (feval Rops c_fop c_cst v3a f env tt) as [[ys []]|p].
  - destruct H as (vs & [] & [] & -> & _ & _ & HR). cbn. f_equal. clear -HR.
    unfold RVs in HR. induction HR; cbn; congruence.
  - rewrite (H eq_refl). reflexivity.
Qed.

(** A value that depends on constants only does not move. *)
Definition still (x : V3) : Prop := forall h, v3p x h = v3a x /\ v3d x h = 0.
Definition good (x : V3) : Prop := approx (v3a x) (v3p x) (v3d x).

Lemma fv_0 oc a b e :
  (forall d, e = Some d -> d = 0) -> fv oc a b 0 e = 0.
Proof.
  intros He. unfold fv. destruct oc; cbn; auto; try (destruct b; cbn; auto);
    try (destruct e as [d|]; cbn; auto; rewrite (He d eq_refl)); unfold Rdiv;
    try ring.
  - rewrite Rplus_0_r. ring.
  - rewrite Rplus_0_r. ring.
  - destruct (negb (Reqb 0 0)); rewrite ?Rmult_0_r; apply Rplus_0_r.
Qed.

Lemma still_op oc x y r s :
  still x -> (forall z, y = Some z -> still z) -> c_fop oc x y tt = Ok (r, s) -> still r.
Proof.
  intros Hx Hy. unfold c_fop.
  destruct (zero_order_value _ _ _ _) as [r0|] eqn:E; [|discriminate]. intros [= <- <-] h.
  destruct (Hx h) as [Hp Hd]. split.
  - change (zv oc (v3p x h) (option_map (fun z => v3p z h) y) = r0). rewrite Hp.
    unfold zv. assert (option_map (fun z => v3p z h) y = option_map v3a y) as ->.
    { destruct y as [z|]; auto. cbn. destruct (Hy z eq_refl h) as [-> _]; auto. }
    rewrite E. reflexivity.
  - change (fv oc (v3a x) (option_map v3a y) (v3d x h) (option_map (fun z => v3d z h) y) = 0).
    rewrite Hd. apply fv_0. destruct y as [z|]; cbn; [|discriminate]. intros d [= <-].
    apply (Hy z eq_refl).
Qed.

Lemma still_good x : still x -> good x.
Proof.
  intros H. eapply approx_ext; [| |apply (approx_const nrm nrm_pos (v3a x))];
    apply ev_all; intros h; destruct (H h) as [A B]; congruence.
Qed.

Lemma powerRZ_2 x : powerRZ x 2 = x * x.
Proof. unfold powerRZ. change (Pos.to_nat 2) with 2%nat. ring. Qed.

Lemma Rpower_pred a b : 0 < a -> Rpower a (b - 1) = Rpower a b * / a.
Proof.
  intros H. unfold Rminus. rewrite Rpower_plus, Rpower_Ropp, Rpower_1; auto.
Qed.

Ltac ext1 := apply ev_all; intros h; try reflexivity.

Lemma op_good oc x y r s :
  arity_ok oc y ->
  in_domain oc (v3a x) (option_map v3a y) false \/
  (in_domain oc (v3a x) (option_map v3a y) true /\ forall z, y = Some z -> still z) ->
  good x -> (forall z, y = Some z -> good z) ->
  c_fop oc x y tt = Ok (r, s) -> good r.
Proof.
  intros Ha HD Gx Gy. unfold c_fop.
  destruct (zero_order_value _ _ _ _) as [r0|] eqn:E; [|discriminate]. intros [= <- <-].
  change (approx r0 (fun h => zv oc (v3p x h) (option_map (fun z => v3p z h) y))
    (fun h => fv oc (v3a x) (option_map v3a y) (v3d x h) (option_map (fun z => v3d z h) y))).
  assert (in_domain oc (v3a x) (option_map v3a y) true) as HD'.
  { destruct HD as [H|[H _]]; auto. destruct oc; auto.
    cbn in *. intros b Hb. destruct (H b Hb) as [?|[? _]]; auto; discriminate. }
  destruct oc; cbn in Ha; try (destruct y; discriminate);
    (destruct y as [z|]; [try discriminate; specialize (Gy z eq_refl)|try discriminate]);
    cbn in E; injection E as <-; unfold good in *; cbn [option_map] in *.
  - (* add *) eapply approx_ext; [| |apply (approx_plus _ _ _ _ _ _ _ Gx Gy)]; ext1.
  - (* sub *) eapply approx_ext; [| |apply (approx_minus _ _ _ _ _ _ _ Gx Gy)]; ext1.
  - (* mul *) eapply approx_ext; [| |apply (approx_mult _ nrm_pos _ _ _ _ _ _ Gx Gy)]; ext1.
  - (* div *) cbn in HD'. specialize (HD' _ eq_refl).
    pose proof (approx_comp _ nrm_pos _ _ _ _ _ (d_inv _ HD') Gy) as Gi.
    eapply approx_ext; [| |apply (approx_mult _ nrm_pos _ _ _ _ _ _ Gx Gi)]; ext1.
    unfold fv; cbn -[powerRZ IZR pow]; rewrite ?powerRZ_2. field. auto.
  - eapply approx_ext; [| |apply (approx_comp _ nrm_pos _ _ _ _ _ (derivable_pt_lim_sin _) Gx)];
      ext1. unfold fv; cbn -[powerRZ IZR pow]; rewrite ?powerRZ_2. ring.
  - eapply approx_ext; [| |apply (approx_comp _ nrm_pos _ _ _ _ _ (derivable_pt_lim_cos _) Gx)];
      ext1. unfold fv; cbn -[powerRZ IZR pow]; rewrite ?powerRZ_2. ring.
  - eapply approx_ext; [| |apply (approx_comp _ nrm_pos _ _ _ _ _ (d_tan _ HD') Gx)]; ext1.
    unfold fv; cbn -[powerRZ IZR pow]; rewrite ?powerRZ_2. cbn in HD'. field. auto.
  - eapply approx_ext; [| |apply (approx_abs _ _ _ _ Gx)]; ext1.
  - eapply approx_ext; [| |apply (approx_comp _ nrm_pos _ _ _ _ _ (derivable_pt_lim_exp _) Gx)];
      ext1. unfold fv; cbn -[powerRZ IZR pow]; rewrite ?powerRZ_2. ring.
  - eapply approx_ext; [| |apply (approx_comp _ nrm_pos _ _ _ _ _ (derivable_pt_lim_ln _ HD') Gx)];
      ext1. unfold fv; cbn -[powerRZ IZR pow]; rewrite ?powerRZ_2. cbn in HD'. field. lra.
  - eapply approx_ext; [| |apply (approx_comp _ nrm_pos _ _ _ _ _ (d_asin _ HD') Gx)]; ext1.
    unfold fv; cbn -[powerRZ IZR pow]; rewrite ?powerRZ_2. unfold Rsqr, Rdiv. ring.
  - eapply approx_ext; [| |apply (approx_comp _ nrm_pos _ _ _ _ _ (d_acos _ HD') Gx)]; ext1.
    unfold fv; cbn -[powerRZ IZR pow]; rewrite ?powerRZ_2. unfold Rsqr, Rdiv. ring.
  - eapply approx_ext;
      [| |apply (approx_comp _ nrm_pos _ _ _ _ _ (derivable_pt_lim_atan _) Gx)]; ext1.
    unfold fv; cbn -[powerRZ IZR pow]; rewrite ?powerRZ_2.
    replace (v3a x ^ 2) with (v3a x * v3a x) by ring. unfold Rdiv. ring.
  - (* powf *)
    set (a := v3a x) in *. set (b := v3a z) in *.
    assert (0 < a \/ (still z /\ exists n, b = IZR n /\ (a <> 0 \/ (1 <= n)%Z))) as [Hpos|Hint].
    { destruct HD as [H|[H Hs]].
      - destruct (H b eq_refl) as [|[? _]]; [auto|discriminate].
      - destruct (H b eq_refl) as [|[_ ?]]; [auto|]. right; split; auto. }
    + pose proof (approx_comp _ nrm_pos _ _ _ _ _ (derivable_pt_lim_ln _ Hpos) Gx) as Gl.
      pose proof (approx_mult _ nrm_pos _ _ _ _ _ _ Gy Gl) as Gm.
      pose proof (approx_comp _ nrm_pos _ _ _ _ _ (derivable_pt_lim_exp _) Gm) as Ge.
      rewrite Rpowf_pos by auto. fold (Rpower a b) in Ge.
      eapply approx_ext; [| |apply Ge].
      * assert (ev nrm (fun h => 0 < v3p x h)) as Hev.
        { eapply ev_imp; [|apply (bo_small _ nrm_pos _ (approx_bo _ _ _ _ Gx) a Hpos)].
          cbn. intros h H. apply Rabs_def2 in H. lra. }
        eapply ev_imp; [|apply Hev]. cbn. intros h H. unfold zv; cbn -[powerRZ IZR pow].
        rewrite Rpowf_pos by auto. reflexivity.
      * ext1. cbn. unfold fv; cbn -[powerRZ IZR pow]; rewrite ?powerRZ_2. fold a b.
        assert (forall (c d : R), (if negb (Reqb d 0) then c * d else 0) = c * d) as Hif.
        { intros c d. destruct (Reqb d 0) eqn:Ed; cbn; auto. apply Reqb_true in Ed.
          subst d. ring. }
        rewrite !Hif. rewrite !Rpowf_pos by auto. rewrite Rpower_pred by auto.
        unfold Rpower. fold (Rpower a b). field. lra.
    + destruct Hint as [Hs (n & Hb & Hn)].
      pose proof (approx_comp _ nrm_pos _ _ _ _ _ (d_powerRZ n a Hn) Gx) as Gp.
      rewrite Hb, Rpowf_int.
      eapply approx_ext; [| |apply Gp].
      * ext1. unfold zv; cbn -[powerRZ IZR pow]. destruct (Hs h) as [-> _]. fold b. rewrite Hb, Rpowf_int. auto.
      * ext1. unfold fv; cbn -[powerRZ IZR pow]; rewrite ?powerRZ_2. destruct (Hs h) as [_ ->].
        assert (Reqb 0 0 = true) as -> by (apply Reqb_true; auto). cbn.
        replace (IZR n - 1) with (IZR (n - 1)) by (rewrite minus_IZR; auto).
        rewrite Rpowf_int.
        destruct (Reqb (v3d x h) 0) eqn:Ed; cbn; [|ring].
        apply Reqb_true in Ed. rewrite Ed. ring.
Qed.

(** The main induction. *)
Theorem family_approx f (x : list R) (env : list V3) :
  regular f x -> map v3a env = x -> Forall good env ->
  forall ys, feval Rops c_fop c_cst v3a f env tt = Ok (ys, tt) -> Forall good ys.
Proof.
  intros HR Ex HG ys E.
  set (RVk := fun (w : Prop) (p : R * bool) (q : V3) =>
                fst p = v3a q /\ (w -> good q /\ (snd p = true -> still q))).
  assert (H : simM true (fun P P' : Prop => P' -> P) (fun w s1 (_ : unit) => s1 = w)
    (RVs RVk) True
    (feval Rops r_fop (fun c => (c, true)) fst f (map (fun a => (a, false)) x))
    (feval Rops c_fop c_cst v3a f env)).
  { apply sim_feval; auto.
    - intros a b p q L [H1 H2]. split; auto.
    - intros w oc x1 y1 x2 y2 Ha [Hx1 Hx2] Hy s1 [] ->.
      assert (option_map fst y1 = option_map v3a y2) as Ey.
      { destruct y1, y2; cbn in *; try contradiction; auto. destruct Hy as [Hy _]. congruence. }
      unfold r_fop. rewrite Hx1, Ey.
      destruct (c_fop oc x2 y2 tt) as [[r []]|p] eqn:Ec.
      + pose proof Ec as Ec'. unfold c_fop in Ec'.
        destruct (zero_order_value Rops oc (v3a x2) (option_map v3a y2)) as [r0|] eqn:E0;
          [|discriminate].
        injection Ec' as Er. exists r, tt. eexists. split; [reflexivity|].
        split; [|split; [reflexivity|]]; [tauto|].
        assert (arity_ok oc y2) as Ha2.
        { destruct y1, y2; cbn in *; try contradiction; auto. }
        split; [cbn; rewrite <- Er; reflexivity|].
        intros [Hw HD]. destruct (Hx2 Hw) as [Gx Sx].
        assert (forall z, y2 = Some z -> good z) as Gy.
        { intros z ->. destruct y1; cbn in Hy; [|contradiction]. apply Hy; auto. }
        assert (match y1 with Some y' => snd y' | None => true end = true ->
                forall z, y2 = Some z -> still z) as Sy.
        { intros Hc z ->. destruct y1; cbn in Hy; [|contradiction]. apply Hy; auto. }
        split.
        * eapply op_good; eauto.
          destruct (match y1 with Some y' => snd y' | None => true end) eqn:Ec1; auto.
        * cbn. intros Hc. apply andb_prop in Hc as [Hc1 Hc2].
          eapply still_op; eauto.
      + unfold c_fop in Ec.
        destruct (zero_order_value Rops oc (v3a x2) (option_map v3a y2)); [discriminate|].
        intros _. congruence.
    - intros w c. split; auto. intros _. assert (still (c_cst c)) by (intros h; cbn; auto).
      split; auto using still_good.
    - left. intros w p q [H _]; auto.
    - unfold RVs. rewrite <- Ex. clear -HG. induction HG; cbn; constructor; auto.
      split; auto. intros _. split; auto. discriminate. }
  specialize (H True tt eq_refl). unfold regular in HR.
  destruct (feval Rops r_fop (fun c => (c, true)) fst f (map (fun a => (a, false)) x) True)
    as [[ps P]|p] eqn:Er.
  - specialize (HR _ _ eq_refl). destruct H as (ys' & [] & w' & E' & _ & Es & HF).
    assert (ys' = ys) by congruence. subst ys' P.
    clear -HF HR. unfold RVs in HF. induction HF as [|p q l1 l2 [H1 H2] HF IH]; constructor; auto.
    apply H2; auto.
  - rewrite (H eq_refl) in E. discriminate.
Qed.

End Family.

(** ** Vectors as perturbations *)
Lemma nrm1_pos h : 0 <= nrm1 h.
Proof. induction h; cbn; [lra|]. pose proof (Rabs_pos a). lra. Qed.

Lemma nrm1_nth k h : Rabs (nth k h 0) <= nrm1 h.
Proof.
  revert k; induction h as [|a h IH]; intros [|k]; cbn; try (rewrite Rabs_R0; lra).
  - pose proof (nrm1_pos h). lra.
  - specialize (IH k). pose proof (Rabs_pos a). lra.
Qed.

(** The family of inputs x + h. *)
Fixpoint fam (k : nat) (x : list R) : list (V3 (T := list R)) :=
  match x with
  | [] => []
  | a :: x' => (a, fun h => a + nth k h 0, fun h => nth k h 0) :: fam (S k) x'
  end.

Lemma fam_a k x : map v3a (fam k x) = x.
Proof. revert k; induction x; intros k; cbn; f_equal; auto. Qed.

Lemma fam_good k x : Forall (good nrm1) (fam k x).
Proof.
  revert k; induction x as [|a x IH]; intros k; cbn; constructor; auto.
  split; unfold v3a, v3p, v3d; cbn.
  - eapply lo_ext; [|apply (lo_0 nrm1 nrm1_pos)]. apply ev_all. intros h; cbn. lra.
  - exists 1. split; [lra|]. apply ev_all. intros h. pose proof (nrm1_nth k h). lra.
Qed.

Lemma fam_p : forall x k h, (k + length x = length h)%nat ->
  map (fun z => v3p z h) (fam k x) = vadd x (skipn k h).
Proof.
  induction x as [|a x IH]; intros k h L; cbn [fam map]; auto. cbn in L.
  assert (k < length h)%nat as Lk by lia.
  destruct (skipn k h) as [|b h'] eqn:E.
  - apply (f_equal (@length R)) in E. rewrite skipn_length in E. cbn in E. lia.
  - assert (nth k h 0 = b /\ skipn (S k) h = h') as [Eb Eh].
    { clear -E Lk. revert k E Lk; induction h as [|c h IH]; intros [|k] E Lk; cbn in *; try lia.
      - injection E as -> ->. auto.
      - apply IH; auto. lia. }
    change (vadd (a :: x) (b :: h')) with (a + b :: vadd x h').
    change (v3p (a, fun g => a + nth k g 0, fun g => nth k g 0) h) with (a + nth k h 0).
    rewrite Eb. f_equal. rewrite IH by lia. rewrite Eh. reflexivity.
Qed.

Lemma fam_d : forall x k h, (k + length x = length h)%nat ->
  map (fun z => (v3a z, v3d z h)) (fam k x) = combine x (skipn k h).
Proof.
  induction x as [|a x IH]; intros k h L; cbn [fam map]; auto. cbn in L.
  assert (k < length h)%nat as Lk by lia.
  destruct (skipn k h) as [|b h'] eqn:E.
  - apply (f_equal (@length R)) in E. rewrite skipn_length in E. cbn in E. lia.
  - assert (nth k h 0 = b /\ skipn (S k) h = h') as [Eb Eh].
    { clear -E Lk. revert k E Lk; induction h as [|c h IH]; intros [|k] E Lk; cbn in *; try lia.
      - injection E as -> ->. auto.
      - apply IH; auto. lia. }
    cbn [combine].
    change (v3d (a, fun g => a + nth k g 0, fun g => nth k g 0) h) with (nth k h 0).
    rewrite Eb. f_equal. rewrite IH by lia. rewrite Eh. reflexivity.
Qed.

Lemma R_const_tangents f x dx : const_tangents_zero Rops f x dx.
Proof.
  apply const_tangents. intros oc a b r H.
  assert (forall e, e = None \/ e = Some 0 ->
    first_order_value Rops oc a b 0 e = Ok r -> r = 0) as G.
  { intros e He E. pose proof (fv_0 oc a b e) as Z. unfold fv in Z. rewrite E in Z. apply Z.
    destruct He as [->| ->]; [discriminate|]. intros d [= <-]; auto. }
  cbn [f_zero Rops] in H. destruct H as [H|H]; [apply (G (Some 0))|apply (G None)]; auto.
Qed.

Lemma vadd_length x h : length h = length x -> length (vadd x h) = length x.
Proof. intros L. unfold vadd. rewrite map_length, combine_length. lia. Qed.

Lemma vec_approx (zs : list (V3 (T := list R))) e :
  0 < e -> Forall (good nrm1) zs ->
  exists d, 0 < d /\ forall h, nrm1 h < d -> forall z, In z zs ->
    Rabs (v3p z h - v3a z - v3d z h) <= e * nrm1 h.
Proof.
  intros He H. induction H as [|z zs Hz H IH].
  - exists 1. split; [lra|]. intros h _ z [].
  - destruct IH as (d & Hd & IH). destruct (ap_lo _ _ _ _ Hz e He) as (d' & Hd' & Hz').
    exists (Rmin d d'). split; [apply Rmin_pos; auto|]. intros h Hh z' [<-|Hin].
    + apply Hz'. eapply Rlt_le_trans; [apply Hh|apply Rmin_r].
    + apply IH; auto. eapply Rlt_le_trans; [apply Hh|apply Rmin_l].
Qed.

(** c_fop computes values with [zero_order_value]. *)
Lemma c_fop_val {T : Type} oc x y s r s' :
  arity_ok oc y -> c_fop (T := T) oc x y s = Ok (r, s') ->
  zero_order_value Rops oc (v3a x) (option_map v3a y) = Ok (v3a r).
Proof.
  intros _. unfold c_fop. destruct (zero_order_value _ _ _ _); [|discriminate].
  intros [= <- <-]. reflexivity.
Qed.

(** The increment of the recorded function, computed by the forward sweep, approximates the
    increment of the function. *)
Theorem piecewise_linearisation f x w t w' :
  fn_tape Rops f x w = Ok (t, w') -> regular f x -> same_branches_near f x ->
  exists y, tape_y t = Ok y /\
  forall e, 0 < e -> exists d, 0 < d /\ forall h, length h = length x -> nrm1 h < d ->
    exists y' dy, (forall w2, eval_float Rops f (vadd x h) w2 = Ok (y', w2)) /\
      tape_forward Rops t h = Ok dy /\ length y' = length y /\ length dy = length y /\
      forall k, (k < length y)%nat ->
        Rabs (nth k y' 0 - nth k y 0 - nth k dy 0) <= e * nrm1 h.
Proof.
  intros HT HR HB.
  destruct (fn_tape_fresh Rops f x w t w' HT) as (_ & (y & Ey & Ty & _) & _ & _).
  exists y. split; auto.
  (* the family *)
  assert (exists zs, feval Rops c_fop c_cst v3a f (fam 0 x) tt = Ok (zs, tt) /\ map v3a zs = y)
    as (zs & Ez & Ezy).
  { pose proof (c_d f (fam 0 x) (map (fun _ => 0) x)) as D.
    destruct (feval Rops c_fop c_cst v3a f (fam 0 x) tt) as [[zs []]|p] eqn:E.
    - exists zs. split; auto.
      pose proof (feval_values Rops c_fop c_cst v3a c_fop_val (fun c => eq_refl) f (fam 0 x)
                    tt zs tt E) as V.
      rewrite fam_a in V. congruence.
    - rewrite fam_d in D by (rewrite map_length; lia). cbn [skipn] in D.
      pose proof (d_eval_values Rops f (combine x (map (fun _ => 0) x))) as DV.
      rewrite D in DV. cbn [bind] in DV.
      rewrite map_fst_combine in DV by (rewrite map_length; auto). congruence. }
  pose proof (family_approx nrm1 nrm1_pos f x (fam 0 x) HR (fam_a 0 x) (fam_good 0 x) zs Ez) as G.
  intros e He. destruct (vec_approx zs e He G) as (d1 & Hd1 & HA).
  assert (exists d2, 0 < d2 /\ forall h, length h = length x -> nrm1 h < d2 ->
            v_eval Rops f (vadd x h) = Ok (map (fun z => v3p z h) zs)) as (d2 & Hd2 & HV).
  { assert (forall h, length h = length x ->
      v_eval Rops (resolve_f Rops f x) (vadd x h) = Ok (map (fun z => v3p z h) zs)) as HVr.
    { intros h L. pose proof (c_v (resolve_f Rops f x) (fam 0 x) h (resolve_f_straight Rops f x)) as C.
      rewrite (feval_resolve Rops c_fop c_cst v3a c_fop_val (fun c => eq_refl)) in Ez.
      rewrite fam_a in Ez. rewrite Ez in C. rewrite fam_p in C by lia. exact C. }
    destruct HB as [HS|(d & Hd & HB)].
    - exists 1. split; [lra|]. intros h L _.
      pose proof (c_v f (fam 0 x) h HS) as C. rewrite Ez in C. rewrite fam_p in C by lia. exact C.
    - exists d. split; auto. intros h L Hh. rewrite v_eval_resolve.
      rewrite <- (agree_f_path Rops f x (vadd x h)); auto.
      rewrite vadd_length; auto. }
  exists (Rmin d1 d2). split; [apply Rmin_pos; auto|]. intros h L Hh.
  assert (nrm1 h < d1) as Hh1 by (eapply Rlt_le_trans; [apply Hh|apply Rmin_l]).
  assert (nrm1 h < d2) as Hh2 by (eapply Rlt_le_trans; [apply Hh|apply Rmin_r]).
  exists (map (fun z => v3p z h) zs), (map (fun z => v3d z h) zs).
  split. { intros w2. rewrite eval_float_v. rewrite HV; auto. }
  split.
  { destruct (forward_tapeless Rops f x w t w' h HT L (R_const_tangents f x h)) as (yd & D & Ef).
    pose proof (c_d f (fam 0 x) h) as C. rewrite Ez in C. rewrite fam_d in C by lia.
    cbn [skipn] in C. rewrite D in C. injection C as ->. rewrite Ef. f_equal.
    rewrite map_map. reflexivity. }
  rewrite !map_length. rewrite <- Ezy. rewrite map_length. split; auto. split; auto.
  intros k Hk. destruct (nth_error zs k) as [z|] eqn:En; [|apply nth_error_None in En; lia].
  assert (forall g : V3 -> R, nth k (map g zs) 0 = g z) as Hn.
  { intros g. apply nth_error_nth. rewrite nth_error_map, En. auto. }
  rewrite !Hn. apply HA; auto. eapply nth_error_In; eauto.
Qed.
