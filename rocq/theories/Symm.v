(** Second derivatives by nested AFloats are symmetric. *)
From Coq Require Import Reals Lra List Arith ZArith Bool Lia.
From Verif Require Import Base Float Operation Tape AContext Methods Function Spec Param
  Instances FunctionFacts ReplayFacts ApiFacts3 Replay2 RealInst Approx DerivSpec DerivFacts LinearFacts DerivFacts2
  Nested NestedSpec NestedFacts NestedMain.
Import ListNotations.
Open Scope R_scope.

(** The two derivatives exchanged. *)
Definition swap (x : N2) : N2 := ((fst (fst x), fst (snd x)), (snd (fst x), snd (snd x))).

Lemma cond_mul k e : (if negb (Reqb e 0) then k * e else 0) = k * e.
Proof. destruct (Reqb e 0) eqn:E; cbn; [apply Reqb_true in E; subst; ring|reflexivity]. Qed.
Lemma pow_to2 a : a ^ Pos.to_nat 2 = a * a.
Proof. change (Pos.to_nat 2) with 2%nat. cbn. ring. Qed.
Lemma Rpowf_2 a : Rpowf a 2 = a * a.
Proof. rewrite (Rpowf_int a 2). unfold powerRZ. apply pow_to2. Qed.
Lemma Rpowf_1 a : Rpowf a (2 - 1) = a.
Proof. replace (2 - 1) with (IZR 1) by (cbn; ring). rewrite (Rpowf_int a 1). unfold powerRZ. change (Pos.to_nat 1) with 1%nat. cbn. ring. Qed.
Lemma Rpowf_half a : 0 < a -> Rpowf a (/ 2) = sqrt a.
Proof. intros H. rewrite Rpowf_pos by auto. apply Rpower_sqrt. auto. Qed.
Lemma Rpowf_mhalf a : 0 < a -> Rpowf a (/ 2 - 1) = / sqrt a.
Proof.
  intros H. rewrite Rpowf_pos by auto. replace (/ 2 - 1) with (- / 2) by field. rewrite Rpower_Ropp, Rpower_sqrt; auto.
Qed.

Ltac nrm := rewrite ?cond_mul, ?Rpowf_2, ?Rpowf_1, ?pow_to2.

Lemma ifz e (v : R * R) : (e = 0 -> v = (0, 0)) -> (if negb (Reqb e 0) then v else d_cst Rops 0) = v.
Proof. intros H. destruct (Reqb e 0) eqn:E; cbn; auto. apply Reqb_true in E. rewrite H; auto. Qed.
Ltac okp := apply f_equal; apply f_equal2; [apply f_equal2; apply f_equal2|reflexivity].

(** Constants have no derivatives. *)
Definition flat (x : N2) : Prop := snd (fst x) = 0 /\ fst (snd x) = 0 /\ snd (snd x) = 0.

Lemma swap_op oc x y bc r :
  arity_ok oc y ->
  in_domain2 oc x y bc -> in_domain2 oc (swap x) (option_map swap y) bc ->
  (bc = true -> forall z, y = Some z -> flat z) ->
  d_fop (Dops Rops) oc x y tt = Ok (r, tt) ->
  d_fop (Dops Rops) oc (swap x) (option_map swap y) tt = Ok (swap r, tt).
Proof.
  destruct x as [[a b] [c d]]. intros Ha HD HD' Hc.
  destruct oc; cbn in Ha; try (destruct y as [[[p q] [s t]]|]; try discriminate Ha); try discriminate;
    try contradiction; unfold swap; cbn -[Rpowf IZR Reqb in_domain2]; unfold dual; cbn -[Rpowf IZR Reqb in_domain2];
    intros [= <-]; unfold mret; cbn [fst snd].
  all: nrm.
  all: unfold in_domain2, in_domain, n_val in HD, HD'; cbn [fst snd option_map swap] in HD, HD'.
  - reflexivity.
  - reflexivity.
  - okp; ring.
  - assert (p <> 0) by (apply HD; auto). okp; field; auto.
  - okp; ring.
  - okp; ring.
  - okp; field; auto.
  - okp; ring.
  - assert (a <> 0) by lra. okp; field; auto.
  - assert (0 < 1 - a * a) as Hp by nra. rewrite !Rpowf_half, !Rpowf_mhalf by auto.
    rewrite !Rmult_1_r. apply sqrt_lt_R0 in Hp. okp; field; lra.
  - assert (0 < 1 - a * a) as Hp by nra. rewrite !Rpowf_half, !Rpowf_mhalf by auto.
    rewrite !Rmult_1_r. apply sqrt_lt_R0 in Hp. okp; field; lra.
  - assert (1 + a * a <> 0) as Hp by nra. rewrite !Rmult_1_r. okp; field; auto.
  - destruct (HD _ eq_refl) as (Hp & H1 & H2). destruct (HD' _ eq_refl) as (_ & H3 & H4).
    cbn [fst snd swap] in H2, H4. unfold swap in H2, H4. cbn [fst snd] in H2, H4.
    rewrite (ifz b), (ifz c), (ifz q), (ifz s) by (intros; subst; rewrite ?H1, ?H2, ?H3, ?H4 by auto; f_equal; ring).
    cbn [fst snd].
    destruct Hp as [Hp|[Hp _]].
    + assert (forall e, Rpowf a e = a * Rpowf a (e - 1)) as Hs.
      { intros e. rewrite !Rpowf_pos by auto. replace e with ((e - 1) + 1) at 1 by ring.
        rewrite Rpower_plus, Rpower_1 by auto. ring. }
      rewrite (Hs p). assert (a <> 0) by lra. okp; field; auto.
    + destruct (Hc Hp _ eq_refl) as (K1 & K2 & K3). cbn in K1, K2, K3. subst q s t. okp; ring.
Qed.

Lemma flat_op oc x y r s :
  arity_ok oc y -> flat x -> (forall z, y = Some z -> flat z) -> oc <> Abs ->
  d_fop (Dops Rops) oc x y tt = Ok (r, s) -> flat r.
Proof.
  intros Ha Hx Hy NA E.
  set (q := fun x : N2 => (x, fun _ _ : R => n_val x, fun _ : R => 0) : V5).
  assert (forall x, flat x -> stillq (q x)) as Q.
  { intros [[a b] [c d]] (H1 & H2 & H3). cbn in *. subst. exists a. repeat split. }
  assert (exists r', q_fop oc (q x) (option_map q y) tt = Ok (r', s) /\ q_n r' = r) as (r' & E' & <-).
  { unfold q_fop. assert (option_map q_n (option_map q y) = y) as -> by (destruct y; auto).
    change (q_n (q x)) with x. destruct s. change D with (Dops Rops). rewrite E. eexists. split; reflexivity. }
  destruct (stillq_op oc (q x) (option_map q y) r' s) as (c & -> & _); auto.
  - destruct y; auto.
  - intros z Hz. destruct y as [y|]; [|discriminate]. injection Hz as <-. auto.
  - repeat split.
Qed.

(** The runs that define [regular2] are nested evaluations. *)
Lemma n_nested f X :
  match feval Rops n_fop (fun c => (n_cst Rops c, true)) (fun p => n_val (fst p)) f
          (map (fun a => (a, false)) X) True with
  | Ok (ps, _) => nested_eval Rops f X = Ok (map fst ps)
  | Panic p => nested_eval Rops f X = Panic p
  end.
Proof.
  assert (H : simM true (fun _ _ => True) (fun (_ : unit) (_ : Prop) (_ : unit) => True)
    (RVs (fun (_ : unit) (x : N2 * bool) v => fst x = v)) tt
    (feval Rops n_fop (fun c => (n_cst Rops c, true)) (fun p => n_val (fst p)) f
          (map (fun a => (a, false)) X))
    (feval Rops (d_fop D) (n_cst Rops) n_val f X)).
  { apply sim_feval; auto.
    - intros [] oc x1 y1 x2 y2 Ha <- Hy P [] _.
      assert (y2 = option_map fst y1) as ->.
      { destruct y1, y2; cbn in *; try contradiction; congruence. }
      unfold n_fop. change (Dops Rops) with D.
      destruct (d_fop D oc (fst x1) (option_map fst y1) tt) as [[r []]|]; auto.
      exists r, tt, tt. auto.
    - left. intros ? ? ? <-; auto.
    - unfold RVs. clear. induction X; constructor; auto. }
  specialize (H True tt I). rewrite nested_eval_eq.
  destruct (feval Rops n_fop _ _ f (map (fun a => (a, false)) X) True) as [[ys P]|p].
  - destruct H as (vs & [] & [] & -> & _ & _ & HR). cbn.
    assert (vs = map fst ys) as ->; [|reflexivity]. clear -HR.
    unfold RVs in HR. induction HR; cbn; congruence.
  - rewrite (H eq_refl). reflexivity.
Qed.

Lemma fst_dop oc x y : arity_ok oc y -> fst (dop oc x y) = zv oc (fst x) (option_map fst y).
Proof.
  intros Ha. unfold dop, dual, d_fop, mbind, mlift, mret. rewrite zv_ok, fv_ok by (destruct y; auto).
  reflexivity.
Qed.

Theorem swap_eval f X ys :
  regular2 f X -> regular2 f (map swap X) ->
  nested_eval Rops f X = Ok ys -> nested_eval Rops f (map swap X) = Ok (map swap ys).
Proof.
  intros R1 R2 E.
  set (RVk := fun (w : Prop * Prop) (p q : N2 * bool) =>
                n_val (fst p) = n_val (fst q) /\ snd p = snd q /\
                (fst w -> snd w -> fst q = swap (fst p) /\ (snd p = true -> flat (fst p)))).
  assert (H : simM true (fun w w' : Prop * Prop => (fst w' -> fst w) /\ (snd w' -> snd w))
    (fun w s1 s2 => w = (s1, s2)) (RVs RVk) (True, True)
    (feval Rops n_fop (fun c => (n_cst Rops c, true)) (fun p => n_val (fst p)) f
           (map (fun a => (a, false)) X))
    (feval Rops n_fop (fun c => (n_cst Rops c, true)) (fun p => n_val (fst p)) f
           (map (fun a => (a, false)) (map swap X)))).
  { apply sim_feval; auto.
    - intros a b c [] []; auto.
    - intros a b p q [L1 L2] (H1 & H2 & H3). repeat split; auto; apply H3; auto.
    - intros w oc x1 y1 x2 y2 Ha (Vx & Fx & Hx) Hy s1 s2 ->.
      assert (arity_ok oc (option_map fst y1)) as Ha1 by (destruct y1; auto).
      assert (arity_ok oc (option_map fst y2)) as Ha2.
      { destruct y1, y2; cbn in *; try contradiction; auto. }
      unfold n_fop.
      destruct (d_fop_D_total oc (fst x1) (option_map fst y1) Ha1) as [r1 E1].
      destruct (d_fop_D_total oc (fst x2) (option_map fst y2) Ha2) as [r2 E2].
      change D with (Dops Rops) in *. rewrite E1, E2.
      eexists _, _, (_, _). split; [reflexivity|].
      split; [|split; [reflexivity|]]; [cbn; tauto|].
      assert (match y1 with Some y' => snd y' | None => true end
              = match y2 with Some y' => snd y' | None => true end) as Fy.
      { destruct y1, y2; cbn in *; try contradiction; auto. apply Hy. }
      assert (option_map n_val (option_map fst y1) = option_map n_val (option_map fst y2)) as Vy.
      { destruct y1, y2; cbn in *; try contradiction; auto. f_equal. apply Hy. }
      assert (n_val r1 = n_val r2) as Vr.
      { destruct (d_fop_D oc _ _ _ _ Ha1 E1) as [G1 _]. destruct (d_fop_D oc _ _ _ _ Ha2 E2) as [G2 _].
        unfold n_val in *. rewrite G1, G2. rewrite !fst_dop by (destruct y1, y2; auto). rewrite Vx. f_equal.
        destruct y1, y2; cbn in *; congruence. }
      split; [exact Vr|]. split; [cbn; congruence|].
      cbn [fst snd]. intros [HP D1] [HQ D2]. destruct (Hx HP HQ) as [Sx Kx].
      assert (option_map fst y2 = option_map swap (option_map fst y1)) as Sy.
      { destruct y1, y2; cbn in *; try contradiction; auto. f_equal. apply Hy; auto. }
      assert (match y1 with Some y' => snd y' | None => true end = true ->
              forall z, option_map fst y1 = Some z -> flat z) as Ky.
      { intros Hc z Hz. destruct y1 as [y1|]; [|discriminate]. injection Hz as <-.
        destruct y2; [|contradiction]. apply Hy; auto. }
      rewrite Sx, Sy, <- Fy in D2. split.
      + pose proof (swap_op _ _ _ _ _ Ha1 D1 D2 Ky E1) as E3. rewrite Sx, Sy in E2. congruence.
      + intros Hc. apply andb_prop in Hc as [Hc1 Hc2].
        apply (flat_op oc (fst x1) (option_map fst y1) r1 tt); auto. intros ->. destruct D1.
    - intros w c. repeat split.
    - left. intros w p q [H _]; auto.
    - unfold RVs. clear. induction X as [|x X IH]; constructor; auto. split; [destruct x as [[] []]; reflexivity|].
      split; auto. intros _ _. split; auto. discriminate. }
  specialize (H True True eq_refl). unfold regular2 in R1, R2.
  destruct (feval Rops n_fop _ _ f (map (fun a => (a, false)) X) True) as [[ps P]|p] eqn:Er.
  - specialize (R1 _ _ eq_refl). destruct H as (qs & Q & w' & E' & _ & -> & HF).
    rewrite E' in R2. specialize (R2 _ _ eq_refl).
    assert (ys = map fst ps) as ->.
    { pose proof (n_nested f X) as N. rewrite Er in N. congruence. }
    assert (nested_eval Rops f (map swap X) = Ok (map fst qs)) as ->.
    { pose proof (n_nested f (map swap X)) as N. rewrite E' in N. exact N. }
    f_equal. rewrite !map_map. unfold RVs in HF. cbn in HF. clear - HF R1 R2.
    induction HF as [|p q l1 l2 (_ & _ & H) HF IH]; cbn; auto. f_equal; auto. apply H; auto.
  - pose proof (n_nested f X) as N. rewrite Er in N. congruence.
Qed.
