(** Nested AFloats compute second derivatives: the induction over user functions. *)
From Coq Require Import Reals Lra List Arith ZArith Bool Lia.
From Verif Require Import Base Float Operation Tape AContext Methods Function Spec Param TapeFacts
  Instances FunctionFacts ReplayFacts ApiFacts3 Replay2 RealInst Approx DerivSpec DerivFacts
  LinearFacts DerivFacts2 Nested NestedSpec NestedFacts.
Import ListNotations.
Open Scope R_scope.

(** A nested value; the value at the parameters (t, s); the tangent at the parameter t. *)
Definition V5 : Type := (N2 * (R -> R -> R) * (R -> R))%type.
Definition q_n (x : V5) : N2 := fst (fst x).
Definition q_p (x : V5) : R -> R -> R := snd (fst x).
Definition q_d (x : V5) : R -> R := snd x.
Definition q_val (x : V5) : R := n_val (q_n x).

Definition q_fop (oc : OpCode) (x : V5) (y : option V5) : M unit V5 :=
  fun s =>
    match d_fop D oc (q_n x) (option_map q_n y) tt with
    | Ok (r, _) =>
        Ok ((r, fun t s => zv oc (q_p x t s) (option_map (fun z => q_p z t s) y),
             fun t => fv oc (q_p x t 0) (option_map (fun z => q_p z t 0) y) (q_d x t)
                         (option_map (fun z => q_d z t) y)), s)
    | Panic p => Panic p
    end.
Definition q_cst (c : R) : V5 := (n_cst Rops c, fun _ _ => c, fun _ => 0).

Record goodq (x : V5) : Prop := {
  gq_v : rep (fst (q_n x)) (fun t => q_p x t 0);
  gq_d : rep (snd (q_n x)) (q_d x);
  gq_s : ev Rabs (fun t => rep (q_p x t 0, q_d x t) (q_p x t))
}.
Definition stillq (x : V5) : Prop :=
  exists c, q_n x = ((c, 0), (0, 0)) /\ (forall t s, q_p x t s = c) /\ forall t, q_d x t = 0.

Lemma stillq_good x : stillq x -> goodq x.
Proof.
  intros (c & En & Ep & Ed). split.
  - rewrite En. eapply rep_ext_all; [|apply (rep_cst c)]. intros t. rewrite Ep. auto.
  - rewrite En. eapply rep_ext_all; [|apply (rep_cst 0)]. intros t. rewrite Ed. auto.
  - apply ev_all. intros t. rewrite Ep, Ed.
    eapply rep_ext_all; [|apply (rep_cst c)]. intros s. rewrite Ep. auto.
Qed.

Lemma zv_ok oc a b : arity_ok oc b -> zero_order_value Rops oc a b = Ok (zv oc a b).
Proof.
  intros Ha. unfold zv. destruct (zero_order_value_total Rops oc a b) as [r ->]; auto.
  destruct b; cbn in Ha; [right; split; auto; discriminate|auto].
Qed.
Lemma fv_ok oc a b d e :
  arity_ok oc b -> arity_ok oc e -> first_order_value Rops oc a b d e = Ok (fv oc a b d e).
Proof.
  intros Ha He. unfold fv. destruct (first_order_value_total Rops oc a b d e) as [r ->]; auto.
  destruct b, e; cbn in Ha, He; auto; try (destruct oc; discriminate).
  right; repeat split; auto; discriminate.
Qed.

(** What the nested operation returns. *)
Lemma d_fop_D oc X Y r s :
  arity_ok oc Y -> d_fop D oc X Y tt = Ok (r, s) ->
  fst r = dop oc (fst X) (option_map fst Y) /\
  first_order_value D oc (fst X) (option_map fst Y) (snd X) (option_map snd Y) = Ok (snd r).
Proof.
  intros Ha. unfold d_fop, mbind, mlift, mret.
  destruct (zero_order_value D oc (fst X) (option_map fst Y)) as [v|] eqn:E1; [|discriminate].
  destruct (first_order_value D oc _ _ _ _) as [d|] eqn:E2; [|discriminate].
  intros [= <- <-]. split; auto. cbn [fst].
  destruct oc; destruct Y as [Y|]; try discriminate; cbn in E1; injection E1 as <-; reflexivity.
Qed.

Lemma d_fop_D_total oc X Y :
  arity_ok oc Y -> exists r, d_fop D oc X Y tt = Ok (r, tt).
Proof.
  intros Ha. unfold d_fop, mbind, mlift, mret.
  destruct (zero_order_value_total D oc (fst X) (option_map fst Y)) as [v ->].
  { destruct Y; cbn in Ha |- *; [right; split; auto; discriminate|auto]. }
  destruct (first_order_value_total D oc (fst X) (option_map fst Y) (snd X) (option_map snd Y))
    as [d ->].
  { destruct Y; cbn in Ha |- *; [right; repeat split; auto; discriminate|auto]. }
  eauto.
Qed.

Lemma stillq_op oc x y r s :
  arity_ok oc y -> stillq x -> (forall z, y = Some z -> stillq z) -> q_fop oc x y tt = Ok (r, s) ->
  oc <> Abs -> stillq r.
Proof.
  intros Ha (c & Ec & Pc & Dc) Hy. unfold q_fop.
  assert (arity_ok oc (option_map q_n y)) as Ha' by (destruct y; auto).
  destruct (d_fop D oc _ _ tt) as [[n []]|] eqn:E; [|discriminate]. intros [= <- <-] NA.
  destruct (d_fop_D _ _ _ _ _ Ha' E) as [E1 E2].
  set (b := option_map (fun z => fst (fst (q_n z))) y).
  exists (zv oc c b).
  assert (forall t s, option_map (fun z => q_p z t s) y = b) as Eb.
  { intros t s0. unfold b. destruct y as [z|]; auto. cbn. destruct (Hy z eq_refl) as (d & -> & -> & _).
    auto. }
  assert (forall t z, option_map (fun z => q_d z t) y = Some z -> z = 0) as Ed.
  { intros t z. destruct y as [z0|]; cbn; [|discriminate].
    destruct (Hy z0 eq_refl) as (d & _ & _ & ->). congruence. }
  split; [|split].
  - unfold q_n at 1. cbn [fst snd]. assert (option_map fst (option_map q_n y) = option_map (fun v => (v, 0)) b) as Ey1.
    { unfold b. destruct y as [z|]; auto. cbn. destruct (Hy z eq_refl) as (d & -> & _); auto. }
    assert (option_map snd (option_map q_n y) = option_map (fun v => (0, 0)) b) as Ey2.
    { unfold b. destruct y as [z|]; auto. cbn. destruct (Hy z eq_refl) as (d & -> & _); auto. }
    rewrite Ec, Ey1 in E1. rewrite Ec, Ey1, Ey2 in E2. cbn [fst snd] in E1, E2.
    assert (arity_ok oc b) as Hab by (unfold b; destruct y; auto).
    clear - E1 E2 Hab NA. clearbody b.
    assert (fst n = (zv oc c b, 0)) as F1.
    { rewrite E1. unfold dop, dual, d_fop, mbind, mlift, mret. cbn [fst snd].
      assert (option_map fst (option_map (fun v => (v, 0)) b) = b) as -> by (destruct b; auto).
      rewrite zv_ok by auto. cbn.
      rewrite fv_ok by (destruct b; auto). f_equal.
      apply fv_0. intros d. destruct b; cbn; congruence. }
    rewrite (surjective_pairing n), F1. f_equal.
    assert (forall z, (0 : R, 0 : R) = (0, 0) /\ f_mul D (0,0) z = (0, 0) /\ f_mul D z (0,0) = (0,0))
      as HM.
    { intros [z1 z2]. unfold dual; cbn. unfold dual; cbn. repeat split; f_equal; ring. }
    assert (f_add D (0,0) (0,0) = (0,0)) as HA by (cbn; unfold dual; cbn; f_equal; ring).
    assert (f_sub D (0,0) (0,0) = (0,0)) as HS by (cbn; unfold dual; cbn; f_equal; ring).
    assert (f_neg D (0,0) = (0,0)) as HN by (cbn; unfold dual; cbn; f_equal; ring).
    assert (forall z, f_div D (0,0) z = (0,0)) as HD.
    { intros [z1 z2]. cbn -[powerRZ]. unfold dual; cbn -[powerRZ]. unfold Rdiv. f_equal; ring. }
    assert (f_eqb D (0,0) (f_zero D) = true) as HE by (cbn; apply Reqb_true; auto).
    destruct oc; destruct b as [b|]; try discriminate; try congruence;
      cbn [first_order_value option_map unwrap bind] in E2; apply Ok_eq in E2; rewrite <- E2;
      rewrite ?HE; cbn [negb]; rewrite ?HN, ?(proj1 (proj2 (HM _))), ?(proj2 (proj2 (HM _))), ?HA, ?HS;
      rewrite ?HD; auto.
  - intros t s0. unfold q_p at 1. cbn [fst snd]. rewrite Pc, Eb. auto.
  - intros t. unfold q_d at 1. cbn [fst snd]. rewrite Pc, Dc, Eb. apply fv_0. apply Ed.
Qed.

Lemma ev_range x phi : rep x phi -> -1 < fst x < 1 -> ev Rabs (fun h => -1 < phi h < 1).
Proof.
  intros H Hr.
  assert (0 < Rmin (fst x - -1) (1 - fst x)) as Hm by (apply Rmin_glb_lt; lra).
  eapply ev_imp; [|apply (bo_small Rabs Rabs_pos _ (approx_bo _ _ _ _ H) _ Hm)].
  cbn. intros h Hh. apply Rabs_def2 in Hh.
  pose proof (Rmin_l (fst x - -1) (1 - fst x)). pose proof (Rmin_r (fst x - -1) (1 - fst x)). lra.
Qed.

(** Domains are open. *)
Lemma domain_open oc x phi (y : option ((R * R) * (R -> R))) bc :
  in_domain oc (fst x) (option_map (fun z => fst (fst z)) y) bc ->
  rep x phi -> (forall z, y = Some z -> rep (fst z) (snd z)) ->
  (bc = true -> forall z, y = Some z -> stillr (fst z) (snd z)) ->
  ev Rabs (fun t => in_domain oc (phi t) (option_map (fun z => snd z t) y) bc).
Proof.
  intros HD Hx Hy Hs. destruct oc; try (apply ev_all; cbn; auto; fail); cbn [in_domain] in *.
  - destruct y as [[y chi]|]; [|apply ev_all; cbn; discriminate].
    cbn in HD. eapply ev_imp; [|apply (rep_ev_nz _ _ (Hy _ eq_refl) (HD _ eq_refl))].
    cbn. intros h Hh ? [= <-]; auto.
  - apply (rep_ev_nz (f_cos D x) (fun h => cos (phi h))); auto using rep_cos.
  - apply (rep_ev_pos x); auto.
  - apply (ev_range x); auto.
  - apply (ev_range x); auto.
  - destruct y as [[y chi]|]; [|apply ev_all; cbn; discriminate]. cbn in HD.
    destruct (HD _ eq_refl) as [Hp|[-> (n & En & Hn)]].
    + eapply ev_imp; [|apply (rep_ev_pos _ _ Hx Hp)]. cbn. intros h Hh ? [= <-]; auto.
    + destruct (Hs eq_refl _ eq_refl) as [_ S2]. cbn in S2. destruct Hn as [Hn|Hn].
      * eapply ev_imp; [|apply (rep_ev_nz _ _ Hx Hn)]. cbn. intros h Hh ? [= <-].
        right. split; auto. exists n. rewrite S2. auto.
      * apply ev_all. cbn. intros h ? [= <-]. right. split; auto. exists n. rewrite S2. auto.
Qed.

Lemma in_domain2_1 oc X Y bc :
  in_domain2 oc X Y bc -> in_domain oc (n_val X) (option_map n_val Y) bc.
Proof.
  destruct oc; cbn; auto. intros H y Hy. destruct Y as [Y|]; [|discriminate]. cbn in Hy.
  destruct (H Y eq_refl) as [[Hp|[Hb (n & En & Hn)]] _]; auto.
  right. split; auto. exists n. split; [congruence|]. destruct Hn; [auto|right; lia].
Qed.

Lemma in_domain2_weak oc X Y : in_domain2 oc X Y false -> in_domain2 oc X Y true.
Proof.
  destruct oc; cbn; auto.
  intros H z Hz. destruct (H z Hz) as [[Hp|[Hb _]] R]; [auto|discriminate].
Qed.

Lemma goodq_op oc x y r s bc :
  arity_ok oc y -> in_domain2 oc (q_n x) (option_map q_n y) bc ->
  (bc = true -> forall z, y = Some z -> stillq z) ->
  goodq x -> (forall z, y = Some z -> goodq z) ->
  q_fop oc x y tt = Ok (r, s) -> goodq r.
Proof.
  intros Ha HD HS [Gv Gd Gs] Gy. unfold q_fop.
  assert (arity_ok oc (option_map q_n y)) as Ha' by (destruct y; auto).
  destruct (d_fop D oc _ _ tt) as [[n []]|] eqn:E; [|discriminate]. intros [= <- <-].
  destruct (d_fop_D _ _ _ _ _ Ha' E) as [E1 E2].
  assert (oc <> Abs) as NA by (intros ->; destruct HD).
  set (yv := option_map (fun z => (fst (q_n z), fun t => q_p z t 0)) y).
  set (yd := option_map (fun z => (snd (q_n z), q_d z)) y).
  assert (option_map fst (option_map q_n y) = option_map fst yv) as Y1 by (unfold yv; destruct y; auto).
  assert (option_map snd (option_map q_n y) = option_map fst yd) as Y2 by (unfold yd; destruct y; auto).
  assert (forall z, yv = Some z -> rep (fst z) (snd z)) as Rv.
  { unfold yv. intros z Ez. destruct y as [z0|]; [|discriminate]. injection Ez as <-.
    apply (Gy z0 eq_refl). }
  assert (forall z, yd = Some z -> rep (fst z) (snd z)) as Rd.
  { unfold yd. intros z Ez. destruct y as [z0|]; [|discriminate]. injection Ez as <-.
    apply (Gy z0 eq_refl). }
  assert (bc = true -> forall z, yv = Some z -> stillr (fst z) (snd z)) as Sv.
  { unfold yv. intros Hb z Ez. destruct y as [z0|]; [|discriminate]. injection Ez as <-.
    destruct (HS Hb z0 eq_refl) as (c & En & Ep & _). cbn. rewrite En. split; cbn; auto. }
  assert (bc = true -> forall z, yd = Some z -> fst z = (0, 0) /\ forall h, snd z h = 0) as Sd.
  { unfold yd. intros Hb z Ez. destruct y as [z0|]; [|discriminate]. injection Ez as <-.
    destruct (HS Hb z0 eq_refl) as (c & En & _ & Ed). cbn. rewrite En. auto. }
  assert (arity_ok oc yv) as Hav by (unfold yv; destruct y; auto).
  assert (arity_ok oc yd) as Had by (unfold yd; destruct y; auto).
  pose proof (in_domain2_1 _ _ _ _ HD) as HD1.
  assert (option_map n_val (option_map q_n y) = option_map (fun z => fst (fst z)) yv) as Y3
    by (unfold yv; destruct y; auto).
  rewrite Y3 in HD1.
  assert (forall t, option_map (fun z => snd z t) yv = option_map (fun z => q_p z t 0) y) as Y4
    by (intros; unfold yv; destruct y; auto).
  split.
  - unfold q_n at 1, q_p at 1. cbn [fst snd]. rewrite E1, Y1. eapply rep_ext_all; [|apply (rep_op oc _ (fun t => q_p x t 0) yv)]; auto.
    + intros t. cbn. rewrite Y4. reflexivity.
    + destruct bc; [right; auto|left; auto].
  - unfold q_n at 1, q_d at 1. cbn [fst snd]. rewrite Y1, Y2 in E2.
    eapply rep_ext_all; [|apply (rep_rule oc (fst (q_n x)) (fun t => q_p x t 0) (snd (q_n x)) (q_d x) yv yd (snd n))];
      auto.
    + intros t. cbn. rewrite Y4. f_equal. unfold yd. destruct y; auto.
    + assert (forall b, in_domain2 oc (q_n x) (option_map q_n y) b ->
         in_domain2 oc (fst (q_n x), snd (q_n x))
           match yv with
           | Some y0 => match yd with Some e => Some (fst y0, fst e) | None => None end
           | None => None
           end b) as HDp.
      { intros b Hb. rewrite <- surjective_pairing. unfold yv, yd. destruct y as [z|]; auto.
        cbn [option_map fst] in *. rewrite <- surjective_pairing. auto. }
      destruct bc; [right; auto|left; auto].
  - pose proof (domain_open oc (fst (q_n x)) (fun t => q_p x t 0) yv bc HD1 Gv Rv Sv) as HO.
    assert (ev Rabs (fun t => forall z, y = Some z -> rep (q_p z t 0, q_d z t) (q_p z t))) as Gs2.
    { destruct y as [z|]; [|apply ev_all; discriminate].
      eapply ev_imp; [|apply (gq_s _ (Gy z eq_refl))]. cbn. intros t H ? [= <-]. auto. }
    eapply ev_imp; [|apply (ev_and _ _ _ HO (ev_and _ _ _ Gs Gs2))]. cbn.
    intros t (H1 & H2 & H3).
    set (yt := option_map (fun z => ((q_p z t 0, q_d z t), q_p z t)) y).
    assert (rep (dop oc (q_p x t 0, q_d x t) (option_map fst yt))
                (fun s => zv oc (q_p x t s) (option_map (fun z => snd z s) yt))) as HR.
    { apply rep_op; auto.
      - unfold yt; destruct y; auto.
      - cbn [fst].
        assert (option_map (fun z => fst (fst z)) yt = option_map (fun z => snd z t) yv) as ->
          by (unfold yt, yv; destruct y; auto).
        destruct bc; [right|left; auto]. split; auto.
        unfold yt. intros z Ez. destruct y as [z0|]; [|discriminate]. injection Ez as <-.
        destruct (HS eq_refl z0 eq_refl) as (c & _ & Ep & Ed). split; cbn; auto.
        intros h. rewrite !Ep. auto.
      - unfold yt. intros z Ez. destruct y as [z0|]; [|discriminate]. injection Ez as <-.
        apply (H3 z0 eq_refl). }
    assert (dop oc (q_p x t 0, q_d x t) (option_map fst yt)
            = (zv oc (q_p x t 0) (option_map (fun z => q_p z t 0) y),
               fv oc (q_p x t 0) (option_map (fun z => q_p z t 0) y) (q_d x t)
                  (option_map (fun z => q_d z t) y))) as <-.
    { unfold dop, dual, d_fop, mbind, mlift, mret. cbn [fst snd].
      assert (option_map fst (option_map fst yt) = option_map (fun z => q_p z t 0) y) as ->
        by (unfold yt; destruct y; auto).
      assert (option_map snd (option_map fst yt) = option_map (fun z => q_d z t) y) as ->
        by (unfold yt; destruct y; auto).
      rewrite zv_ok by (destruct y; auto). rewrite fv_ok by (destruct y; auto). reflexivity. }
    eapply rep_ext_all; [|apply HR]. intros s. cbn. f_equal. unfold yt. destruct y; auto.
Qed.

(** The main induction. *)
Theorem nested_family f (X : list N2) (env : list V5) :
  regular2 f X -> map q_n env = X -> Forall goodq env ->
  forall ys, feval Rops q_fop q_cst q_val f env tt = Ok (ys, tt) -> Forall goodq ys.
Proof.
  intros HR Ex HG ys E.
  set (RVk := fun (w : Prop) (p : N2 * bool) (q : V5) =>
                fst p = q_n q /\ (w -> goodq q /\ (snd p = true -> stillq q))).
  assert (H : simM true (fun P P' : Prop => P' -> P) (fun w s1 (_ : unit) => s1 = w)
    (RVs RVk) True
    (feval Rops n_fop (fun c => (n_cst Rops c, true)) (fun p => n_val (fst p)) f
           (map (fun a => (a, false)) X))
    (feval Rops q_fop q_cst q_val f env)).
  { apply sim_feval; auto.
    - intros a b p q L [H1 H2]. split; auto.
    - intros w oc x1 y1 x2 y2 Ha [Hx1 Hx2] Hy s1 [] ->.
      assert (option_map fst y1 = option_map q_n y2) as Ey.
      { destruct y1, y2; cbn in *; try contradiction; auto. destruct Hy as [Hy _]. congruence. }
      assert (arity_ok oc y2) as Ha2.
      { destruct y1, y2; cbn in *; try contradiction; auto. }
      unfold n_fop. rewrite Hx1, Ey.
      destruct (q_fop oc x2 y2 tt) as [[r []]|p] eqn:Ec.
      + pose proof Ec as Ec'. unfold q_fop in Ec'.
        destruct (d_fop D oc (q_n x2) (option_map q_n y2) tt) as [[r0 []]|] eqn:E0;
          [|discriminate].
        injection Ec' as Er. exists r, tt. eexists. split; [reflexivity|].
        split; [|split; [reflexivity|]]; [tauto|].
        split; [cbn; rewrite <- Er; reflexivity|].
        intros [Hw HD]. destruct (Hx2 Hw) as [Gx Sx].
        assert (forall z, y2 = Some z -> goodq z) as Gy.
        { intros z ->. destruct y1; cbn in Hy; [|contradiction]. apply Hy; auto. }
        assert (match y1 with Some y' => snd y' | None => true end = true ->
                forall z, y2 = Some z -> stillq z) as Sy.
        { intros Hc z ->. destruct y1; cbn in Hy; [|contradiction]. apply Hy; auto. }
        split.
        * eapply goodq_op; eauto.
        * cbn. intros Hc. apply andb_prop in Hc as [Hc1 Hc2].
          eapply stillq_op; eauto. intros ->. destruct HD.
      + unfold q_fop in Ec.
        destruct (d_fop D oc (q_n x2) (option_map q_n y2) tt) as [[r0 []]|]; [discriminate|].
        intros _. congruence.
    - intros w c. split; auto. intros _.
      assert (stillq (q_cst c)) by (exists c; repeat split; auto).
      split; auto using stillq_good.
    - left. intros w p q [H _]; unfold q_val; congruence.
    - unfold RVs. rewrite <- Ex. clear -HG. induction HG; cbn; constructor; auto.
      split; auto. intros _. split; auto. discriminate. }
  specialize (H True tt eq_refl). unfold regular2 in HR.
  destruct (feval Rops n_fop _ _ f (map (fun a => (a, false)) X) True) as [[ps P]|p] eqn:Er.
  - specialize (HR _ _ eq_refl). destruct H as (ys' & [] & w' & E' & _ & Es & HF).
    assert (ys' = ys) by congruence. subst ys' P.
    clear -HF HR. unfold RVs in HF. induction HF as [|p q l1 l2 [H1 H2] HF IH]; constructor; auto.
    apply H2; auto.
  - rewrite (H eq_refl) in E. discriminate.
Qed.

(** The family is the nested evaluation ... *)
Lemma q_nested f env :
  match feval Rops q_fop q_cst q_val f env tt with
  | Ok (ys, _) => nested_eval Rops f (map q_n env) = Ok (map q_n ys)
  | Panic p => nested_eval Rops f (map q_n env) = Panic p
  end.
Proof.
  assert (H : simM true (fun _ _ => True) (fun (_ : unit) (_ _ : unit) => True)
    (RVs (fun (_ : unit) (x : V5) v => q_n x = v)) tt
    (feval Rops q_fop q_cst q_val f env)
    (feval Rops (d_fop D) (n_cst Rops) n_val f (map q_n env))).
  { apply sim_feval; auto.
    - intros [] oc x1 y1 x2 y2 Ha <- Hy [] [] _.
      assert (y2 = option_map q_n y1) as ->.
      { destruct y1, y2; cbn in *; try contradiction; congruence. }
      unfold q_fop.
      destruct (d_fop D oc (q_n x1) (option_map q_n y1) tt) as [[r []]|]; auto.
      exists r, tt, tt. auto.
    - left. intros ? ? ? <-; auto.
    - unfold RVs. clear. induction env; constructor; auto. }
  specialize (H tt tt I). rewrite nested_eval_eq.
  destruct (feval Rops q_fop q_cst q_val f env tt) as [[ys []]|p].
  - destruct H as (vs & [] & [] & -> & _ & _ & HR). cbn.
    assert (vs = map q_n ys) as ->; [|reflexivity]. clear -HR.
    unfold RVs in HR. induction HR; cbn; congruence.
  - rewrite (H eq_refl). reflexivity.
Qed.

(** ... and, at each pair of parameters, plain evaluation. *)
Lemma q_plain f env t s :
  straight_f f ->
  match feval Rops q_fop q_cst q_val f env tt with
  | Ok (ys, _) => v_eval Rops f (map (fun x => q_p x t s) env) = Ok (map (fun x => q_p x t s) ys)
  | Panic p => v_eval Rops f (map (fun x => q_p x t s) env) = Panic p
  end.
Proof.
  intros HS.
  assert (H : simM true (fun _ _ => True) (fun (_ : unit) (_ _ : unit) => True)
    (RVs (fun (_ : unit) (x : V5) v => q_p x t s = v)) tt
    (feval Rops q_fop q_cst q_val f env)
    (feval Rops (v_fop Rops) (fun c => c) (fun v => v) f (map (fun x => q_p x t s) env))).
  { apply sim_feval; auto.
    - intros [] oc x1 y1 x2 y2 Ha <- Hy [] [] _.
      assert (y2 = option_map (fun z => q_p z t s) y1) as ->.
      { destruct y1, y2; cbn in *; try contradiction; congruence. }
      unfold q_fop, v_fop, mlift.
      destruct (d_fop_D_total oc (q_n x1) (option_map q_n y1)) as [r ->].
      { destruct y1; auto. }
      rewrite zv_ok by (destruct y1; auto). eexists _, tt, tt. split; [reflexivity|]. auto.
    - unfold RVs. clear. induction env; constructor; auto. }
  specialize (H tt tt I). unfold v_eval.
  destruct (feval Rops q_fop q_cst q_val f env tt) as [[ys []]|p].
  - destruct H as (vs & [] & [] & -> & _ & _ & HR). cbn. f_equal. clear -HR.
    unfold RVs in HR. induction HR; cbn; congruence.
  - rewrite (H eq_refl). reflexivity.
Qed.

(** The parametrised inputs. *)
Fixpoint q_in (x u v w : list R) : list V5 :=
  match x, u, v, w with
  | a :: x', b :: u', c :: v', d :: w' =>
      (((a, b), (c, d)), (fun t s => a + t * b + s * (c + t * d)), (fun t => c + t * d))
        :: q_in x' u' v' w'
  | _, _, _, _ => []
  end.

Lemma q_in_n : forall x u v w, map q_n (q_in x u v w) = nested_in x u v w.
Proof.
  induction x as [|a x IH]; intros [|b u] [|c v] [|d w]; cbn; auto. f_equal; auto.
Qed.

Lemma q_in_p : forall x u v w t s,
  length u = length x -> length v = length x -> length w = length x ->
  map (fun z => q_p z t s) (q_in x u v w) = plane x u v w t s.
Proof.
  induction x as [|a x IH]; intros [|b u] [|c v] [|d w] t s L1 L2 L3; try discriminate; auto.
  cbn in L1, L2, L3. cbn [q_in map]. rewrite IH by lia. reflexivity.
Qed.

Lemma rep_affine a b : rep (a, b) (fun t => a + t * b).
Proof.
  apply rep_iff. cbn. split; [ring|].
  intros e He. exists (mkposreal 1 Rlt_0_1). intros h Hh _.
  replace ((a + (0 + h) * b - (a + 0 * b)) / h - b) with 0 by (field; auto). rewrite Rabs_R0. auto.
Qed.

Lemma q_in_good : forall x u v w, Forall goodq (q_in x u v w).
Proof.
  induction x as [|a x IH]; intros [|b u] [|c v] [|d w]; constructor; auto.
  split; unfold q_n, q_p, q_d; cbn.
  - eapply rep_ext_all; [|apply rep_affine]. intros; cbn; ring.
  - apply rep_affine.
  - apply ev_all. intros t. eapply rep_ext_all; [|apply rep_affine]. intros; cbn. ring.
Qed.

Lemma vadd_nil_l h : vadd [] h = [].
Proof. reflexivity. Qed.

Lemma nrm1_vadd : forall x y, nrm1 (vadd x y) <= nrm1 x + nrm1 y.
Proof.
  induction x as [|a x IH]; intros [|b y]; cbn.
  - lra.
  - pose proof (Rabs_pos b). pose proof (nrm1_pos y). lra.
  - pose proof (Rabs_pos a). pose proof (nrm1_pos x). lra.
  - unfold vadd in IH. pose proof (IH y). pose proof (Rabs_triang a b). lra.
Qed.

Definition shift (u v w : list R) (t s : R) : list R :=
  vadd (vscal t u) (vscal s (vadd v (vscal t w))).

Lemma plane_shift : forall x u v w t s,
  length u = length x -> length v = length x -> length w = length x ->
  plane x u v w t s = vadd x (shift u v w t s).
Proof.
  induction x as [|a x IH]; intros [|b u] [|c v] [|d w] t s L1 L2 L3; try discriminate; auto.
  cbn in L1, L2, L3. unfold plane, shift in *. cbn. f_equal; [ring|]. apply IH; lia.
Qed.

Lemma shift_length u v w t s n :
  length u = n -> length v = n -> length w = n -> length (shift u v w t s) = n.
Proof.
  intros <- E1 E2. unfold shift. unfold vadd, vscal.
  rewrite !map_length, !combine_length, !map_length, !combine_length, !map_length. lia.
Qed.

Lemma shift_small u v w d :
  0 < d -> exists e, 0 < e /\ forall t s, Rabs t < e -> Rabs s < e -> nrm1 (shift u v w t s) < d.
Proof.
  intros Hd. set (C := nrm1 u + nrm1 v + nrm1 w + 1).
  pose proof (nrm1_pos u). pose proof (nrm1_pos v). pose proof (nrm1_pos w).
  assert (0 < C) as HC by (unfold C; lra).
  exists (Rmin 1 (d / C)). split.
  { apply Rmin_glb_lt; [lra|]. apply Rdiv_lt_0_compat; lra. }
  intros t s Ht Hs.
  pose proof (Rmin_l 1 (d / C)). pose proof (Rmin_r 1 (d / C)).
  unfold shift. eapply Rle_lt_trans; [apply nrm1_vadd|]. rewrite !nrm1_scal.
  pose proof (nrm1_vadd v (vscal t w)) as Hv. rewrite nrm1_scal in Hv.
  pose proof (Rabs_pos t). pose proof (Rabs_pos s).
  set (m := Rmax (Rabs t) (Rabs s)).
  pose proof (Rmax_l (Rabs t) (Rabs s)). pose proof (Rmax_r (Rabs t) (Rabs s)). fold m in H6, H7.
  assert (m < d / C) as Hm by (unfold m; apply Rmax_lub_lt; lra).
  apply Rle_lt_trans with (m * C).
  - assert (nrm1 (vadd v (vscal t w)) <= nrm1 v + nrm1 w) as Hv'.
    { eapply Rle_trans; [apply Hv|]. assert (Rabs t * nrm1 w <= 1 * nrm1 w); [|lra].
      apply Rmult_le_compat_r; lra. }
    apply Rle_trans with (m * nrm1 u + m * (nrm1 v + nrm1 w)).
    + apply Rplus_le_compat; [apply Rmult_le_compat_r; auto|].
      apply Rmult_le_compat; auto. apply nrm1_pos.
    + unfold C. assert (0 <= m) by lra. nra.
  - apply Rmult_lt_reg_r with (/ C); [apply Rinv_0_lt_compat; auto|].
    rewrite Rmult_assoc, Rinv_r, Rmult_1_r by lra. exact Hm.
Qed.

Lemma q_fop_val oc x y s r s' :
  arity_ok oc y -> q_fop oc x y s = Ok (r, s') ->
  zero_order_value Rops oc (q_val x) (option_map q_val y) = Ok (q_val r).
Proof.
  intros Ha. unfold q_fop.
  assert (arity_ok oc (option_map q_n y)) as Ha' by (destruct y; auto).
  destruct (d_fop D oc _ _ tt) as [[n []]|] eqn:E; [|discriminate]. intros [= <- <-].
  destruct (d_fop_D _ _ _ _ _ Ha' E) as [E1 _].
  unfold q_val at 3, n_val, q_n at 1. cbn [fst]. rewrite E1.
  unfold dop, dual, d_fop, mbind, mlift, mret.
  assert (option_map q_val y = option_map fst (option_map fst (option_map q_n y))) as ->
    by (destruct y; auto).
  change (q_val x) with (fst (fst (q_n x))).
  rewrite zv_ok by (destruct y; auto). rewrite fv_ok by (destruct y; auto). reflexivity.
Qed.

Theorem nested_second_derivative f x u v w ys :
  length u = length x -> length v = length x -> length w = length x ->
  same_branches_near f x -> regular2 f (nested_in x u v w) ->
  nested_eval Rops f (nested_in x u v w) = Ok ys ->
  length ys = length (outputs f x) /\
  forall k y, nth_error ys k = Some y ->
  let g t s := nth k (outputs f (plane x u v w t s)) 0 in
  fst (fst y) = nth k (outputs f x) 0 /\
  derivable_pt_lim (fun t => g t 0) 0 (snd (fst y)) /\
  exists g' : R -> R,
    (exists d, 0 < d /\ forall t, Rabs t < d -> derivable_pt_lim (g t) 0 (g' t)) /\
    fst (snd y) = g' 0 /\
    derivable_pt_lim g' 0 (snd (snd y)).
Proof.
  intros L1 L2 L3 HB HR E.
  pose proof (q_nested f (q_in x u v w)) as HN. rewrite q_in_n in HN.
  destruct (feval Rops q_fop q_cst q_val f (q_in x u v w) tt) as [[zs []]|p] eqn:Ez; [|congruence].
  assert (ys = map q_n zs) as -> by congruence.
  pose proof (nested_family f _ _ HR (q_in_n x u v w) (q_in_good x u v w) zs Ez) as HG.
  assert (exists d, 0 < d /\ forall t s, Rabs t < d -> Rabs s < d ->
            outputs f (plane x u v w t s) = map (fun z => q_p z t s) zs) as (d & Hd & HO).
  { assert (map q_val (q_in x u v w) = x) as Ev.
    { clear - L1 L2 L3. revert u v w L1 L2 L3.
      induction x as [|a x IH]; intros [|b u] [|c v] [|d w] L1 L2 L3; try discriminate; auto.
      cbn in *. f_equal. apply IH; lia. }
    destruct HB as [HS|(d & Hd & HB)].
    - exists 1. split; [lra|]. intros t s _ _. unfold outputs. rewrite eval_float_v.
      pose proof (q_plain f (q_in x u v w) t s HS) as HP. rewrite Ez, q_in_p in HP by auto.
      rewrite HP. reflexivity.
    - destruct (shift_small u v w d Hd) as (e & He & Hs). exists e. split; auto.
      intros t s Ht Hss. unfold outputs. rewrite eval_float_v.
      rewrite plane_shift by auto.
      set (h := shift u v w t s).
      assert (length h = length x) as Lh by (apply shift_length; auto).
      rewrite v_eval_resolve.
      rewrite <- (agree_f_path Rops f x (vadd x h)).
      2: rewrite vadd_length; auto.
      2: apply HB; auto; apply Hs; auto.
      pose proof (q_plain (resolve_f Rops f x) (q_in x u v w) t s (resolve_f_straight Rops f x)) as HP.
      rewrite (feval_resolve Rops q_fop q_cst q_val q_fop_val (fun c => eq_refl)) in Ez.
      rewrite Ev in Ez. rewrite Ez, q_in_p, plane_shift in HP by auto. fold h in HP.
      rewrite HP. reflexivity. }
  assert (plane x u v w 0 0 = x) as P0.
  { rewrite plane_shift by auto. clear - L1 L2 L3. revert u v w L1 L2 L3.
    induction x as [|a x IH]; intros [|b u] [|c v] [|d w] L1 L2 L3; try discriminate; auto.
    cbn in *. unfold shift, vadd, vscal in *. cbn. f_equal; [ring|]. apply IH; lia. }
  assert (outputs f x = map (fun z => q_p z 0 0) zs) as O0.
  { rewrite <- P0. apply HO; rewrite Rabs_R0; auto. }
  split; [rewrite O0, !map_length; auto|].
  intros k y Hk g. rewrite nth_error_map in Hk.
  destruct (nth_error zs k) as [z|] eqn:Ek; [|discriminate]. injection Hk as <-.
  assert (goodq z) as [Gv Gd Gs].
  { rewrite Forall_forall in HG. apply HG. eapply nth_error_In; eauto. }
  assert (forall t s, nth k (map (fun z => q_p z t s) zs) 0 = q_p z t s) as Hn.
  { intros t s. apply nth_error_nth. rewrite nth_error_map, Ek. auto. }
  assert (forall t s, Rabs t < d -> Rabs s < d -> g t s = q_p z t s) as Hg.
  { intros t s Ht Hs. unfold g. rewrite HO by auto. apply Hn. }
  pose proof Rabs_R0 as R0. split; [|split].
  - rewrite O0, Hn. apply rep_iff in Gv. symmetry. apply Gv.
  - assert (rep (fst (q_n z)) (fun t => g t 0)) as H.
    { eapply rep_ext; [|apply Gv]. exists d. split; auto. intros t Ht. symmetry. apply Hg; auto.
      lra. }
    apply rep_iff in H. apply H.
  - exists (q_d z). split; [|split].
    + destruct Gs as (e & He & Gs). exists (Rmin d e). split; [apply Rmin_glb_lt; auto|].
      intros t Ht. pose proof (Rmin_l d e). pose proof (Rmin_r d e).
      assert (rep (q_p z t 0, q_d z t) (g t)) as H1.
      { eapply rep_ext; [|apply Gs; lra]. exists d. split; auto. intros s Hs. symmetry. apply Hg; lra. }
      apply rep_iff in H1. apply H1.
    + apply rep_iff in Gd. symmetry. apply Gd.
    + apply rep_iff in Gd. apply Gd.
Qed.

(** One input, one direction: the second derivative. *)
Corollary nested_one_input f x y :
  same_branches_near f [x] -> regular2 f [((x, 1), (1, 0))] ->
  nested_eval Rops f [((x, 1), (1, 0))] = Ok [y] ->
  let g s := nth 0 (outputs f [s]) 0 in
  fst (fst y) = g x /\ derivable_pt_lim g x (snd (fst y)) /\ fst (snd y) = snd (fst y) /\
  exists g' : R -> R,
    (exists d, 0 < d /\ forall t, Rabs (t - x) < d -> derivable_pt_lim g t (g' t)) /\
    derivable_pt_lim g' x (snd (snd y)).
Proof.
  intros HB HR E g.
  destruct (nested_second_derivative f [x] [1] [1] [0] [y]) as [_ H]; auto.
  destruct (H 0%nat y eq_refl) as (H1 & H2 & g1 & (d & Hd & H3) & H4 & H5). clear H.
  assert (forall t s, nth 0 (outputs f (plane [x] [1] [1] [0] t s)) 0 = g (x + t + s)) as Eg.
  { intros t s. unfold g. f_equal. f_equal. unfold plane, vadd, vscal. cbn. f_equal. ring. }
  assert (forall h l a, derivable_pt_lim (fun s => h (a + s)) 0 l -> derivable_pt_lim h a l) as Hsh.
  { intros h l a Hh e He. destruct (Hh e He) as (d0 & Hd0). exists d0. intros s Hs Hsd.
    specialize (Hd0 s Hs Hsd). rewrite Rplus_0_l, Rplus_0_r in Hd0. exact Hd0. }
  assert (derivable_pt_lim g x (snd (fst y))) as D1.
  { apply Hsh. eapply d_ext; [|apply H2]. intros t. cbn beta. rewrite Eg. f_equal. ring. }
  assert (forall t, Rabs t < d -> derivable_pt_lim g (x + t) (g1 t)) as D2.
  { intros t Ht. apply Hsh. eapply d_ext; [|apply (H3 t Ht)]. intros s. cbn beta. rewrite Eg. auto. }
  split; [exact H1|]. split; [exact D1|]. split.
  - rewrite H4. specialize (D2 0). rewrite Rabs_R0, Rplus_0_r in D2.
    apply (uniqueness_limite g x); auto.
  - exists (fun t => g1 (t - x)). split.
    + exists d. split; auto. intros t Ht. replace t with (x + (t - x)) at 1 by ring. apply D2. auto.
    + apply Hsh. eapply d_ext; [|apply H5]. intros t. cbn. f_equal. ring.
Qed.

(** ** The inner level is the arithmetic of AFloats without context *)
Definition det {F : Type} (x : F * F) : AF F := af_new (fst x) (snd x).

Lemma Dops_is_afloat {F G : Type} (Fo : Fops F) (tof : F -> option G) (w : world G) (x y : F * F) (n : Z) :
  let op := from_op Fo tof in let cst := af_const Fo in let D := Dops Fo in
  m_add op (det x) (det y) w = Ok (det (f_add D x y), w) /\
  m_sub op (det x) (det y) w = Ok (det (f_sub D x y), w) /\
  m_mul op (det x) (det y) w = Ok (det (f_mul D x y), w) /\
  m_div op (det x) (det y) w = Ok (det (f_div D x y), w) /\
  m_powf op (det x) (det y) w = Ok (det (f_powf D x y), w) /\
  m_neg Fo op cst (det x) w = Ok (det (f_neg D x), w) /\
  m_abs op (det x) w = Ok (det (f_abs D x), w) /\
  m_sin op (det x) w = Ok (det (f_sin D x), w) /\
  m_cos op (det x) w = Ok (det (f_cos D x), w) /\
  m_tan op (det x) w = Ok (det (f_tan D x), w) /\
  m_exp op (det x) w = Ok (det (f_exp D x), w) /\
  m_ln op (det x) w = Ok (det (f_ln D x), w) /\
  m_asin op (det x) w = Ok (det (f_asin D x), w) /\
  m_acos op (det x) w = Ok (det (f_acos D x), w) /\
  m_atan op (det x) w = Ok (det (f_atan D x), w) /\
  m_sqrt Fo op cst (det x) w = Ok (det (f_sqrt D x), w) /\
  m_powi Fo op cst (det x) n w = Ok (det (f_powi D x n), w) /\
  (cst (f_zero Fo) = det (f_zero D) /\ cst (f_one Fo) = det (f_one D) /\
   cst (f_half Fo) = det (f_half D) /\ cst (f_of_Z Fo n) = det (f_of_Z D n)) /\
  (af_eqb Fo (det x) (det y) = f_eqb D x y /\ af_ltb Fo (det x) (det y) = f_ltb D x y).
Proof. cbv zeta. repeat split; reflexivity. Qed.

(** ** sqrt(x * x + 1): the second derivative at 0 is 1 *)
Definition nx_sqrt {F : Type} (one : F) : func F :=
  AdvFn 1 1 (Let2 BMul 0 0 (LetC one (Let2 BAdd 1 2 (Let1 USqrt 3 (Ret [4]%nat))))).

Lemma nx_sqrt_out s : outputs (nx_sqrt 1) [s] = [sqrt (s * s + 1)].
Proof.
  unfold outputs. rewrite eval_float_v. cbn -[Rpowf].
  rewrite Rpowf_pos by nra. rewrite Rpower_sqrt by nra. reflexivity.
Qed.

Lemma nx_sqrt_nested {F : Type} (Fo : Fops F) (one : F) y x u v w :
  nested_eval Fo (nx_sqrt one) [((x, u), (v, w))] = Ok [y] -> 
  f_eqb Fo (f_add Fo (f_add Fo (f_mul Fo v x) (f_mul Fo x v)) (f_zero Fo)) (f_zero Fo) = true ->
  f_eqb Fo (f_zero Fo) (f_zero Fo) = true ->
  snd y = f_add (Dops Fo) (f_zero (Dops Fo)) (f_zero (Dops Fo)).
Proof.
  rewrite nested_eval_eq. intros [= <-] E E0. cbn. rewrite E, E0. reflexivity.
Qed.

Lemma nx_sqrt_d1 t : derivable_pt_lim (fun s => sqrt (s * s + 1)) t (t / sqrt (t * t + 1)).
Proof.
  assert (0 < t * t + 1) as Hp by nra.
  pose proof (sqrt_lt_R0 _ Hp).
  replace (t / sqrt (t * t + 1)) with (/ (2 * sqrt (t * t + 1)) * (t + t)) by (field; lra).
  apply (derivable_pt_lim_comp (fun s => s * s + 1) sqrt).
  - intros e He. exists (mkposreal e He). intros h Hh Hhe. cbn in Hhe.
    replace (((t + h) * (t + h) + 1 - (t * t + 1)) / h - (t + t)) with h by (field; auto). auto.
  - apply derivable_pt_lim_sqrt. auto.
Qed.

Lemma nx_sqrt_d2 : derivable_pt_lim (fun t => t / sqrt (t * t + 1)) 0 1.
Proof.
  pose proof (derivable_pt_lim_div (fun t => t) (fun t => sqrt (t * t + 1)) 0 1
                (0 / sqrt (0 * 0 + 1)) (derivable_pt_lim_id 0) (nx_sqrt_d1 0)) as H.
  cbn beta in H. replace (0 * 0 + 1) with 1 in H by ring. rewrite sqrt_1 in H.
  specialize (H ltac:(lra)).
  replace ((1 * 1 - 0 / 1 * 0) / 1²) with 1 in H by (unfold Rsqr; field).
  exact H.
Qed.
