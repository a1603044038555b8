(** Second derivatives by nested AFloats. *)
From Coq Require Import Reals Lra List Arith ZArith Bool Lia.
From Verif Require Import Base Float Operation Tape AContext Methods Function Spec Param TapeFacts
  Instances FunctionFacts ReplayFacts ApiFacts3 Replay2 RealInst Approx DerivSpec DerivFacts
  LinearFacts DerivFacts2 Nested NestedSpec.
Import ListNotations.
Open Scope R_scope.

(** [x] is the value and the derivative at 0 of [phi]. *)
Definition rep (x : R * R) (phi : R -> R) : Prop := approx Rabs (fst x) phi (fun h => snd x * h).

Lemma bo_lin b : bo Rabs (fun h => b * h).
Proof.
  exists (Rabs b). split; [apply Rabs_pos|]. apply ev_all. intros h. rewrite Rabs_mult. lra.
Qed.

Lemma rep_iff x phi : rep x phi <-> phi 0 = fst x /\ derivable_pt_lim phi 0 (snd x).
Proof.
  unfold rep. split.
  - intros [H _].
    assert (phi 0 = fst x) as E0.
    { destruct (H 1 Rlt_0_1) as (d & Hd & H0). specialize (H0 0).
      rewrite Rabs_R0 in H0. specialize (H0 Hd).
      replace (phi 0 - fst x - snd x * 0) with (phi 0 - fst x) in H0 by ring.
      destruct (Req_dec (phi 0 - fst x) 0) as [|Hn]; [lra|].
      pose proof (Rabs_pos_lt _ Hn). lra. }
    split; auto. intros e He. destruct (H (e / 2)) as (d & Hd & H0); [lra|].
    exists (mkposreal d Hd). intros h Hh Hhd. cbn in Hhd. specialize (H0 h Hhd).
    rewrite Rplus_0_l, E0.
    replace ((phi h - fst x) / h - snd x) with ((phi h - fst x - snd x * h) / h) by (field; auto).
    unfold Rdiv. rewrite Rabs_mult, Rabs_inv by auto.
    pose proof (Rabs_pos_lt _ Hh) as Hp.
    apply Rmult_lt_reg_r with (Rabs h); auto. rewrite Rmult_assoc, Rinv_l, Rmult_1_r by lra.
    apply Rle_lt_trans with (1 := H0). apply Rmult_lt_compat_r; auto. lra.
  - intros [E0 H]. split; [|apply bo_lin].
    intros e He. destruct (H e He) as (d & H0). exists d. split; [apply cond_pos|].
    intros h Hhd. destruct (Req_dec h 0) as [->|Hh].
    + rewrite E0. replace (fst x - fst x - snd x * 0) with 0 by ring.
      rewrite Rabs_R0. lra.
    + specialize (H0 h Hh Hhd). rewrite Rplus_0_l, E0 in H0.
      replace (phi h - fst x - snd x * h) with (((phi h - fst x) / h - snd x) * h) by (field; auto).
      rewrite Rabs_mult. apply Rmult_le_compat_r; [apply Rabs_pos|lra].
Qed.

Lemma rep_ext x phi psi : ev Rabs (fun h => phi h = psi h) -> rep x phi -> rep x psi.
Proof. intros E H. eapply approx_ext; [apply E| |apply H]. apply ev_all. auto. Qed.

Lemma rep_ext_all x phi psi : (forall h, phi h = psi h) -> rep x phi -> rep x psi.
Proof. intros E. apply rep_ext. apply ev_all. auto. Qed.

Lemma rep_cst c : rep (c, 0) (fun _ => c).
Proof.
  eapply approx_ext; [| |apply (approx_const Rabs Rabs_pos c)]; apply ev_all; auto.
  intros; cbn; ring.
Qed.

(** The operations of [Dops Rops] are derivatives. *)
Definition dop (oc : OpCode) (x : R * R) (y : option (R * R)) : R * R :=
  dual Rops (d_fop Rops oc x y).

Lemma fv_lin oc a b d e h :
  oc <> Abs ->
  fv oc a b (d * h) (option_map (fun e => e * h) e) = fv oc a b d e * h.
Proof.
  intros NA.
  assert (forall c d, (if negb (Reqb d 0) then c * d else 0) = c * d) as Hif.
  { intros c d0. destruct (Reqb d0 0) eqn:Ed; cbn; auto. apply Reqb_true in Ed. subst. ring. }
  unfold fv. destruct oc; cbn -[powerRZ]; try congruence; try ring;
    try (destruct b as [b|]; cbn -[powerRZ]; try ring);
    try (destruct e as [e|]; cbn -[powerRZ]; try ring; rewrite ?Hif); unfold Rdiv; ring.
Qed.

Definition stillr (x : R * R) (phi : R -> R) : Prop := snd x = 0 /\ forall h, phi h = fst x.

Lemma rep_op oc x phi (y : option ((R * R) * (R -> R))) :
  arity_ok oc y -> oc <> Abs ->
  in_domain oc (fst x) (option_map (fun z => fst (fst z)) y) false \/
  (in_domain oc (fst x) (option_map (fun z => fst (fst z)) y) true /\
   forall z, y = Some z -> stillr (fst z) (snd z)) ->
  rep x phi -> (forall z, y = Some z -> rep (fst z) (snd z)) ->
  rep (dop oc x (option_map fst y)) (fun h => zv oc (phi h) (option_map (fun z => snd z h) y)).
Proof.
  intros Ha NA HD Hx Hy.
  set (X := (fst x, phi, fun h => snd x * h) : V3 (T := R)).
  set (Y := option_map (fun z : (R * R) * (R -> R) =>
                          (fst (fst z), snd z, fun h => snd (fst z) * h) : V3 (T := R)) y).
  assert (option_map v3a Y = option_map (fun z => fst (fst z)) y) as EY by (destruct y; auto).
  assert (arity_ok oc Y) as HaY by (destruct y; auto).
  destruct (c_fop oc X Y tt) as [[r []]|p] eqn:E.
  2: { unfold c_fop in E.
       destruct (zero_order_value_total Rops oc (v3a X) (option_map v3a Y)) as [r0 E0].
       { unfold Y. destruct y; cbn in Ha |- *; [right; split; auto; discriminate|auto]. }
       rewrite E0 in E. discriminate. }
  assert (good Rabs r) as G.
  { apply (op_good Rabs Rabs_pos oc X Y r tt); auto.
    - rewrite EY. destruct HD as [HD|[HD HS]]; [auto|]. right. split; auto.
      intros z Ez. unfold Y in Ez. destruct y as [z0|]; [|discriminate]. injection Ez as <-.
      destruct (HS z0 eq_refl) as [S1 S2]. intros h. cbn. split; [apply S2|]. unfold v3d; cbn.
      rewrite S1. ring.
    - intros z Ez. unfold Y in Ez. destruct y as [z0|]; [|discriminate]. injection Ez as <-.
      apply (Hy z0 eq_refl). }
  unfold c_fop in E.
  destruct (zero_order_value Rops oc (v3a X) (option_map v3a Y)) as [r0|] eqn:E0; [|discriminate].
  injection E as <-. unfold good, v3a, v3p, v3d in G. cbn [fst snd] in G.
  unfold rep, dop, dual, d_fop, mbind, mlift.
  assert (option_map fst (option_map fst y) = option_map v3a Y) as E1 by (destruct y; auto).
  rewrite E1. change (fst x) with (v3a X). rewrite E0. change (v3a X) with (fst x).
  destruct (first_order_value_total Rops oc (fst x) (option_map v3a Y) (snd x)
              (option_map snd (option_map fst y))) as [d Ed].
  { unfold Y. destruct y; cbn in Ha |- *; [right; repeat split; auto; discriminate|auto]. }
  rewrite Ed. cbn [fst snd mret].
  eapply approx_ext; [| |apply G]; apply ev_all; intros h.
  - f_equal. unfold Y. destruct y; auto.
  - transitivity (fv oc (fst x) (option_map v3a Y) (snd x) (option_map snd (option_map fst y)) * h).
    + rewrite <- fv_lin by auto. f_equal. unfold Y. destruct y; auto.
    + unfold fv. rewrite Ed. reflexivity.
Qed.

Lemma rep_un oc x phi :
  unary_oc oc = true -> oc <> Abs -> in_domain oc (fst x) None false -> rep x phi ->
  rep (dop oc x None) (fun h => zv oc (phi h) None).
Proof. intros. apply (rep_op oc x phi None); cbn; auto. discriminate. Qed.

Lemma rep_bin oc x phi y chi :
  binary_oc oc = true ->
  in_domain oc (fst x) (Some (fst y)) false \/
    (in_domain oc (fst x) (Some (fst y)) true /\ stillr y chi) ->
  rep x phi -> rep y chi ->
  rep (dop oc x (Some y)) (fun h => zv oc (phi h) (Some (chi h))).
Proof.
  intros Hb HD Hx Hy. apply (rep_op oc x phi (Some (y, chi))); cbn; auto.
  - destruct oc; discriminate.
  - destruct HD as [|[? ?]]; auto. right. split; auto. intros z [= <-]. auto.
  - intros z [= <-]. auto.
Qed.

Notation D := (Dops Rops).

Lemma rep_add x phi y chi :
  rep x phi -> rep y chi -> rep (f_add D x y) (fun h => phi h + chi h).
Proof. intros Hx Hy. apply (rep_bin Add x phi y chi); cbn; auto. Qed.
Lemma rep_sub x phi y chi :
  rep x phi -> rep y chi -> rep (f_sub D x y) (fun h => phi h - chi h).
Proof. intros Hx Hy. apply (rep_bin Sub x phi y chi); cbn; auto. Qed.
Lemma rep_mul x phi y chi :
  rep x phi -> rep y chi -> rep (f_mul D x y) (fun h => phi h * chi h).
Proof. intros Hx Hy. apply (rep_bin Mul x phi y chi); cbn; auto. Qed.
Lemma rep_div x phi y chi :
  fst y <> 0 -> rep x phi -> rep y chi -> rep (f_div D x y) (fun h => phi h / chi h).
Proof.
  intros Hn Hx Hy. apply (rep_bin Div x phi y chi); auto. left. cbn. intros ? [= <-]; auto.
Qed.
Lemma rep_sin x phi : rep x phi -> rep (f_sin D x) (fun h => sin (phi h)).
Proof. intros Hx. apply (rep_un Sin x phi); cbn; auto; discriminate. Qed.
Lemma rep_cos x phi : rep x phi -> rep (f_cos D x) (fun h => cos (phi h)).
Proof. intros Hx. apply (rep_un Cos x phi); cbn; auto; discriminate. Qed.
Lemma rep_exp x phi : rep x phi -> rep (f_exp D x) (fun h => exp (phi h)).
Proof. intros Hx. apply (rep_un Exp x phi); cbn; auto; discriminate. Qed.
Lemma rep_ln x phi : 0 < fst x -> rep x phi -> rep (f_ln D x) (fun h => ln (phi h)).
Proof. intros Hp Hx. apply (rep_un Ln x phi); cbn; auto; discriminate. Qed.
Lemma rep_neg x phi : rep x phi -> rep (f_neg D x) (fun h => - phi h).
Proof.
  intros Hx.
  assert (f_neg D x = f_mul D (f_sub D (f_zero D) (f_one D)) x) as -> by reflexivity.
  eapply rep_ext_all; [|apply rep_mul; [apply rep_sub; [apply (rep_cst 0)|apply (rep_cst 1)]|apply Hx]].
  intros h. cbn. ring.
Qed.
Lemma rep_powf x phi y chi :
  0 < fst x \/ (stillr y chi /\ exists n, fst y = IZR n /\ (fst x <> 0 \/ (1 <= n)%Z)) ->
  rep x phi -> rep y chi -> rep (f_powf D x y) (fun h => Rpowf (phi h) (chi h)).
Proof.
  intros HD Hx Hy. apply (rep_bin Powf x phi y chi); auto.
  destruct HD as [HD|[HS (n & En & Hn)]].
  - left. cbn. intros ? [= <-]; auto.
  - right. split; auto. cbn. intros ? [= <-]. right. split; auto. exists n; auto.
Qed.
Lemma rep_sq x phi : rep x phi -> rep (f_powi D x 2) (fun h => powerRZ (phi h) 2).
Proof.
  intros Hx.
  assert (f_powi D x 2 = f_powf D x (IZR 2, 0)) as -> by reflexivity.
  eapply rep_ext_all; [|apply rep_powf; [|apply Hx|apply (rep_cst (IZR 2))]].
  - intros h. apply Rpowf_int.
  - right. split; [split; auto|]. exists 2%Z. split; auto. right. lia.
Qed.

Lemma rep_ev_pos x phi : rep x phi -> 0 < fst x -> ev Rabs (fun h => 0 < phi h).
Proof.
  intros H Hp. eapply ev_imp; [|apply (bo_small Rabs Rabs_pos _ (approx_bo _ _ _ _ H) (fst x) Hp)].
  cbn. intros h Hh. apply Rabs_def2 in Hh. lra.
Qed.
Lemma rep_ev_nz x phi : rep x phi -> fst x <> 0 -> ev Rabs (fun h => phi h <> 0).
Proof.
  intros H Hp. pose proof (Rabs_pos_lt _ Hp) as Hq.
  eapply ev_imp; [|apply (bo_small Rabs Rabs_pos _ (approx_bo _ _ _ _ H) (Rabs (fst x)) Hq)].
  cbn. intros h Hh E. rewrite E in Hh. unfold Rminus in Hh. rewrite Rplus_0_l, Rabs_Ropp in Hh. lra.
Qed.

Lemma rep_sqrt x phi : 0 < fst x -> rep x phi -> rep (f_sqrt D x) (fun h => sqrt (phi h)).
Proof.
  intros Hp Hx.
  assert (f_sqrt D x = f_powf D x (/ 2, 0)) as -> by reflexivity.
  eapply rep_ext; [|apply rep_powf; [|apply Hx|apply (rep_cst (/ 2))]]; [|auto].
  eapply ev_imp; [|apply (rep_ev_pos _ _ Hx Hp)]. cbn. intros h Hh.
  rewrite Rpowf_pos by auto. apply Rpower_sqrt; auto.
Qed.

Lemma sq_lt_1 a : -1 < a < 1 -> 0 < 1 - powerRZ a 2.
Proof. intros H. rewrite powerRZ_2. nra. Qed.

Lemma fst_powi2 x : fst (f_powi D x 2) = powerRZ (fst x) 2.
Proof. cbn -[powerRZ]. apply (Rpowf_int (fst x) 2). Qed.

Lemma Ok_eq {A} (a b : A) : Ok a = Ok b -> a = b.
Proof. congruence. Qed.

(** The derivative rules, read on pairs, are the derivatives of the rules. *)
Lemma rep_rule oc x phi d psi (y e : option ((R * R) * (R -> R))) r :
  arity_ok oc y -> arity_ok oc e ->
  let X : N2 := (x, d) in
  let Y : option N2 := match y, e with Some y, Some e => Some (fst y, fst e) | _, _ => None end in
  in_domain2 oc X Y false \/
  (in_domain2 oc X Y true /\ (forall z, y = Some z -> stillr (fst z) (snd z)) /\
   (forall z, e = Some z -> fst z = (0, 0) /\ forall h, snd z h = 0)) ->
  rep x phi -> rep d psi ->
  (forall z, y = Some z -> rep (fst z) (snd z)) -> (forall z, e = Some z -> rep (fst z) (snd z)) ->
  first_order_value D oc x (option_map fst y) d (option_map fst e) = Ok r ->
  rep r (fun h => fv oc (phi h) (option_map (fun z => snd z h) y) (psi h)
                     (option_map (fun z => snd z h) e)).
Proof.
  intros Hay Hae X Y HD Hx Hd Hy He E.
  assert (forall z, y = Some z -> rep (fst z) (snd z)) as Hy1 by auto.
  assert (forall z, e = Some z -> rep (fst z) (snd z)) as He1 by auto.
  destruct oc; cbn in Hay, Hae; destruct y as [y|]; try discriminate;
    destruct e as [e|]; try discriminate;
    try specialize (Hy1 _ eq_refl); try specialize (He1 _ eq_refl);
    cbn [first_order_value option_map unwrap bind] in E; try discriminate;
    apply Ok_eq in E; subst r.
  - apply rep_add; auto.
  - apply rep_sub; auto.
  - apply rep_add; apply rep_mul; auto.
  - (* div *)
    assert (fst (fst y) <> 0) as Hn.
    { destruct HD as [HD|[HD _]]; apply (HD _ eq_refl). }
    apply rep_div.
    + rewrite fst_powi2, powerRZ_2. nra.
    + apply rep_sub; apply rep_mul; auto.
    + apply rep_sq; auto.
  - apply rep_mul; auto. apply rep_cos; auto.
  - apply rep_mul; [apply rep_neg|apply rep_sin]; auto.
  - (* tan *)
    assert (cos (fst x) <> 0) as Hn by (destruct HD as [HD|[HD _]]; apply HD).
    apply rep_mul; auto. apply rep_div; [|apply (rep_cst 1)|apply rep_sq, rep_cos; auto].
    rewrite fst_powi2, powerRZ_2. cbn. nra.
  - destruct HD as [[]|[[] _]].
  - apply rep_mul; auto. apply rep_exp; auto.
  - assert (0 < fst x) as Hn by (destruct HD as [HD|[HD _]]; apply HD).
    apply rep_mul; auto. apply rep_div; [lra|apply (rep_cst 1)|auto].
  - assert (-1 < fst x < 1) as Hn by (destruct HD as [HD|[HD _]]; apply HD).
    pose proof (sq_lt_1 _ Hn) as Hq. rewrite <- fst_powi2 in Hq.
    assert (0 < fst (f_sub D (f_one D) (f_powi D x 2))) as Hq' by exact Hq.
    apply rep_div; auto.
    + assert (rep (f_sqrt D (f_sub D (f_one D) (f_powi D x 2)))
               (fun h => sqrt (1 - powerRZ (phi h) 2))) as Hs.
      { apply rep_sqrt; auto. apply rep_sub; [apply (rep_cst 1)|apply rep_sq; auto]. }
      apply rep_iff in Hs as [Hs _]. apply rep_iff in Hx as [Hx0 _]. rewrite <- Hs, Hx0.
      rewrite <- fst_powi2. pose proof (sqrt_lt_R0 _ Hq). lra.
    + apply rep_sqrt; auto. apply rep_sub; [apply (rep_cst 1)|apply rep_sq; auto].
  - assert (-1 < fst x < 1) as Hn by (destruct HD as [HD|[HD _]]; apply HD).
    pose proof (sq_lt_1 _ Hn) as Hq. rewrite <- fst_powi2 in Hq.
    assert (0 < fst (f_sub D (f_one D) (f_powi D x 2))) as Hq' by exact Hq.
    apply rep_div; auto using rep_neg.
    + assert (rep (f_sqrt D (f_sub D (f_one D) (f_powi D x 2)))
               (fun h => sqrt (1 - powerRZ (phi h) 2))) as Hs.
      { apply rep_sqrt; auto. apply rep_sub; [apply (rep_cst 1)|apply rep_sq; auto]. }
      apply rep_iff in Hs as [Hs _]. apply rep_iff in Hx as [Hx0 _]. rewrite <- Hs, Hx0.
      rewrite <- fst_powi2. pose proof (sqrt_lt_R0 _ Hq). lra.
    + apply rep_sqrt; auto. apply rep_sub; [apply (rep_cst 1)|apply rep_sq; auto].
  - apply rep_div; auto.
    + assert (fst (f_add D (f_one D) (f_powi D x 2)) = 1 + fst (f_powi D x 2)) as -> by reflexivity.
      rewrite fst_powi2, powerRZ_2. nra.
    + apply rep_add; [apply (rep_cst 1)|apply rep_sq; auto].
  - (* powf *)
    destruct y as [y chi], e as [e eta]. cbn [fst snd option_map] in *.
    assert (forall c d, (if negb (Reqb d 0) then c * d else 0) = c * d) as Hif.
    { intros c d0. destruct (Reqb d0 0) eqn:Ed; cbn; auto. apply Reqb_true in Ed. subst. ring. }
    assert (forall p q, (fst q = 0 -> snd q = 0) ->
              (if negb (f_eqb D q (f_zero D)) then f_mul D p q else f_zero D) = f_mul D p q) as HifD.
    { intros [p1 p2] [q1 q2] Hz. cbn in *. destruct (Reqb q1 0) eqn:Eq; cbn; auto.
      apply Reqb_true in Eq. subst. rewrite Hz by auto. unfold d_cst. cbn. f_equal; ring. }
    assert ((fst d = 0 -> snd d = 0) /\ (fst e = 0 -> snd e = 0)) as [Zd Ze].
    { destruct HD as [HD|[HD _]]; destruct (HD _ eq_refl) as (_ & A & B); auto. }
    rewrite !HifD by auto.
    eapply rep_ext_all with (phi := fun h =>
      (chi h * Rpowf (phi h) (chi h - 1)) * psi h + (ln (phi h) * Rpowf (phi h) (chi h)) * eta h).
    { intros h. unfold fv. cbn -[Rpowf]. rewrite !Hif. reflexivity. }
    assert (0 < fst x \/ (stillr y chi /\ e = (0, 0) /\ (forall h, eta h = 0) /\
              exists n, fst y = IZR n /\ (fst x <> 0 \/ (2 <= n)%Z))) as [Hp|Hint].
    { destruct HD as [HD|[HD (HS & HE)]].
      - destruct (HD _ eq_refl) as [[Hp|[Hf _]] _]; [auto|discriminate].
      - destruct (HD _ eq_refl) as [[Hp|[_ (n & En & Hn)]] _]; [auto|].
        right. split; [apply (HS _ eq_refl)|]. destruct (HE _ eq_refl) as [E1 E2].
        split; [exact E1|]. split; [exact E2|]. exists n; auto. }
    + apply rep_add.
      * apply rep_mul; auto. apply rep_mul; auto. apply rep_powf; auto.
        apply rep_sub; auto. apply (rep_cst 1).
      * apply rep_mul; auto. apply rep_mul; [apply rep_ln; auto|apply rep_powf; auto].
    + destruct Hint as (Sy & Ee & Eeta & n & En & Hn).
      apply rep_add.
      * apply rep_mul; auto. apply rep_mul; auto. apply rep_powf; auto.
        -- right. split.
           ++ destruct Sy as [S1 S2]. split; [|intros h; rewrite S2; reflexivity].
              cbn. rewrite S1. ring.
           ++ exists (n - 1)%Z. split; [|destruct Hn; [auto|right; lia]].
              rewrite minus_IZR, <- En. reflexivity.
        -- apply rep_sub; auto. apply (rep_cst 1).
      * subst e. eapply rep_ext_all with (phi := fun _ => 0).
        { intros h. rewrite Eeta. ring. }
        assert (f_mul D (f_mul D (f_ln D x) (f_powf D x y)) (0, 0) = (0, 0)) as ->.
        { cbn. unfold dual; cbn. f_equal; ring. }
        apply (rep_cst 0).
Qed.
