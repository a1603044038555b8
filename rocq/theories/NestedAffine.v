(** Nested AFloats on piecewise affine functions: exact second differences. *)
From Coq Require Import Reals Lra List Arith ZArith Bool Lia SpecFloat.
From Verif Require Import Base Float FloatInst Operation Tape AContext Methods Function Spec Param TapeFacts
  Instances FunctionFacts ReplayFacts ApiFacts3 Replay2 RealInst Approx DerivSpec DerivFacts
  LinearFacts DerivFacts2 Nested NestedSpec NestedFacts NestedMain.
Import ListNotations.
Open Scope R_scope.

(** The nested value holds the differences of the values at the four corners. *)
Definition exactq (x : V5) : Prop :=
  q_n x = ((q_p x 0 0, q_p x 1 0 - q_p x 0 0),
           (q_p x 0 1 - q_p x 0 0, q_p x 1 1 - q_p x 0 1 - q_p x 1 0 + q_p x 0 0)).

Lemma stillq_exact x : stillq x -> exactq x.
Proof.
  intros (c & E & P & _). unfold exactq. rewrite E, !P. f_equal; f_equal; ring.
Qed.

Lemma stillq_abs x r s : stillq x -> q_fop Abs x None tt = Ok (r, s) -> stillq r.
Proof.
  intros (c & E & P & Q) H. unfold q_p, q_d in P, Q. unfold q_fop in H. cbn [option_map] in H. rewrite E in H.
  cbn in H. unfold dual in H. cbn in H. injection H as <- _.
  exists (Rabs c). unfold q_n, q_p, q_d. cbn [fst snd].
  split; [|split].
  - rewrite ?Rplus_0_r. f_equal; f_equal; ring.
  - intros t s0. unfold zv. cbn. rewrite P. reflexivity.
  - intros t. unfold fv. cbn. rewrite P, Q. cbn. rewrite Rplus_0_r. ring.
Qed.

Lemma stillq_op' oc x y r s :
  arity_ok oc y -> stillq x -> (forall z, y = Some z -> stillq z) -> q_fop oc x y tt = Ok (r, s) ->
  stillq r.
Proof.
  intros Ha Hx Hy E.
  assert (oc = Abs \/ oc <> Abs) as [->|N] by (destruct oc; auto; right; discriminate).
  - destruct y; [discriminate|]. eapply stillq_abs; eauto.
  - eapply stillq_op; eauto.
Qed.

Lemma op_exactq oc x y r s xc yc :
  arity_ok oc y -> affine_op oc xc yc (option_map q_val y) ->
  (xc = true -> stillq x) -> (yc = true -> forall z, y = Some z -> stillq z) ->
  exactq x -> (forall z, y = Some z -> exactq z) ->
  q_fop oc x y tt = Ok (r, s) -> exactq r.
Proof.
  intros Ha HA Sx Sy Ex Ey E.
  assert ((xc = true /\ yc = true -> stillq r)) as Hst.
  { intros [-> ->]. eapply stillq_op'; eauto. }
  destruct oc; cbn in Ha; try (destruct y; discriminate); cbn [affine_op] in HA;
    try (apply stillq_exact, Hst; exact HA);
    (destruct y as [z|]; [try discriminate; specialize (Ey z eq_refl)|try discriminate]).
  - unfold q_fop in E. cbn [option_map] in E. rewrite Ex, Ey in E. cbn in E.
    unfold dual in E. cbn in E. injection E as <- _.
    unfold exactq, q_n, q_p. cbn [fst snd]. fold (q_p x) (q_p z). unfold zv; cbn.
    f_equal; f_equal; unfold q_p; ring.
  - unfold q_fop in E. cbn [option_map] in E. rewrite Ex, Ey in E. cbn in E.
    unfold dual in E. cbn in E. injection E as <- _.
    unfold exactq, q_n, q_p. cbn [fst snd]. unfold zv; cbn.
    f_equal; f_equal; unfold q_p; ring.
  - unfold q_fop in E. cbn [option_map] in E. destruct HA as [->| ->].
    + destruct (Sx eq_refl) as (c & Ec & Pc & _). rewrite Ec, Ey in E. cbn in E.
      unfold dual in E. cbn in E. injection E as <- _.
      unfold exactq, q_n. unfold q_p at 1 2 3 5 6 8. cbn [fst snd]. unfold zv; cbn.
      rewrite ?Pc. f_equal; f_equal; unfold q_p; ring.
    + destruct (Sy eq_refl z eq_refl) as (c & Ec & Pc & _). rewrite Ec, Ex in E. cbn in E.
      unfold dual in E. cbn in E. injection E as <- _.
      unfold exactq, q_n. cbn [fst snd]. unfold zv; cbn.
      f_equal; f_equal; unfold q_p in *; cbn; rewrite ?Pc; ring.
  - unfold q_fop in E. cbn [option_map] in E. destruct HA as [-> HA].
    destruct (Sy eq_refl z eq_refl) as (c & Ec & Pc & _).
    assert (c <> 0) as Hc by (unfold q_val in HA; cbn in HA; rewrite Ec in HA; cbn in HA; congruence).
    assert (Rpowf c 2 = c * c) as P2.
    { rewrite (Rpowf_int c 2). apply powerRZ_2. }
    assert (Reqb 0 0 = true) as R00 by (apply Reqb_true; auto).
    rewrite Ec, Ex in E. cbn -[powerRZ] in E.
    unfold dual in E. cbn -[powerRZ] in E. unfold dual in E. cbn -[powerRZ] in E. injection E as <- _.
    unfold exactq, q_n. cbn [fst snd]. unfold zv; cbn -[powerRZ].
    rewrite ?powerRZ_2.
    f_equal; f_equal; unfold q_p in *; cbn -[powerRZ]; rewrite ?Pc, ?powerRZ_2, ?R00; cbn [negb];
      rewrite ?P2; field; auto.
  - unfold q_fop in E. cbn [option_map] in E. rewrite Ex in E. cbn in E.
    unfold dual in E. cbn in E. injection E as <- _.
    unfold exactq, q_n, q_p. cbn [fst snd]. unfold zv; cbn.
    f_equal; f_equal; unfold q_p.
    all: replace (snd (fst x) 0 0 + (snd (fst x) 1 0 - snd (fst x) 0 0)) with (snd (fst x) 1 0) by ring;
      replace (snd (fst x) 0 0 + (snd (fst x) 0 1 - snd (fst x) 0 0)) with (snd (fst x) 0 1) by ring.
    + auto.
    + auto.
    + replace (snd (fst x) 0 1 + _) with (snd (fst x) 1 1) by ring. ring.
Qed.

Theorem nested_exact f (x : list R) (env : list V5) :
  piecewise_affine f x -> map q_val env = x -> Forall exactq env ->
  forall ys, feval Rops q_fop q_cst q_val f env tt = Ok (ys, tt) -> Forall exactq ys.
Proof.
  intros HR Ex HG ys E.
  set (RVk := fun (w : Prop) (p : R * bool) (q : V5) =>
                fst p = q_val q /\ (w -> exactq q /\ (snd p = true -> stillq q))).
  assert (H : simM true (fun P P' : Prop => P' -> P) (fun w s1 (_ : unit) => s1 = w)
    (RVs RVk) True
    (feval Rops p_fop (fun c => (c, true)) fst f (map (fun a => (a, false)) x))
    (feval Rops q_fop q_cst q_val f env)).
  { apply sim_feval; auto.
    - intros a b p q L [H1 H2]. split; auto.
    - intros w oc x1 y1 x2 y2 Ha [Hx1 Hx2] Hy s1 [] ->.
      assert (option_map fst y1 = option_map q_val y2) as Ey.
      { destruct y1, y2; cbn in *; try contradiction; auto. destruct Hy as [Hy _]. congruence. }
      assert (arity_ok oc y2) as Ha2.
      { destruct y1, y2; cbn in *; try contradiction; auto. }
      unfold p_fop. rewrite Hx1, Ey.
      assert (arity_ok oc (option_map q_n y2)) as Hb by (destruct y2; auto).
      destruct (d_fop_D_total oc (q_n x2) (option_map q_n y2) Hb) as (n & En).
      assert (exists r, q_fop oc x2 y2 tt = Ok (r, tt)) as (r & Er).
      { unfold q_fop. rewrite En. eauto. }
      rewrite Er, (q_fop_val _ _ _ _ _ _ Ha2 Er).
      exists r, tt. eexists. split; [reflexivity|].
      split; [|split; [reflexivity|]]; [tauto|].
      split; [reflexivity|].
      intros [Hw HD]. destruct (Hx2 Hw) as [Gx Sx].
      assert (forall z, y2 = Some z -> exactq z) as Gy.
      { intros z ->. destruct y1; cbn in Hy; [|contradiction]. apply Hy; auto. }
      assert (match y1 with Some y' => snd y' | None => true end = true ->
              forall z, y2 = Some z -> stillq z) as Sy.
      { intros Hc z ->. destruct y1; cbn in Hy; [|contradiction]. apply Hy; auto. }
      split.
      + eapply op_exactq; eauto.
      + cbn. intros Hc. apply andb_prop in Hc as [Hc1 Hc2]. eapply stillq_op'; eauto.
    - intros w c. split; auto. intros _.
      assert (stillq (q_cst c)) by (exists c; repeat split; auto).
      split; auto using stillq_exact.
    - left. intros w p q [H _]; auto.
    - unfold RVs. rewrite <- Ex. clear -HG. induction HG; cbn; constructor; auto.
      split; auto. intros _. split; auto. discriminate. }
  specialize (H True tt eq_refl). unfold piecewise_affine in HR.
  destruct (feval Rops p_fop (fun c => (c, true)) fst f (map (fun a => (a, false)) x) True)
    as [[ps P]|p] eqn:Er.
  - specialize (HR _ _ eq_refl). destruct H as (ys' & [] & w' & E' & _ & Es & HF).
    assert (ys' = ys) by congruence. subst ys' P.
    clear -HF HR. unfold RVs in HF. induction HF as [|p q l1 l2 [H1 H2] HF IH]; constructor; auto.
    apply H2; auto.
  - rewrite (H eq_refl) in E. discriminate.
Qed.

Lemma q_in_exact : forall x u v w, Forall exactq (q_in x u v w).
Proof.
  induction x as [|a x IH]; intros [|b u] [|c v] [|d w]; cbn [q_in]; constructor; auto.
  unfold exactq, q_n, q_p; cbn. f_equal; f_equal; ring.
Qed.

Lemma q_in_val : forall x u v w,
  length u = length x -> length v = length x -> length w = length x ->
  map q_val (q_in x u v w) = x.
Proof.
  induction x as [|a x IH]; intros [|b u] [|c v] [|d w] L1 L2 L3; try discriminate; auto.
  cbn in *. f_equal. apply IH; lia.
Qed.

Lemma plane_len x u v w t s :
  length u = length x -> length v = length x -> length w = length x ->
  length (plane x u v w t s) = length x.
Proof.
  intros. unfold plane, vadd, vscal.
  repeat (rewrite ?map_length, ?combine_length). lia.
Qed.

(** Evaluating at a corner of the plane, where the branches agree, follows the family. *)
Lemma q_at f x u v w t s :
  length u = length x -> length v = length x -> length w = length x ->
  straight_f f \/ agree_f Rops f x (plane x u v w t s) ->
  match feval Rops q_fop q_cst q_val f (q_in x u v w) tt with
  | Ok (zs, _) => v_eval Rops f (plane x u v w t s) = Ok (map (fun z => q_p z t s) zs)
  | Panic p => v_eval Rops f (plane x u v w t s) = Panic p
  end.
Proof.
  intros L1 L2 L3 [HS|HA].
  - pose proof (q_plain f (q_in x u v w) t s HS) as HP. rewrite q_in_p in HP by auto. exact HP.
  - pose proof (q_plain (resolve_f Rops f x) (q_in x u v w) t s (resolve_f_straight Rops f x)) as HP.
    rewrite q_in_p in HP by auto.
    rewrite (feval_resolve Rops q_fop q_cst q_val q_fop_val (fun c => eq_refl)), q_in_val by auto.
    rewrite v_eval_resolve.
    rewrite <- (agree_f_path Rops f x (plane x u v w t s)); auto.
    rewrite plane_len; auto.
Qed.

Lemma plane_00 : forall x u v w,
  length u = length x -> length v = length x -> length w = length x -> plane x u v w 0 0 = x.
Proof.
  induction x as [|a x IH]; intros [|b u] [|c v] [|d w] L1 L2 L3; try discriminate; auto.
  cbn in *. unfold plane, vadd, vscal in *. cbn. f_equal; [ring|]. apply IH; lia.
Qed.
Lemma plane_10 : forall x u v w,
  length u = length x -> length v = length x -> length w = length x -> plane x u v w 1 0 = vadd x u.
Proof.
  induction x as [|a x IH]; intros [|b u] [|c v] [|d w] L1 L2 L3; try discriminate; auto.
  cbn in *. unfold plane, vadd, vscal in *. cbn. f_equal; [ring|]. apply IH; lia.
Qed.
Lemma plane_01 : forall x u v w,
  length u = length x -> length v = length x -> length w = length x -> plane x u v w 0 1 = vadd x v.
Proof.
  induction x as [|a x IH]; intros [|b u] [|c v] [|d w] L1 L2 L3; try discriminate; auto.
  cbn in *. unfold plane, vadd, vscal in *. cbn. f_equal; [ring|]. apply IH; lia.
Qed.
Lemma plane_11 : forall x u v w,
  length u = length x -> length v = length x -> length w = length x ->
  plane x u v w 1 1 = vadd (vadd (vadd x u) v) w.
Proof.
  induction x as [|a x IH]; intros [|b u] [|c v] [|d w] L1 L2 L3; try discriminate; auto.
  cbn in *. unfold plane, vadd, vscal in *. cbn. f_equal; [ring|]. apply IH; lia.
Qed.

Theorem nested_second_difference f x u v w y :
  length u = length x -> length v = length x -> length w = length x ->
  piecewise_affine f x ->
  straight_f f \/ (agree_f Rops f x (vadd x u) /\ agree_f Rops f x (vadd x v) /\
                   agree_f Rops f x (vadd (vadd (vadd x u) v) w)) ->
  v_eval Rops f x = Ok y ->
  exists ys y10 y01 y11,
    nested_eval Rops f (nested_in x u v w) = Ok ys /\
    v_eval Rops f (vadd x u) = Ok y10 /\ v_eval Rops f (vadd x v) = Ok y01 /\
    v_eval Rops f (vadd (vadd (vadd x u) v) w) = Ok y11 /\
    length ys = length y /\ length y10 = length y /\ length y01 = length y /\
    length y11 = length y /\
    forall k, (k < length y)%nat ->
      nth k ys ((0, 0), (0, 0))
      = ((nth k y 0, nth k y10 0 - nth k y 0),
         (nth k y01 0 - nth k y 0, nth k y11 0 - nth k y01 0 - nth k y10 0 + nth k y 0)).
Proof.
  intros L1 L2 L3 HP HB E.
  assert (forall t s, (t = 1 /\ s = 0) \/ (t = 0 /\ s = 1) \/ (t = 1 /\ s = 1) ->
            straight_f f \/ agree_f Rops f x (plane x u v w t s)) as HB'.
  { destruct HB as [HB|(A1 & A2 & A3)]; auto.
    intros t s [[-> ->]|[[-> ->]|[-> ->]]]; right;
      rewrite ?plane_10, ?plane_01, ?plane_11 by auto; auto. }
  pose proof (q_nested f (q_in x u v w)) as HN. rewrite q_in_n in HN.
  pose proof (q_at f x u v w 1 0 L1 L2 L3 (HB' 1 0 ltac:(auto))) as H10.
  pose proof (q_at f x u v w 0 1 L1 L2 L3 (HB' 0 1 ltac:(auto))) as H01.
  pose proof (q_at f x u v w 1 1 L1 L2 L3 (HB' 1 1 ltac:(auto))) as H11.
  rewrite plane_10 in H10 by auto. rewrite plane_01 in H01 by auto. rewrite plane_11 in H11 by auto.
  assert (match feval Rops q_fop q_cst q_val f (q_in x u v w) tt with
          | Ok (zs, _) => v_eval Rops f x = Ok (map (fun z => q_p z 0 0) zs)
          | Panic p => v_eval Rops f x = Panic p end) as H00.
  { pose proof (q_plain (resolve_f Rops f x) (q_in x u v w) 0 0 (resolve_f_straight Rops f x)) as H.
    rewrite q_in_p, plane_00 in H by auto. rewrite <- v_eval_resolve in H.
    rewrite (feval_resolve Rops q_fop q_cst q_val q_fop_val (fun c => eq_refl)), q_in_val by auto.
    exact H. }
  destruct (feval Rops q_fop q_cst q_val f (q_in x u v w) tt) as [[zs []]|p] eqn:Ez; [|congruence].
  pose proof (nested_exact f x _ HP (q_in_val _ _ _ _ L1 L2 L3) (q_in_exact x u v w) zs Ez) as G.
  do 4 eexists. do 4 (split; [eassumption|]).
  assert (y = map (fun z => q_p z 0 0) zs) as -> by congruence.
  rewrite !map_length. do 4 (split; auto).
  intros k Hk. rewrite Forall_forall in G.
  destruct (nth_error zs k) as [z|] eqn:Ek; [|apply nth_error_None in Ek; lia].
  specialize (G z (nth_error_In _ _ Ek)).
  assert (forall (B : Type) (g : V5 -> B) b, nth k (map g zs) b = g z) as Hn.
  { intros B g b. apply nth_error_nth. rewrite nth_error_map, Ek. auto. }
  rewrite !Hn. exact G.
Qed.

Theorem nested_second_difference_eval f x u v w y wd :
  length u = length x -> length v = length x -> length w = length x ->
  piecewise_affine f x ->
  straight_f f \/ (agree_f Rops f x (vadd x u) /\ agree_f Rops f x (vadd x v) /\
                   agree_f Rops f x (vadd (vadd (vadd x u) v) w)) ->
  eval_float Rops f x wd = Ok (y, wd) ->
  exists ys y10 y01 y11,
    nested_eval Rops f (nested_in x u v w) = Ok ys /\
    eval_float Rops f (vadd x u) wd = Ok (y10, wd) /\
    eval_float Rops f (vadd x v) wd = Ok (y01, wd) /\
    eval_float Rops f (vadd (vadd (vadd x u) v) w) wd = Ok (y11, wd) /\
    length ys = length y /\ length y10 = length y /\ length y01 = length y /\
    length y11 = length y /\
    forall k, (k < length y)%nat ->
      nth k ys ((0, 0), (0, 0))
      = ((nth k y 0, nth k y10 0 - nth k y 0),
         (nth k y01 0 - nth k y 0, nth k y11 0 - nth k y01 0 - nth k y10 0 + nth k y 0)).
Proof.
  intros L1 L2 L3 HP HB E. rewrite eval_float_v in E.
  destruct (v_eval Rops f x) as [y0|] eqn:E0; [|discriminate]. cbn in E. injection E as ->.
  destruct (nested_second_difference f x u v w y L1 L2 L3 HP HB E0)
    as (ys & y10 & y01 & y11 & A & B1 & B2 & B3 & R).
  exists ys, y10, y01, y11. rewrite !eval_float_v, B1, B2, B3. auto.
Qed.

(** |x| at -1/2 with seeds 1: both tangents cross the kink. *)
Definition na_abs {F : Type} : func F := AdvFn 1 1 (Let1 UAbs 0 (Ret [1]%nat)).

Lemma na_abs_near :
  forall t, Rabs (t - - / 2) < / 2 -> nth 0 (outputs na_abs [t]) 0 = - t.
Proof.
  intros t Ht. unfold outputs. rewrite eval_float_v. cbn. apply Rabs_def2 in Ht.
  apply Rabs_left. lra.
Qed.

Lemma na_abs_kink :
  exists y, nested_eval Rops na_abs [((- / 2, 1), (1, 0))] = Ok [y] /\ snd (snd y) = 1 /\
  exists g' : R -> R,
    (exists d, 0 < d /\ forall t, Rabs (t - - / 2) < d ->
       derivable_pt_lim (fun s => nth 0 (outputs na_abs [s]) 0) t (g' t)) /\
    derivable_pt_lim g' (- / 2) 0.
Proof.
  eexists. split; [rewrite nested_eval_eq; reflexivity|]. split.
  - cbn. unfold dual. cbn.
    rewrite (Rabs_right (- / 2 + 1)), (Rabs_left (- / 2)) by lra.
    rewrite ?Rplus_0_r. rewrite Rabs_right by lra. lra.
  - exists (fun _ => -1). split.
    + exists (/ 2). split; [lra|]. intros t Ht e He.
      assert (0 < / 2 - Rabs (t - - / 2)) as Hd by lra.
      exists (mkposreal _ Hd). intros h Hh Hhd. cbn in Hhd.
      rewrite !na_abs_near; auto.
      2: { replace (t + h - - / 2) with ((t - - / 2) + h) by ring.
           eapply Rle_lt_trans; [apply Rabs_triang|]. lra. }
      replace ((- (t + h) - - t) / h - -1) with 0 by (field; auto). rewrite Rabs_R0. auto.
    + apply derivable_pt_lim_const.
Qed.

Lemma na_abs_kink64 T :
  exists y,
  nested_eval (f64ops T) na_abs [((SFopp half64, lit 1), (lit 1, lit 0))] = Ok [y] /\
  snd (snd y) = lit 1.
Proof.
  eexists. split; [rewrite nested_eval_eq; reflexivity|]. vm_compute. reflexivity.
Qed.
