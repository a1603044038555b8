(** Second derivatives, quadratic models, Hessian-vector products and second differences of functions that are
    recorded alike. *)
From Coq Require Import Reals Lra List Arith ZArith Bool Lia.
From Verif Require Import Base Float Operation Tape AContext Methods Function Spec Param TapeFacts
  Instances FunctionFacts ReplayFacts ApiFacts3 Replay2 RealInst Approx DerivSpec DerivFacts
  LinearFacts DerivFacts2 JacobianFacts Nested NestedSpec NestedFacts NestedMain NestedResolve NestedAffine
  SweepFacts Hess HessComp HessMain Taylor2 NestFacts Matrix Jacobian AbsNormal AnfSpec AnfFacts AnfFacts2 SamePath.
Import ListNotations.
Open Scope R_scope.

Theorem alike_second_derivative f x u v w ys :
  length u = length x -> length v = length x -> length w = length x ->
  alike_near f x -> regular2 f (nested_in x u v w) ->
  nested_eval Rops f (nested_in x u v w) = Ok ys ->
  length ys = length (outputs f x) /\
  forall k y, nth_error ys k = Some y ->
  let g t s := nth k (outputs f (plane x u v w t s)) 0 in
  fst (fst y) = nth k (outputs f x) 0 /\
  derivable_pt_lim (fun t => g t 0) 0 (snd (fst y)) /\
  exists g' : R -> R,
    (exists d, 0 < d /\ forall t, Rabs t < d -> derivable_pt_lim (g t) 0 (g' t)) /\
    fst (snd y) = g' 0 /\
    derivable_pt_lim g' 0 (snd (snd y)).
Proof.
  intros L1 L2 L3 (r & Hr & P) RG E. set (f' := resolve_f Rops f x).
  pose proof (nested_in_val x u v w L1 L2 L3) as Ev.
  destruct (nested_second_derivative f' x u v w ys) as [L H]; auto.
  - left. apply resolve_f_straight.
  - unfold f'. rewrite <- Ev at 1. apply regular2_resolve; auto.
  - unfold f'. rewrite <- Ev at 1. rewrite nested_eval_resolve. auto.
  - assert (outputs f' x = outputs f x) as OX by (unfold outputs, f'; now rewrite !eval_float_v, <- v_eval_resolve).
    rewrite OX in L. split; auto. intros k y Hy. cbn zeta.
    destruct (H k y Hy) as (H0 & H1 & g' & (d & Hd & H2) & H3 & H4). rewrite OX in H0.
    destruct (shift_small u v w r Hr) as (e & He & Hs).
    assert (forall t s, Rabs t < e -> Rabs s < e ->
      nth k (outputs f' (plane x u v w t s)) 0 = nth k (outputs f (plane x u v w t s)) 0) as EQ.
    { intros t s Ht Hss. rewrite plane_shift by auto. unfold outputs, f'. rewrite alike_eval; auto.
      apply P; [apply shift_length; auto|apply Hs; auto]. }
    split; auto. split.
    + eapply d_ext_near; [|exact H1]. exists e. split; auto. intros t Ht. apply EQ; auto. rewrite Rabs_R0; auto.
    + exists g'. split; [|split; auto]. exists (Rmin d e). split; [apply Rmin_glb_lt; auto|]. intros t Ht.
      pose proof (Rmin_l d e). pose proof (Rmin_r d e).
      eapply d_ext_near; [|apply H2; lra]. exists e. split; auto. intros s Hss. apply EQ; auto. lra.
Qed.

Theorem alike_taylor f x h ys :
  length h = length x -> alike_near f x ->
  regular2 f (nested_in x h h (repeat 0 (length x))) ->
  nested_eval Rops f (nested_in x h h (repeat 0 (length x))) = Ok ys ->
  forall k y, nth_error ys k = Some y ->
  forall e, 0 < e -> exists d, 0 < d /\ forall s, Rabs s < d ->
    Rabs (nth k (outputs f (vadd x (vscal s h))) 0
          - (fst (fst y) + s * snd (fst y) + s * s / 2 * snd (snd y))) <= e * (s * s).
Proof.
  intros Lh SB HR HN k y Hy.
  destruct (alike_second_derivative f x h h (repeat 0 (length x)) ys) as [_ HD]; auto using repeat_length.
  destruct (HD k y Hy) as (Hv & Hd & g' & (d & Hd0 & Hg) & Hg0 & Hgg).
  set (g := fun s => nth k (outputs f (vadd x (vscal s h))) 0).
  assert (forall t s, nth k (outputs f (plane x h h (repeat 0 (length x)) t s)) 0 = g (t + s)) as Hpl.
  { intros t s. unfold g. rewrite (plane_0 x h h (length x)) by auto. f_equal. f_equal.
    clear - Lh. revert h Lh. induction x as [|a x IH]; intros [|b h] Lh; try discriminate; auto.
    cbn. f_equal; [ring|apply IH; cbn in Lh; lia]. }
  assert (forall t, Rabs t < d -> derivable_pt_lim g t (g' t)) as Hgt.
  { intros t Ht. specialize (Hg t Ht). intros e He. destruct (Hg e He) as [dl Hdl]. exists dl.
    intros hh H1 H2. specialize (Hdl hh H1 H2). rewrite !Hpl in Hdl. rewrite !Rplus_0_l, Rplus_0_r in Hdl. exact Hdl. }
  assert (g' 0 = snd (fst y)) as E1.
  { eapply (uniqueness_limite g 0); [apply Hgt; rewrite Rabs_R0; auto|].
    eapply d_ext; [|exact Hd]. intros t. cbn beta. rewrite Hpl, Rplus_0_r. auto. }
  assert (g 0 = fst (fst y)) as E0.
  { rewrite Hv. unfold g. f_equal. f_equal. clear - Lh. revert h Lh.
    induction x as [|a x IH]; intros [|b h] Lh; try discriminate; auto. cbn. f_equal; [ring|apply IH; cbn in Lh; lia]. }
  intros e He. destruct (taylor_peano g g' (snd (snd y)) ltac:(exists d; auto) Hgg e He) as (d' & Hd' & HT).
  exists d'. split; auto. intros s Hs. rewrite <- E0, <- E1. apply HT; auto.
Qed.

Theorem alike_minimum f x h ys k y :
  length h = length x -> alike_near f x ->
  regular2 f (nested_in x h h (repeat 0 (length x))) ->
  nested_eval Rops f (nested_in x h h (repeat 0 (length x))) = Ok ys ->
  nth_error ys k = Some y -> snd (fst y) = 0 -> 0 < snd (snd y) ->
  exists d, 0 < d /\ forall s, Rabs s < d -> s <> 0 ->
    nth k (outputs f x) 0 < nth k (outputs f (vadd x (vscal s h))) 0.
Proof.
  intros Lh SB HR HN Hy H1 H2.
  destruct (alike_second_derivative f x h h (repeat 0 (length x)) ys) as [_ HD]; auto using repeat_length.
  destruct (HD k y Hy) as (Hv & _).
  destruct (alike_taylor f x h ys Lh SB HR HN k y Hy (snd (snd y) / 4)) as (d & Hd & HT); [lra|].
  exists d. split; auto. intros s Hs Hs0. specialize (HT s Hs). rewrite H1 in HT.
  rewrite <- Hv. assert (0 < s * s) by nra.
  pose proof (Rle_abs (- (nth k (outputs f (vadd x (vscal s h))) 0 - (fst (fst y) + s * 0 + s * s / 2 * snd (snd y))))) as HA.
  rewrite Rabs_Ropp in HA. nra.
Qed.

Theorem alike_gradient_too f n m x u w0 (t : tape R) w' k mm xbar ubar :
  length x = n -> length u = n ->
  fn_tape Rops (tangent Rops n m f) (x ++ u) w0 = Ok (t, w') -> no_abs t -> NoDup (t_deps t) ->
  length (outputs f x) = mm -> (k < mm)%nat ->
  length xbar = n -> tape_reverse Rops t (repeat 0 mm ++ unitv Rops mm k) = Ok (xbar ++ ubar) ->
  alike_near f x ->
  forall v w, length v = n -> length w = n -> regular2 f (nested_in x v u w) ->
  exists g' : R -> R,
    (exists d, 0 < d /\ forall r, Rabs r < d ->
       derivable_pt_lim (fun s => nth k (outputs f (plane x v u w r s)) 0) 0 (g' r)) /\
    derivable_pt_lim g' 0 (dot xbar v + dot ubar w).
Proof.
  intros Lx Lu HT NA ND Lo Hk Lb HR HB v w Lv Lw Hreg.
  destruct (reverse_of_nested f n m x u w0 t w' Lx Lu HT NA ND v w Lv Lw) as (ys & En & _ & Hys).
  destruct (alike_second_derivative f x v u w ys) as [Ly HD]; auto; try lia.
  destruct (Hys (repeat 0 mm) (unitv Rops mm k)) as (xb & ub & E & L1 & L2 & Hdot);
    [rewrite repeat_length; lia|rewrite unitv_length; lia|].
  assert (xb = xbar /\ ub = ubar) as [-> ->].
  { assert (xb ++ ub = xbar ++ ubar) as Eq by congruence. split.
    - pose proof (f_equal (firstn n) Eq) as Ef. rewrite <- L1 in Ef at 1. rewrite <- Lb in Ef at 1.
      rewrite !firstn_app, !Nat.sub_diag, !firstn_all, !firstn_O, !app_nil_r in Ef. exact Ef.
    - pose proof (f_equal (skipn n) Eq) as Ef. rewrite <- L1 in Ef at 1. rewrite <- Lb in Ef at 1.
      rewrite !skipn_app, !Nat.sub_diag, !skipn_all, !skipn_O in Ef. exact Ef. }
  destruct (nth_error ys k) as [y|] eqn:Ey; [|apply nth_error_None in Ey; lia].
  destruct (HD k y Ey) as (_ & _ & g' & (d & Hd & Hg) & _ & Hg').
  exists g'. split; [exists d; auto|].
  replace (dot xbar v + dot ubar w) with (snd (snd y)); auto.
  rewrite dot_repeat, Rplus_0_l, dot_unit in Hdot by (rewrite ?map_length; lia).
  rewrite Hdot. erewrite nth_error_nth; [reflexivity|]. rewrite nth_error_map, Ey. reflexivity.
Qed.

Theorem alike_hessian_vector f n m x u w0 (t : tape R) w' k mm xbar ubar :
  length x = n -> length u = n ->
  fn_tape Rops (tangent Rops n m f) (x ++ u) w0 = Ok (t, w') -> no_abs t -> NoDup (t_deps t) ->
  length (outputs f x) = mm -> (k < mm)%nat ->
  length xbar = n -> tape_reverse Rops t (repeat 0 mm ++ unitv Rops mm k) = Ok (xbar ++ ubar) ->
  alike_near f x ->
  forall v, length v = n -> regular2 f (nested_in x v u (repeat 0 n)) ->
  exists g' : R -> R,
    (exists d, 0 < d /\ forall r, Rabs r < d ->
       derivable_pt_lim (fun s => nth k (outputs f (vadd (vadd x (vscal r v)) (vscal s u))) 0) 0 (g' r)) /\
    derivable_pt_lim g' 0 (dot xbar v).
Proof.
  intros Lx Lu HT NA ND Lo Hk Lb HR HB v Lv Hreg.
  destruct (alike_gradient_too f n m x u w0 t w' k mm xbar ubar Lx Lu HT NA ND Lo Hk Lb HR HB
    v (repeat 0 n) Lv (repeat_length _ _) Hreg) as (g' & (d & Hd & Hg) & Hg').
  rewrite (dot_sym ubar), dot_repeat, Rplus_0_r in Hg'.
  exists g'. split; auto. exists d. split; auto. intros r Hr. eapply d_ext; [|apply (Hg r Hr)].
  intros s. cbn beta. rewrite (plane_0 x v u n); auto.
Qed.

(** Second differences of piecewise affine functions *)
Theorem alike_second_difference f x u v w y wd :
  length u = length x -> length v = length x -> length w = length x ->
  piecewise_affine f x ->
  recorded_alike Rops f x (vadd x u) -> recorded_alike Rops f x (vadd x v) ->
  recorded_alike Rops f x (vadd (vadd (vadd x u) v) w) ->
  eval_float Rops f x wd = Ok (y, wd) ->
  exists ys y10 y01 y11,
    nested_eval Rops f (nested_in x u v w) = Ok ys /\
    eval_float Rops f (vadd x u) wd = Ok (y10, wd) /\
    eval_float Rops f (vadd x v) wd = Ok (y01, wd) /\
    eval_float Rops f (vadd (vadd (vadd x u) v) w) wd = Ok (y11, wd) /\
    length ys = length y /\ length y10 = length y /\ length y01 = length y /\
    length y11 = length y /\
    forall k, (k < length y)%nat ->
      nth k ys ((0, 0), (0, 0))
      = ((nth k y 0, nth k y10 0 - nth k y 0),
         (nth k y01 0 - nth k y 0, nth k y11 0 - nth k y01 0 - nth k y10 0 + nth k y 0)).
Proof.
  intros L1 L2 L3 HP A1 A2 A3 E. set (g := resolve_f Rops f x).
  destruct (nested_second_difference_eval g x u v w y wd L1 L2 L3) as (ys & y10 & y01 & y11 & N & B1 & B2 & B3 & R).
  - apply affine_resolve; auto.
  - left. apply resolve_f_straight.
  - unfold g. rewrite eval_float_v, <- v_eval_resolve, <- eval_float_v. exact E.
  - unfold g in *. rewrite alike_eval in B1, B2, B3 by auto.
    rewrite <- (nested_in_val x u v w L1 L2 L3) in N at 1. rewrite nested_eval_resolve in N.
    exists ys, y10, y01, y11. repeat (split; auto).
Qed.

(** Abs-normal forms of piecewise affine functions, exact wherever they are recorded alike *)
Theorem alike_abs_normal_exact red f x w t w' :
  rayon red -> fn_tape Rops f x w = Ok (t, w') -> NoDup (t_deps t) -> abs_once t ->
  piecewise_affine f x ->
  exists N y, abs_normal Rops red f x w = Ok N /\ tape_y t = Ok y /\
  forall h, length h = length x -> recorded_alike Rops f x (vadd x h) ->
    exists zh, switching N h zh /\ (forall zh', switching N h zh' -> zh' = zh) /\
      forall w2, eval_float Rops f (vadd x h) w2 = Ok (vadd y (increment N h zh), w2).
Proof.
  intros H T ND AO PA. rewrite fn_tape_resolve in T.
  destruct (abs_normal_exact red _ x w t w' H T ND AO (affine_resolve f x PA)) as (N & y & EN & Y & K).
  rewrite abs_normal_resolve in EN. exists N, y. split; auto. split; auto. intros h L A.
  destruct (K h L (or_introl (resolve_f_straight Rops f x))) as (zh & S1 & S2 & E). exists zh. split; auto. split; auto.
  intros w2. rewrite <- (alike_eval Rops f x); auto.
Qed.
