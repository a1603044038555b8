(** Forward over reverse: sweeps on the tape of nested AFloats, and second derivatives. *)
From Coq Require Import Reals Lra List Arith ZArith Bool Lia.
From Verif Require Import Base Float Operation Tape AContext Methods Function Spec Param TapeFacts SweepFacts
  Instances FunctionFacts ReplayFacts ApiFacts3 Replay2 RealInst Approx DerivSpec DerivFacts
  LinearFacts DerivFacts2 Nested NestedSpec NestedFacts NestedMain JacobianFacts GenFacts Hess HessComp.
Import ListNotations.

(** Pointwise equal operations give equal evaluations. *)
Section Ext.
Context {F V St : Type} (Fo : Fops F).
Context (op1 op2 : OpCode -> V -> option V -> M St V) (cst : F -> V) (val : V -> F).
Hypothesis Hop : forall oc x y s, arity_ok oc y -> op1 oc x y s = op2 oc x y s.

Lemma feval_ext f X s : feval Fo op1 cst val f X s = feval Fo op2 cst val f X s.
Proof.
  assert (forall l1 l2 : list V, Forall2 (fun a b => a = b) l1 l2 -> l1 = l2) as Heq by (induction 1; congruence).
  unshelve epose proof (sim_feval (W := unit) Fo op1 cst val op2 cst val true (fun _ _ => True)
    (fun _ a b => a = b) (fun _ a b => a = b) _ _ _ _ _ f _ tt X X _ s s eq_refl) as H; cbv beta in *; try solve [intros; subst; auto].
  - intros w oc x1 y1 x2 y2 Ha <- Hy s1 s2 <-.
    assert (y1 = y2) as <- by (destruct y1, y2; cbn in Hy; congruence || contradiction).
    rewrite Hop by auto. destruct (op2 oc x1 y1 s1) as [[a s']|]; [exists a, s', tt; auto|auto].
  - left. intros ? ? ? ->. reflexivity.
  - unfold RVs. clear. induction X; constructor; auto.
  - destruct (feval Fo op1 cst val f X s) as [[a s']|p].
    + destruct H as (b & s2 & w & -> & _ & -> & E). apply Heq in E. subst. reflexivity.
    + rewrite H; auto.
Qed.
End Ext.

Section Gen.
Context {F : Type} (Fo : Fops F).

Lemma o_is_nested oc x y s :
  arity_ok oc y -> o_fop Fo (d_fop Fo) (d_cst Fo) fst oc x y s = d_fop (Dops Fo) oc x y s.
Proof.
  intros Ha. destruct s.
  destruct oc; destruct y as [y|]; try discriminate Ha; try reflexivity.
  unfold o_fop, d_fop at 3. cbn -[d_fop]. unfold mbind, mlift, mret. cbn -[d_fop].
  destruct (negb (f_eqb Fo (fst (snd x)) (f_zero Fo))), (negb (f_eqb Fo (fst (snd y)) (f_zero Fo))); reflexivity.
Qed.

Lemma combine_app {A B} (x : list A) : forall (v : list B) u w, length v = length x ->
  combine (x ++ u) (v ++ w) = combine x v ++ combine u w.
Proof. induction x as [|a x IH]; intros [|b v] u w L; try discriminate; auto. cbn. rewrite IH; auto. Qed.
Lemma nested_in_combine x : forall (v u w : list F), length v = length x -> length u = length x -> length w = length x ->
  combine (combine x v) (combine u w) = nested_in x v u w.
Proof.
  induction x as [|a x IH]; intros [|b v] [|c u] [|d w] L1 L2 L3; try discriminate; auto. cbn. rewrite IH; auto.
Qed.

(** The recorded function evaluated on ADoubles without context: the nested evaluation. *)
Theorem nested_tangent f n m (x v u w : list F) :
  length x = n -> length v = n -> length u = n -> length w = n ->
  match nested_eval Fo f (nested_in x v u w) with
  | Ok Y => d_eval Fo (tangent Fo n m f) (combine (x ++ u) (v ++ w)) = Ok (map fst Y ++ map snd Y)
  | Panic _ => panics (d_eval Fo (tangent Fo n m f) (combine (x ++ u) (v ++ w)))
  end.
Proof.
  intros Lx Lv Lu Lw. rewrite nested_eval_eq, <- nested_in_combine, combine_app by lia.
  pose proof (tangent_runs Fo (d_fop Fo) (d_cst Fo) fst f n m (combine x v) (combine u w) tt) as H.
  rewrite !combine_length in H. specialize (H ltac:(lia) ltac:(lia)).
  unfold o_eval in H. rewrite (feval_ext Fo _ (d_fop (Dops Fo))) in H by (intros; apply o_is_nested; auto).
  change (o_cst Fo (d_cst Fo)) with (n_cst Fo) in H. change (o_val fst) with (@n_val F) in H. unfold d_eval.
  destruct (feval Fo (d_fop (Dops Fo)) (n_cst Fo) n_val f (combine (combine x v) (combine u w)) tt) as [[Y []]|p]; cbn [bind fst].
  - rewrite H. reflexivity.
  - destruct H as (q & H). exists q. rewrite H. reflexivity.
Qed.
End Gen.

Open Scope R_scope.

Lemma dot_app x : forall y u v, length x = length y -> dot (x ++ u) (y ++ v) = dot x y + dot u v.
Proof.
  induction x as [|a x IH]; intros [|b y] u v L; try discriminate; cbn [dot app]; [ring|].
  rewrite IH by (cbn in L; lia). ring.
Qed.

(** The reverse sweep of the recorded function is the transpose of the nested derivatives. *)
Theorem reverse_of_nested f n m x u w0 (t : tape R) w' :
  length x = n -> length u = n ->
  fn_tape Rops (tangent Rops n m f) (x ++ u) w0 = Ok (t, w') -> no_abs t -> NoDup (t_deps t) ->
  forall v w, length v = n -> length w = n ->
  exists ys, nested_eval Rops f (nested_in x v u w) = Ok ys /\
    tape_forward Rops t (v ++ w) = Ok (map (fun y => snd (fst y)) ys ++ map (fun y => snd (snd y)) ys) /\
    forall ybar zbar, length ybar = length ys -> length zbar = length ys ->
    exists xbar ubar, tape_reverse Rops t (ybar ++ zbar) = Ok (xbar ++ ubar) /\ length xbar = n /\ length ubar = n /\
      dot xbar v + dot ubar w
      = dot ybar (map (fun y => snd (fst y)) ys) + dot zbar (map (fun y => snd (snd y)) ys).
Proof.
  intros Lx Lu HT NA ND v w Lv Lw.
  destruct (fn_tape_wf Rops _ _ _ _ _ HT) as ([W _] & _ & NI). rewrite app_length in NI.
  destruct (forward_tapeless Rops _ _ _ _ _ (v ++ w) HT ltac:(rewrite !app_length; lia) (R_const_tangents _ _ _)) as (yd & D & Ef).
  pose proof (nested_tangent Rops f n m x v u w Lx Lv Lu Lw) as H.
  destruct (nested_eval Rops f (nested_in x v u w)) as [ys|p]; [|destruct H as (q & H); congruence].
  assert (yd = map fst ys ++ map snd ys) as -> by congruence.
  rewrite map_app, !map_map in Ef.
  exists ys. split; [reflexivity|]. split; [exact Ef|].
  assert (num_deps t = (length ys + length ys)%nat) as ND2.
  { pose proof (tape_forward_length Rops _ _ _ Ef) as L1. rewrite app_length, !map_length in L1. lia. }
  intros ybar zbar Ly Lz.
  destruct (adjoint_nodup t (ybar ++ zbar) (v ++ w) W NA ND) as (xb & dy & E1 & E2 & E3);
    [rewrite app_length; lia|rewrite app_length; lia|].
  pose proof (tape_reverse_length Rops _ _ _ E1) as Lb. 
  exists (firstn n xb), (skipn n xb). rewrite firstn_skipn.
  rewrite firstn_length, skipn_length. split; [exact E1|]. split; [lia|]. split; [lia|].
  rewrite <- dot_app by (rewrite firstn_length; lia). rewrite firstn_skipn, <- E3.
  assert (dy = map (fun y => snd (fst y)) ys ++ map (fun y => snd (snd y)) ys) as -> by congruence.
  apply dot_app. rewrite map_length. auto.
Qed.

Lemma plane_0 x v u n t s : length x = n -> length v = n -> length u = n ->
  plane x v u (repeat 0 n) t s = vadd (vadd x (vscal t v)) (vscal s u).
Proof.
  intros Lx Lv Lu. unfold plane. f_equal. f_equal. subst n. rewrite <- Lu. clear.
  induction u as [|a u IH]; auto. cbn in *. f_equal; auto. ring.
Qed.

(** One reverse sweep gives the derivative of (x, u) |-> grad f(x) . u. *)
Theorem reverse_second_derivative f n m x u w0 (t : tape R) w' k mm xbar ubar :
  length x = n -> length u = n ->
  fn_tape Rops (tangent Rops n m f) (x ++ u) w0 = Ok (t, w') -> no_abs t -> NoDup (t_deps t) ->
  length (outputs f x) = mm -> (k < mm)%nat ->
  length xbar = n -> tape_reverse Rops t (repeat 0 mm ++ unitv Rops mm k) = Ok (xbar ++ ubar) ->
  same_branches_near f x ->
  forall v w, length v = n -> length w = n -> regular2 f (nested_in x v u w) ->
  exists g' : R -> R,
    (exists d, 0 < d /\ forall r, Rabs r < d ->
       derivable_pt_lim (fun s => nth k (outputs f (plane x v u w r s)) 0) 0 (g' r)) /\
    derivable_pt_lim g' 0 (dot xbar v + dot ubar w).
Proof.
  intros Lx Lu HT NA ND Lo Hk Lb HR HB v w Lv Lw Hreg.
  destruct (reverse_of_nested f n m x u w0 t w' Lx Lu HT NA ND v w Lv Lw) as (ys & En & _ & Hys).
  destruct (nested_second_derivative f x v u w ys) as [Ly HD]; auto; try lia.
  destruct (Hys (repeat 0 mm) (unitv Rops mm k)) as (xb & ub & E & L1 & L2 & Hdot);
    [rewrite repeat_length; lia|rewrite unitv_length; lia|].
  assert (xb = xbar /\ ub = ubar) as [-> ->].
  { assert (xb ++ ub = xbar ++ ubar) as Eq by congruence. split.
    - pose proof (f_equal (firstn n) Eq) as Ef. rewrite <- L1 in Ef at 1. rewrite <- Lb in Ef at 1.
      rewrite !firstn_app, !Nat.sub_diag, !firstn_all, !firstn_O, !app_nil_r in Ef. exact Ef.
    - pose proof (f_equal (skipn n) Eq) as Ef. rewrite <- L1 in Ef at 1. rewrite <- Lb in Ef at 1.
      rewrite !skipn_app, !Nat.sub_diag, !skipn_all, !skipn_O in Ef. exact Ef. }
  destruct (nth_error ys k) as [y|] eqn:Ey; [|apply nth_error_None in Ey; lia].
  destruct (HD k y Ey) as (_ & _ & g' & (d & Hd & Hg) & _ & Hg').
  exists g'. split; [exists d; auto|].
  replace (dot xbar v + dot ubar w) with (snd (snd y)); auto.
  rewrite dot_repeat, Rplus_0_l, dot_unit in Hdot by (rewrite ?map_length; lia).
  rewrite Hdot. erewrite nth_error_nth; [reflexivity|]. rewrite nth_error_map, Ey. reflexivity.
Qed.

(** Hessian-vector products by one reverse sweep. *)
Theorem hessian_vector f n m x u w0 (t : tape R) w' k mm xbar ubar :
  length x = n -> length u = n ->
  fn_tape Rops (tangent Rops n m f) (x ++ u) w0 = Ok (t, w') -> no_abs t -> NoDup (t_deps t) ->
  length (outputs f x) = mm -> (k < mm)%nat ->
  length xbar = n -> tape_reverse Rops t (repeat 0 mm ++ unitv Rops mm k) = Ok (xbar ++ ubar) ->
  same_branches_near f x ->
  forall v, length v = n -> regular2 f (nested_in x v u (repeat 0 n)) ->
  exists g' : R -> R,
    (exists d, 0 < d /\ forall r, Rabs r < d ->
       derivable_pt_lim (fun s => nth k (outputs f (vadd (vadd x (vscal r v)) (vscal s u))) 0) 0 (g' r)) /\
    derivable_pt_lim g' 0 (dot xbar v).
Proof.
  intros Lx Lu HT NA ND Lo Hk Lb HR HB v Lv Hreg.
  destruct (reverse_second_derivative f n m x u w0 t w' k mm xbar ubar Lx Lu HT NA ND Lo Hk Lb HR HB
    v (repeat 0 n) Lv (repeat_length _ _) Hreg) as (g' & (d & Hd & Hg) & Hg').
  rewrite (dot_sym ubar), dot_repeat, Rplus_0_r in Hg'.
  exists g'. split; auto. exists d. split; auto. intros r Hr. eapply d_ext; [|apply (Hg r Hr)].
  intros s. cbn beta. rewrite (plane_0 x v u n); auto.
Qed.
