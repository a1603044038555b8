(** Derivatives of functions as they are written. *)
From Coq Require Import Reals Lra List Arith ZArith Bool Lia.
From Verif Require Import Base Float Operation Tape AContext Methods Function Spec Param Instances
  FunctionFacts ReplayFacts ApiFacts3 RealInst DerivSpec DerivFacts DerivFacts2 LinearFacts Source SourceSpec SourceFacts SourceMain Matrix MatrixFacts Jacobian JacobianFacts RecordFacts.
From Coquelicot Require Import Coquelicot.
Import ListNotations.
Open Scope R_scope.

Section Deriv.
Context {D : Type} (conv : D -> R).

(** All operations the function performs at [x] are inside their domains. *)
Definition in_domains (f : source R D) (x : list R) : Prop :=
  forall ys P, x_run Rops conv r_fop (fun c => (c, true)) fst f (map (fun a => (a, false)) x) True = Ok (ys, P) -> P.
(** All tests come out at every point near [x] as they do at [x]. *)
Definition decided_near (f : source R D) (x : list R) (d : list bool) : Prop :=
  exists r, 0 < r /\ forall h, length h = length x -> nrm1 h < r -> exists y, plain Rops conv f (vadd x h) = Some (y, d).
(** The results on plain numbers *)
Definition results (f : source R D) (x : list R) : list R :=
  match plain Rops conv f x with Some (y, _) => y | None => [] end.

Lemma vadd_len x h : length h = length x -> length (vadd x h) = length x.
Proof. intros L. unfold vadd. rewrite map_length, combine_length. lia. Qed.

Theorem source_derivative f x y d w t w' :
  plain Rops conv f x = Some (y, d) -> decided_near f x d -> in_domains f x ->
  fn_tape Rops (written conv (length x) f) x w = Ok (t, w') -> no_abs t ->
  forall dx, length dx = length x ->
  exists dy, tape_forward Rops t dx = Ok dy /\ length dy = length y /\
    forall k, (k < length y)%nat -> derivable_pt_lim (fun s => nth k (results f (vadd x (vscal s dx))) 0) 0 (nth k dy 0).
Proof.
  intros P (r & Hr & N) DM T NA dx L. rewrite fn_tape_resolve in T.
  set (f0 := written conv (length x) f) in *. set (g := resolve_f Rops f0 x) in *.
  assert (regular g x) as RG.
  { intros ys Q E. unfold g in E. apply (DM ys).
    pose proof (feval_resolve Rops r_fop (fun c => (c, true)) fst) as FR.
    assert (map fst (map (fun a : R => (a, false)) x) = x) as MX by (rewrite map_map; apply map_id).
    assert (feval Rops r_fop (fun c => (c, true)) fst f0 (map (fun a => (a, false)) x) True = Ok (ys, Q)) as E2.
    { rewrite FR; [rewrite MX; exact E| |reflexivity].
      intros oc a b s v s' _. unfold r_fop. destruct (zero_order_value Rops oc (fst a) (option_map fst b)) as [z|]; [|discriminate].
      intros [= <- <-]. reflexivity. }
    unfold f0, written in E2. cbn [feval] in E2. unfold mbind, mlift in E2. destruct (assert _) as [[]|]; [|discriminate].
    replace (length x) with (length (map (fun a : R => (a, false)) x)) in E2 by apply map_length. rewrite run_translate in E2.
    destruct (x_run _ _ _ _ _ f _ True) as [[ys' Q']|]; [|discriminate]. destruct (assert _); [|discriminate]. exact E2. }
  destruct (forward_derivative g x w t w' T RG (or_introl (resolve_f_straight Rops f0 x)) NA dx L) as (dy & Fw & Ly & _ & DV).
  assert (forall h, length h = length x -> nrm1 h < r -> outputs g (vadd x h) = results f (vadd x h)) as OUT.
  { intros h Lh Nh. destruct (N h Lh Nh) as (y' & P'). pose proof (vadd_len x h Lh) as Lv. unfold outputs, results. rewrite P', eval_float_v.
    pose proof (written_eval Rops conv f (vadd x h)) as V. rewrite P', Lv in V. fold f0 in V. rewrite v_eval_resolve in V.
    assert (resolve_f Rops f0 (vadd x h) = g) as E.
    { unfold g, f0, written. cbn [resolve_f]. f_equal. symmetry. eapply same_decisions; eauto. }
    rewrite E in V. rewrite V. reflexivity. }
  assert (outputs g x = y) as OX.
  { rewrite <- (vscal_0 dx x) at 1 by auto. rewrite OUT; [|now rewrite vscal_length|rewrite nrm1_scal, Rabs_R0, Rmult_0_l; auto].
    rewrite vscal_0 by auto. unfold results. now rewrite P. }
  rewrite OX in Ly. exists dy. split; auto. split; auto. intros k Hk.
  assert (0 <= nrm1 dx) as NN by (clear; induction dx; cbn; [lra|]; pose proof (Rabs_pos a); lra).
  set (e := r / (nrm1 dx + 1)). assert (0 < e) as He by (apply Rdiv_lt_0_compat; lra).
  apply (derivable_pt_lim_locally_ext (fun s => nth k (outputs g (vadd x (vscal s dx))) 0) _ 0 (- e) e); [lra| |apply DV; lia].
  intros s Hs. rewrite OUT; auto; [now rewrite vscal_length|]. rewrite nrm1_scal.
  assert (Rabs s < e) by (apply Rabs_def1; lra).
  apply Rle_lt_trans with (Rabs s * (nrm1 dx + 1)); [apply Rmult_le_compat_l; [apply Rabs_pos|lra]|].
  replace r with (e * (nrm1 dx + 1)) by (unfold e; field; lra). apply Rmult_lt_compat_r; lra.
Qed.

Theorem source_jacobians red1 red2 f x y d w t w' :
  rayon red1 -> rayon red2 ->
  plain Rops conv f x = Some (y, d) -> decided_near f x d -> in_domains f x ->
  fn_tape Rops (written conv (length x) f) x w = Ok (t, w') -> no_abs t ->
  exists J, jacobian_forward Rops red1 (written conv (length x) f) x w = Ok J /\
    (NoDup (t_deps t) -> jacobian_reverse Rops red2 t = Ok J) /\
    m_rows J = length y /\ m_cols J = length x /\
    forall i j, (i < length y)%nat -> (j < length x)%nat ->
      derivable_pt_lim (fun s => nth i (results f (update x j (nth j x 0 + s))) 0) 0 (ent Rops J i j).
Proof.
  intros H1 H2 P N DM T NA. set (n := length x) in *. set (g := written conv n f) in *.
  assert (num_deps t = length y) as ND.
  { destruct (fn_tape_fresh Rops _ _ _ _ _ T) as (_ & (y0 & V & _ & E) & _). pose proof (written_eval Rops conv f x) as W. rewrite P in W. fold n in W. fold g in W. rewrite W in V. injection V as <-. exact E. }
  assert (length y = length (snd f)) as LY.
  { unfold plain in P. destruct (p_stmt Rops conv (fst f) x) as [[vs b]|]; [|discriminate]. destruct (p_vars vs (snd f)) as [ys|] eqn:E; [|discriminate].
    injection P as <- _. eapply vars_len; eauto. }
  assert (fn_m g = Ok (length y)) as M by (rewrite LY; reflexivity).
  destruct (jacobian_forward_sweeps Rops red1 g x w t w' n (length y) H1 eq_refl M eq_refl T ND) as (J & EJ & WJ & Rj & Cj & HJ).
  { intros j _. apply R_const_tangents. }
  exists J. split; auto. split; [|split; [auto|split; [auto|]]].
  - intros NDp. destruct (jacobian_reverse_forward red2 red1 g x w t w' n (length y) H2 H1 eq_refl M eq_refl T ND NA NDp) as (J' & A & B). congruence.
  - intros i j Hi Hj. destruct (HJ j Hj) as (dy & Ed & Ld & He). rewrite He by auto.
    destruct (source_derivative f x y d w t w' P N DM T NA (unitv Rops n j)) as (dy' & Ed' & _ & HD); [rewrite unitv_length; auto|].
    assert (dy' = dy) by congruence. subst dy'. specialize (HD i Hi). cbn [f_zero Rops].
    intros e He'. destruct (HD e He') as [dl Hd']. exists dl. intros h Hh1 Hh2.
    specialize (Hd' h Hh1 Hh2). unfold n in Hd'. rewrite !vadd_unit in Hd' by auto. exact Hd'.
Qed.
End Deriv.
