(** Facts about the Jacobian drivers. *)
From Coq Require Import Reals Lra List Arith ZArith Bool Lia.
From Verif Require Import Base Float Operation Tape AContext Methods Function Spec Param TapeFacts
  SweepFacts Instances FunctionFacts ReplayFacts Replay2 RealInst DerivSpec DerivFacts LinearFacts
  DerivFacts2 Matrix MatrixFacts Jacobian ApiFacts3.
Import ListNotations.

Open Scope nat_scope.
Section Generic.
Context {F : Type} (Fo : Fops F).
Notation ent := (ent Fo).

Definition unitv (n j : nat) : list F := update (repeat (f_zero Fo) n) j (f_one Fo).

Lemma unit_vec_ok n j : j < n -> unit_vec Fo n j = Ok (unitv n j).
Proof. intros H. unfold unit_vec. apply set_lt. rewrite repeat_length; auto. Qed.

Lemma unitv_length n j : length (unitv n j) = n.
Proof. unfold unitv. rewrite update_length, repeat_length; auto. Qed.

(** jacobian_forward, column by column, in terms of evaluations on (x, e_j). *)
Lemma jacobian_forward_eq red f x w n m outs :
  rayon red -> fn_n f = Ok n -> fn_m f = Ok m -> length x = n ->
  (forall j, j < n -> exists w', eval Fo f (pairs x (unitv n j)) w = Ok (outs j, w')) ->
  (forall j, j < n -> m <= length (outs j)) ->
  jacobian_forward Fo red f x w
    = Ok (m_tab m n (fun i j => nth i (map af_dv (outs j)) (f_zero Fo))).
Proof.
  intros HR Hn Hm Hx HE HL. unfold jacobian_forward. rewrite Hn, Hm. cbn [bind].
  rewrite Hx, Nat.eqb_refl. cbn [assert bind].
  rewrite (mapM_fun _ (fun j => [(j, map af_dv (outs j))])).
  - cbn [bind]. rewrite (rayon_concat red _ HR), concat_singletons.
    apply (fill_cols Fo m n (f_zero Fo) (fun j => map af_dv (outs j))).
    intros j Hj. rewrite map_length. auto.
  - intros j Hj. apply in_seq in Hj. rewrite unit_vec_ok by lia. cbn [bind].
    destruct (HE j ltac:(lia)) as [w' E]. unfold pairs in E. rewrite E. reflexivity.
Qed.

(** If some column cannot be computed the driver panics. *)
Lemma jacobian_reverse_eq red (t : tape F) xbars :
  rayon red ->
  (forall i, i < num_deps t -> tape_reverse Fo t (unitv (num_deps t) i) = Ok (xbars i)) ->
  jacobian_reverse Fo red t
    = Ok (m_tab (num_deps t) (num_indeps t) (fun i j => nth j (xbars i) (f_zero Fo))).
Proof.
  intros HR HE. unfold jacobian_reverse.
  rewrite (mapM_fun _ (fun i => [(i, xbars i)])).
  - cbn [bind]. rewrite (rayon_concat red _ HR), concat_singletons.
    apply (fill_rows Fo). intros i Hi. specialize (HE i Hi).
    unfold tape_reverse in HE. apply bind_ok in HE as (? & _ & HE).
    apply bind_ok in HE as (? & _ & HE). apply gather_length in HE. unfold num_indeps. lia.
  - intros i Hi. apply in_seq in Hi. rewrite unit_vec_ok by lia. cbn [bind].
    rewrite HE by lia. reflexivity.
Qed.

(** The driver does not depend on how the work is split and combined. *)
Lemma jacobian_forward_det red1 red2 f x w :
  rayon red1 -> rayon red2 ->
  jacobian_forward Fo red1 f x w = jacobian_forward Fo red2 f x w.
Proof.
  intros H1 H2. unfold jacobian_forward. destruct (fn_n f); auto. destruct (fn_m f); auto.
  cbn [bind]. destruct (assert _); auto. cbn [bind]. destruct (mapM _ _); auto. cbn [bind].
  rewrite (rayon_concat _ _ H1), (rayon_concat _ _ H2). reflexivity.
Qed.
Lemma jacobian_reverse_det red1 red2 t :
  rayon red1 -> rayon red2 -> jacobian_reverse Fo red1 t = jacobian_reverse Fo red2 t.
Proof.
  intros H1 H2. unfold jacobian_reverse. destruct (mapM _ _); auto. cbn [bind].
  rewrite (rayon_concat _ _ H1), (rayon_concat _ _ H2). reflexivity.
Qed.

(** For every arithmetic: column j is the forward sweep along the j-th unit vector. *)
Lemma jacobian_forward_sweeps red f x w t w' n m :
  rayon red -> fn_n f = Ok n -> fn_m f = Ok m -> length x = n ->
  fn_tape Fo f x w = Ok (t, w') -> num_deps t = m ->
  (forall j, j < n -> const_tangents_zero Fo f x (unitv n j)) ->
  exists J, jacobian_forward Fo red f x w = Ok J /\ wf_mat J /\ m_rows J = m /\ m_cols J = n /\
    forall j, j < n -> exists dy, tape_forward Fo t (unitv n j) = Ok dy /\ length dy = m /\
      forall i, i < m -> ent J i j = nth i dy (f_zero Fo).
Proof.
  intros HR Hn Hm Hx HT Hd HC.
  assert (forall j, j < n -> exists outs, (forall w2, eval Fo f (pairs x (unitv n j)) w2 = Ok (outs, w2))
            /\ tape_forward Fo t (unitv n j) = Ok (map af_dv outs)) as HE.
  { intros j Hj. apply (forward_is_tapeless Fo f x w t w'); auto. rewrite unitv_length; auto. }
  set (outs := fun j => match eval Fo f (pairs x (unitv n j)) w with Ok (o, _) => o | _ => [] end).
  assert (forall j, j < n -> eval Fo f (pairs x (unitv n j)) w = Ok (outs j, w) /\
            tape_forward Fo t (unitv n j) = Ok (map af_dv (outs j)) /\ length (outs j) = m) as HO.
  { intros j Hj. destruct (HE j Hj) as (o & E1 & E2).
    assert (outs j = o) as -> by (unfold outs; rewrite E1; auto). split; auto. split; auto.
    unfold tape_forward in E2. apply bind_ok in E2 as (? & _ & E2).
    apply bind_ok in E2 as (? & _ & E2). apply gather_length in E2. rewrite map_length in E2.
    unfold num_deps in Hd. lia. }
  exists (m_tab m n (fun i j => nth i (map af_dv (outs j)) (f_zero Fo))). split.
  - apply jacobian_forward_eq; auto.
    + intros j Hj. exists w. apply HO; auto.
    + intros j Hj. destruct (HO j Hj) as (_ & _ & ->). auto.
  - split; [apply m_tab_wf|]. split; auto. split; auto. intros j Hj.
    destruct (HO j Hj) as (_ & E2 & E3). exists (map af_dv (outs j)).
    split; [auto|]. split; [rewrite map_length; auto|]. intros i Hi. rewrite (ent_tab Fo) by auto. reflexivity.
Qed.

(** No outputs or wrong sizes. *)
Lemma jacobian_forward_wrong_size red f x w n :
  fn_n f = Ok n -> length x <> n -> forall J, jacobian_forward Fo red f x w <> Ok J.
Proof.
  intros Hn Hx J. unfold jacobian_forward. rewrite Hn. cbn [bind].
  destruct (fn_m f); [|discriminate]. cbn [bind].
  destruct (Nat.eqb_spec (length x) n); [contradiction|]. discriminate.
Qed.
End Generic.

Open Scope R_scope.

(** Moving along the j-th coordinate. *)
Lemma vadd_unit x j s : (j < length x)%nat ->
  vadd x (vscal s (unitv Rops (length x) j)) = update x j (nth j x 0 + s).
Proof.
  unfold unitv. cbn [f_zero f_one Rops].
  revert j; induction x as [|a x IH]; intros j H; cbn in H; [lia|].
  assert (forall z : list R, vadd z (vscal s (repeat 0 (length z))) = z) as Z.
  { clear. unfold vadd, vscal. induction z; auto. cbn. rewrite IHz. f_equal. ring. }
  destruct j as [|j]; unfold vadd, vscal; cbn.
  - f_equal; [ring|]. apply Z.
  - f_equal; [ring|]. apply IH. lia.
Qed.

Theorem jacobian_forward_derivative red f x w t w' n m :
  rayon red -> fn_n f = Ok n -> fn_m f = Ok m -> length x = n ->
  fn_tape Rops f x w = Ok (t, w') -> num_deps t = m ->
  regular f x -> same_branches_near f x -> no_abs t ->
  exists J, jacobian_forward Rops red f x w = Ok J /\ wf_mat J /\ m_rows J = m /\ m_cols J = n /\
    forall i j, (i < m)%nat -> (j < n)%nat ->
      derivable_pt_lim (fun s => nth i (outputs f (update x j (nth j x 0 + s))) 0) 0
                       (ent Rops J i j).
Proof.
  intros HR Hn Hm Hx HT Hd Hreg Hbr NA.
  destruct (jacobian_forward_sweeps Rops red f x w t w' n m HR Hn Hm Hx HT Hd)
    as (J & EJ & WJ & Rj & Cj & HJ).
  { intros j _. apply R_const_tangents. }
  exists J. split; auto. split; auto. split; auto. split; auto. intros i j Hi Hj.
  destruct (HJ j Hj) as (dy & Ed & Ld & He). rewrite He by auto.
  destruct (forward_derivative f x w t w' HT Hreg Hbr NA (unitv Rops n j))
    as (dy' & Ed' & _ & _ & HD); [rewrite unitv_length; auto|].
  assert (dy' = dy) by congruence. subst dy'. specialize (HD i ltac:(lia)).
  cbn [f_zero Rops].
  intros e He'. destruct (HD e He') as [d Hd']. exists d. intros h Hh1 Hh2.
  specialize (Hd' h Hh1 Hh2). subst n. rewrite !vadd_unit in Hd' by auto. exact Hd'.
Qed.

Lemma dot_unit n : forall z i, length z = n -> (i < n)%nat -> dot (unitv Rops n i) z = nth i z 0.
Proof.
  induction n; intros [|a z] i L H; cbn in *; try lia.
  destruct i as [|i]; unfold unitv in *; cbn.
  - rewrite dot_repeat. ring.
  - specialize (IHn z i ltac:(lia) ltac:(lia)). cbn in IHn. rewrite IHn. ring.
Qed.

Lemma tape_forward_length {F} (Fo : Fops F) t dx dy :
  tape_forward Fo t dx = Ok dy -> length dy = num_deps t.
Proof.
  unfold tape_forward. intros H. apply bind_ok in H as (? & _ & H).
  apply bind_ok in H as (? & _ & H). apply gather_length in H. auto.
Qed.
Lemma tape_reverse_length {F} (Fo : Fops F) t dx dy :
  tape_reverse Fo t dx = Ok dy -> length dy = num_indeps t.
Proof.
  unfold tape_reverse. intros H. apply bind_ok in H as (? & _ & H).
  apply bind_ok in H as (? & _ & H). apply gather_length in H. auto.
Qed.

(** The reverse driver: entry (i, j) is the i-th entry of the forward sweep along e_j. *)
Theorem jacobian_reverse_sweeps red (t : tape R) :
  rayon red -> wf_tape t -> no_abs t -> NoDup (t_deps t) ->
  exists J, jacobian_reverse Rops red t = Ok J /\ wf_mat J /\ m_rows J = num_deps t /\
    m_cols J = num_indeps t /\
    forall j, (j < num_indeps t)%nat ->
      exists dy, tape_forward Rops t (unitv Rops (num_indeps t) j) = Ok dy /\
        length dy = num_deps t /\
        forall i, (i < num_deps t)%nat -> ent Rops J i j = nth i dy 0.
Proof.
  intros HR W NA ND.
  set (xb := fun i => match tape_reverse Rops t (unitv Rops (num_deps t) i) with
                      | Ok r => r | _ => [] end).
  assert (forall i dx, (i < num_deps t)%nat -> length dx = num_indeps t ->
    exists dy, tape_reverse Rops t (unitv Rops (num_deps t) i) = Ok (xb i) /\
      tape_forward Rops t dx = Ok dy /\ nth i dy 0 = dot (xb i) dx) as HA.
  { intros i dx Hi Hx.
    destruct (adjoint t (unitv Rops (num_deps t) i) dx W NA) as (r & dy & E1 & E2 & E3); auto.
    { apply unitv_length. }
    exists dy. assert (xb i = r) as -> by (unfold xb; rewrite E1; auto).
    split; auto. split; auto. rewrite <- E3.
    rewrite last_seeds_nodup; auto.
    - rewrite dot_unit; auto. eapply tape_forward_length; eauto.
    - rewrite unitv_length. reflexivity. }
  exists (m_tab (num_deps t) (num_indeps t) (fun i j => nth j (xb i) (f_zero Rops))).
  split. { apply jacobian_reverse_eq; auto. intros i Hi.
           destruct (HA i (unitv Rops (num_indeps t) 0) Hi) as (dy & E & _); auto.
           apply unitv_length. }
  split; [apply m_tab_wf|]. split; auto. split; auto. intros j Hj.
  destruct (forward_tangents Rops t (unitv Rops (num_indeps t) j) W) as (D & dy & _ & Ef & _).
  { apply unitv_length. }
  exists dy. split; auto. split; [eapply tape_forward_length; eauto|]. intros i Hi.
  rewrite ent_tab by auto.
  destruct (HA i (unitv Rops (num_indeps t) j) Hi) as (dy' & E1 & E2 & E3).
  { apply unitv_length. }
  assert (dy' = dy) by congruence. subst dy'. rewrite E3.
  assert (forall x y, dot x y = dot y x) as DS by (intros; apply dot_sym).
  rewrite DS, dot_unit; auto. eapply tape_reverse_length; eauto.
Qed.

Theorem jacobian_reverse_forward red1 red2 f x w t w' n m :
  rayon red1 -> rayon red2 -> fn_n f = Ok n -> fn_m f = Ok m -> length x = n ->
  fn_tape Rops f x w = Ok (t, w') -> num_deps t = m -> no_abs t -> NoDup (t_deps t) ->
  exists J, jacobian_reverse Rops red1 t = Ok J /\ jacobian_forward Rops red2 f x w = Ok J.
Proof.
  intros HR1 HR2 Hn Hm Hx HT Hd NA ND.
  destruct (fn_tape_wf Rops f x w t w' HT) as ([W _] & _ & Hni).
  destruct (jacobian_forward_sweeps Rops red2 f x w t w' n m HR2 Hn Hm Hx HT Hd)
    as (J & EJ & WJ & Rj & Cj & HJ).
  { intros j _. apply R_const_tangents. }
  destruct (jacobian_reverse_sweeps red1 t HR1 W NA ND) as (J' & EJ' & WJ' & Rj' & Cj' & HJ').
  exists J. split; auto. rewrite EJ'. f_equal. apply (mat_ext Rops); auto; try congruence.
  intros i j Hi Hj. rewrite Rj' in Hi. rewrite Cj' in Hj.
  destruct (HJ' j Hj) as (dy & E1 & _ & E2). destruct (HJ j ltac:(lia)) as (dy' & E3 & _ & E4).
  rewrite E2, E4 by lia. cbn [f_zero Rops]. congruence.
Qed.
