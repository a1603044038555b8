(** Facts about the abs-normal form in exact real arithmetic. *)
From Coq Require Import Reals Lra List Arith ZArith Bool Lia Sorted.
From Verif Require Import Base Float Operation Tape AContext Methods Function Spec TapeFacts
  SweepFacts RealInst DerivSpec DerivFacts LinearFacts DerivFacts2 Matrix MatrixFacts Jacobian JacobianFacts
  AbsNormal AbsNormalFacts AnfSpec RVec.
Import ListNotations.
Open Scope R_scope.

(** ** Every abs-free tape is a matrix *)
Definition one_dep (t : tape R) (d : nat) : tape R := mkTape (t_indeps t) [d] (t_ops t) (t_vals t).

Lemma one_dep_wf t d : wf_tape t -> In d (t_deps t) -> wf_tape (one_dep t d).
Proof.
  intros W H. constructor; try apply W. cbn. intros d' [<-|[]]. apply (wf_dep_range _ W); auto.
Qed.

Definition grad (t : tape R) (d : nat) : list R :=
  match tape_reverse Rops (one_dep t d) [1] with Ok x => x | Panic _ => [] end.
Definition tmat (t : tape R) : matrix R := mkM (num_deps t) (num_indeps t) (map (grad t) (t_deps t)).

Lemma grad_spec t d dx dy k : wf_tape t -> no_abs t -> length dx = num_indeps t ->
  tape_forward Rops t dx = Ok dy -> nth_error (t_deps t) k = Some d ->
  length (grad t d) = num_indeps t /\ nth k dy 0 = dot (grad t d) dx.
Proof.
  intros W NA L EF Hk. pose proof (nth_error_In _ _ Hk) as Hin.
  destruct (adjoint_nodup (one_dep t d) [1] dx) as (xb & dy1 & ER & EF1 & HD); auto.
  - apply one_dep_wf; auto.
  - cbn. repeat constructor. intros [].
  - unfold grad. rewrite ER. split; [apply (tape_reverse_length Rops _ _ _ ER)|].
    unfold tape_forward in EF, EF1. cbn [one_dep t_indeps t_vals t_ops t_deps] in EF1.
    apply bind_ok in EF as (d0 & E0 & EF). rewrite E0 in EF1. cbn [bind] in EF1.
    apply bind_ok in EF as (D & E1 & EF). rewrite E1 in EF1. cbn [bind] in EF1.
    destruct (mapM_ok_nth _ _ _ _ _ EF Hk) as (b & Hb & Hn).
    unfold gather in EF1. cbn in EF1. rewrite Hb in EF1. cbn in EF1. injection EF1 as <-.
    cbn in HD. rewrite (nth_error_nth _ _ _ Hn). lra.
Qed.

Lemma tmat_shape t : wf_tape t -> no_abs t -> shape (tmat t) (num_deps t) (num_indeps t).
Proof.
  intros W NA. split; [|auto]. split; cbn; [apply map_length|].
  apply Forall_forall. intros r Hr. apply in_map_iff in Hr as (d & <- & Hd).
  apply In_nth_error in Hd as [k Hk].
  destruct (forward_tangents Rops t (repeat 0 (num_indeps t)) W) as (D & dy & _ & EF & _);
    [apply repeat_length|].
  eapply (grad_spec t d _ dy k); eauto. apply repeat_length.
Qed.

Theorem represented t : wf_tape t -> no_abs t -> represents t (tmat t).
Proof.
  intros W NA. split; [apply tmat_shape; auto|]. intros dx L.
  destruct (forward_tangents Rops t dx W L) as (D & dy & _ & EF & _). rewrite EF. f_equal.
  pose proof (tape_forward_length Rops _ _ _ EF) as Ld.
  apply nth_ext0.
  - rewrite (mulv_len _ _ _ _ (tmat_shape t W NA)). auto.
  - intros i Hi. rewrite nth_mulv. unfold row, tmat; cbn.
    destruct (nth_error (t_deps t) i) as [d|] eqn:E.
    2: { apply nth_error_None in E. unfold num_deps in Ld. lia. }
    rewrite (nth_error_nth (map (grad t) (t_deps t)) i [] (x := grad t d)).
    + eapply grad_spec; eauto.
    + rewrite nth_error_map, E. auto.
Qed.

Lemma represents_unique t A B : represents t A -> represents t B -> A = B.
Proof.
  intros [SA HA] [SB HB]. eapply mulv_inj; eauto. intros x L.
  apply Ok_inj. rewrite <- HA, <- HB; auto.
Qed.

(** ** Reverse sweeps and the two products *)
Lemma last_seeds_length ids : forall x, length x = length ids -> length (last_seeds ids x) = length ids.
Proof.
  induction ids as [|i ids IH]; intros [|a x] L; cbn in *; try discriminate; auto.
Qed.

Lemma reverse_spec t A yb : wf_tape t -> no_abs t -> represents t A -> length yb = num_deps t ->
  tape_reverse Rops t yb = Ok (vmulm (last_seeds (t_deps t) yb) A).
Proof.
  intros W NA [SA HA] L.
  assert (length (last_seeds (t_deps t) yb) = num_deps t) as Ls by (apply last_seeds_length; auto).
  destruct (adjoint t yb (repeat 0 (num_indeps t)) W NA L) as (xb & _ & ER & _ & _);
    [apply repeat_length|]. rewrite ER. f_equal.
  pose proof (tape_reverse_length Rops _ _ _ ER) as Lx.
  destruct SA as (WA & RA & CA).
  apply dot_nondeg.
  - rewrite vmulm_len. congruence.
  - intros dx Ld. rewrite Lx in Ld.
    destruct (adjoint t yb dx W NA L Ld) as (xb' & dy & ER' & EF & HD).
    assert (xb' = xb) as -> by congruence. rewrite <- HD.
    rewrite HA in EF by auto. injection EF as <-.
    symmetry. eapply vmulm_mulv; [split; eauto| |]; auto.
Qed.

Lemma mcol_col B j : wf_mat B -> mcol Rops B j = col B j.
Proof.
  intros [L H]. apply nth_ext0.
  - unfold mcol. rewrite col_len, map_length, seq_length. auto.
  - intros i Hi. unfold mcol in *. rewrite map_length, seq_length in Hi.
    rewrite (nth_map_seq (fun i => ent Rops B i j)) by auto. rewrite nth_col. auto.
Qed.
Lemma mrow_row A i : wf_mat A -> (i < m_rows A)%nat -> mrow Rops A i = row A i.
Proof.
  intros [L H] Hi. assert (length (row A i) = m_cols A) as LR.
  { eapply row_len; eauto. split; [split; auto|auto]. }
  apply nth_ext0.
  - unfold mrow. rewrite map_length, seq_length. auto.
  - intros j Hj. unfold mrow in *. rewrite map_length, seq_length in Hj.
    rewrite (nth_map_seq (fun j => ent Rops A i j)) by auto. auto.
Qed.

Theorem mul_right_spec red t M B : rayon red -> represents t M ->
  wf_mat B -> m_rows B = num_indeps t -> mul_right Rops red t B = Ok (mm M B).
Proof.
  intros HR [SM HM] WB E.
  rewrite (mul_right_eq Rops red HR t B (fun j => mulv M (mcol Rops B j))); auto.
  - f_equal. unfold mm. destruct SM as (WM & RM & CM). rewrite RM. apply m_tab_ext.
    intros i j Hi Hj. cbn [f_zero Rops]. rewrite nth_mulv, mcol_col by auto. auto.
  - intros j Hj. apply HM. rewrite mcol_col, col_len by auto. destruct WB; congruence.
Qed.

(** [seed A ds]: in every row only the last of several entries for the same output counts. *)
Definition seed_rows (ds : list nat) (A : matrix R) : matrix R :=
  mkM (m_rows A) (m_cols A) (map (last_seeds ds) (m_dat A)).

Lemma seed_rows_nodup ds A : NoDup ds -> wf_mat A -> m_cols A = length ds -> seed_rows ds A = A.
Proof.
  intros ND [L H] E. destruct A as [r c d]; unfold seed_rows; cbn in *. f_equal.
  rewrite <- (map_id d) at 2. apply map_ext_in. intros x Hx. apply last_seeds_nodup; auto.
  rewrite Forall_forall in H. rewrite H; auto.
Qed.

Theorem mul_left_general red t M A : rayon red -> wf_tape t -> no_abs t -> represents t M ->
  wf_mat A -> m_cols A = num_deps t -> mul_left Rops red t A = Ok (mm (seed_rows (t_deps t) A) M).
Proof.
  intros HR W NA RM WA E.
  assert (forall i, (i < m_rows A)%nat -> length (row A i) = num_deps t) as LR.
  { intros i Hi. rewrite <- E. eapply row_len; eauto. split; [auto|auto]. }
  rewrite (mul_left_eq Rops red HR t A (fun i => vmulm (last_seeds (t_deps t) (row A i)) M)); auto.
  - f_equal. destruct RM as [(WM & RM & CM) HM]. unfold mm. cbn [m_rows seed_rows]. rewrite CM.
    apply m_tab_ext. intros i j Hi Hj. cbn [f_zero Rops]. rewrite nth_vmulm by lia. f_equal.
    unfold row at 2. cbn. rewrite (nth_indep _ [] (last_seeds (t_deps t) [])).
    + rewrite (map_nth (last_seeds (t_deps t))). auto.
    + rewrite map_length. destruct WA. lia.
  - intros i Hi. rewrite mrow_row by auto. apply reverse_spec; auto.
Qed.

Theorem mul_left_spec red t M A : rayon red -> wf_tape t -> no_abs t -> NoDup (t_deps t) ->
  represents t M -> wf_mat A -> m_cols A = num_deps t -> mul_left Rops red t A = Ok (mm A M).
Proof.
  intros HR W NA ND RM WA E. rewrite (mul_left_general red t M A) by auto.
  rewrite seed_rows_nodup; auto.
Qed.

Lemma mm_id_r A r c : shape A r c -> mm A (m_id Rops c) = A.
Proof.
  intros SA. eapply (shape_ext _ _ r c); auto.
  - destruct SA as (WA & RA & CA). rewrite <- RA. apply shape_mm.
  - intros i j Hi Hj. destruct SA as (WA & RA & CA). unfold mm. rewrite (ent_tab Rops) by (cbn; lia).
    assert (col (m_id Rops c) j = unitv Rops c j) as ->.
    { apply nth_ext0; [rewrite col_len, unitv_length; cbn; rewrite map_length, seq_length; auto|].
      intros k Hk. rewrite col_len in Hk. cbn in Hk. rewrite map_length, seq_length in Hk.
      rewrite nth_col. unfold m_id. rewrite (ent_tab Rops) by auto. unfold unitv. cbn [f_zero f_one Rops].
      destruct (Nat.eqb_spec k j) as [->|Hne].
      - symmetry. apply nth_error_nth0, nth_error_update_eq. rewrite repeat_length; auto.
      - symmetry. fold (at0 (update (repeat 0 c) j 1) k). rewrite at0_update_neq by auto. apply at0_repeat. }
    rewrite dot_unit_r; auto. apply (row_len A r c); auto. split; auto.
Qed.

Lemma mm_id_l A r c : shape A r c -> mm (m_id Rops r) A = A.
Proof.
  intros SA. eapply (shape_ext _ _ r c); auto.
  - destruct SA as (WA & RA & CA). rewrite <- CA. apply (shape_mm (m_id Rops r)).
  - intros i j Hi Hj. destruct SA as ([LA FA] & RA & CA). unfold mm. rewrite (ent_tab Rops) by (cbn; lia).
    assert (row (m_id Rops r) i = unitv Rops r i) as ->.
    { unfold row, m_id, m_tab. cbn [m_dat]. rewrite nth_map_seq by auto.
      apply nth_ext0; [rewrite map_length, seq_length, unitv_length; auto|].
      intros k Hk. rewrite map_length, seq_length in Hk. rewrite nth_map_seq by auto.
      unfold unitv. cbn [f_zero f_one Rops].
      destruct (Nat.eqb_spec i k) as [->|Hne].
      - symmetry. apply nth_error_nth0, nth_error_update_eq. rewrite repeat_length; auto.
      - symmetry. fold (at0 (update (repeat 0 r) i 1) k). rewrite at0_update_neq by auto. apply at0_repeat. }
    rewrite dot_unit; auto; [apply nth_col|]. rewrite col_len. congruence.
Qed.

(** ** Rows and columns *)
Lemma unit_row n i : (i < n)%nat -> m_set (m_zeros Rops 1 n) 0 i (f_one Rops)
  = Ok (mkM 1 n [unitv Rops n i]).
Proof.
  intros H. unfold m_set, m_zeros, m_const. cbn. rewrite set_lt by (rewrite repeat_length; auto).
  reflexivity.
Qed.
Lemma unit_row_over n i : (n <= i)%nat -> m_set (m_zeros Rops 1 n) 0 i (f_one Rops) = Panic PIndex.
Proof.
  intros H. unfold m_set, m_zeros, m_const. cbn. unfold set. rewrite repeat_length.
  destruct (Nat.ltb_spec i n); [lia|]. reflexivity.
Qed.

Theorem sub_row_spec red t M i : rayon red -> wf_tape t -> no_abs t -> NoDup (t_deps t) ->
  represents t M -> (i < num_deps t)%nat ->
  sub_row Rops red t i = Ok (mkM 1 (num_indeps t) [row M i]).
Proof.
  intros HR W NA ND RM Hi. unfold sub_row. rewrite unit_row by auto. cbn [bind].
  rewrite (mul_left_spec red t M); auto.
  2: { split; cbn; auto. constructor; auto. apply unitv_length. }
  f_equal. destruct RM as [(WM & RM & CM) _]. unfold mm, m_tab. cbn [m_rows]. rewrite CM.
  f_equal. cbn [seq map]. f_equal.
  assert (length (row M i) = num_indeps t) as LR by (apply (row_len M (num_deps t) _ i); [split; auto|auto]).
  apply nth_ext0; rewrite map_length, seq_length; [auto|]. intros j Hj.
  rewrite nth_map_seq by auto. unfold row at 1. cbn [m_dat nth].
  rewrite dot_unit; [apply nth_col| |auto]. rewrite col_len. destruct WM. congruence.
Qed.
Theorem sub_row_over red t i : (num_deps t <= i)%nat -> sub_row Rops red t i = Panic PIndex.
Proof. intros H. unfold sub_row. rewrite unit_row_over by auto. reflexivity. Qed.

Theorem sub_column_panics red t i : num_indeps t <> 1%nat ->
  sub_column Rops red t i = Panic (if (i <? num_indeps t)%nat then PAssert else PIndex).
Proof.
  intros H. unfold sub_column. destruct (Nat.ltb_spec i (num_indeps t)).
  - rewrite unit_row by auto. cbn [bind]. apply mul_right_dim. cbn. auto.
  - rewrite unit_row_over by auto. reflexivity.
Qed.
Theorem sub_column_one red t M : rayon red -> represents t M -> num_indeps t = 1%nat ->
  sub_column Rops red t 0 = Ok M.
Proof.
  intros HR RM H. unfold sub_column. rewrite unit_row by lia. cbn [bind]. rewrite H.
  rewrite (mul_right_spec red t M); auto.
  - f_equal. destruct RM as [SM _]. rewrite H in SM. rewrite <- (mm_id_r M _ _ SM) at 2. reflexivity.
  - split; cbn; auto.
Qed.

(** ** Tangents below the first seed vanish *)
Lemma low_tangents t dx D b : wf_tape t -> no_abs t -> tangents_at Rops t dx D ->
  (forall k i, nth_error (t_indeps t) k = Some i -> (i < b)%nat -> nth k dx 0 = 0) ->
  forall j, (j < b)%nat -> at0 D j = 0.
Proof.
  intros W NA T HS j. pose proof (proj1 (no_abs_iff t) NA) as NA'.
  induction j as [j IH] using (well_founded_induction lt_wf). intros Hb.
  destruct (Nat.lt_ge_cases j (length (t_vals t))) as [Hj|Hj].
  2: { apply nth_overflow. rewrite (ta_len _ _ _ _ T). auto. }
  destruct (in_dec Nat.eq_dec j (t_indeps t)) as [Hi|Hi].
  { apply In_nth_error in Hi as [k Hk]. destruct (ta_seed _ _ _ _ T k j Hk) as (a & Ha & Hd).
    rewrite (nth_at0 _ _ _ Hd). rewrite <- (HS k j Hk Hb). symmetry. apply nth_error_nth; auto. }
  destruct (in_dec Nat.eq_dec j (def_ids (t_ops t))) as [Hd|Hd].
  2: { apply (nth_at0 _ _ _ (ta_zero _ _ _ _ T j Hj Hi Hd)). }
  apply AbsNormalFacts.in_def_ids in Hd as (o & Ho & NN & Ev). subst j.
  pose proof (wf_ops _ W o Ho) as Wo.
  pose proof (tangent_lin _ _ _ _ Wo (NA' o Ho) (ta_op _ _ _ _ T o Ho)) as HL.
  destruct (opcode_eqb (opcode o) Const) eqn:EC.
  { apply opcode_eqb_eq in EC. unfold lin_eq in HL. rewrite EC in HL. auto. }
  assert (opcode o <> Const) as NC by (intros G; apply opcode_eqb_eq in G; congruence).
  destruct (wf_op_args _ o Wo NN NC) as (Hv & i & Ei & Hlt & H2).
  unfold lin_eq in HL. rewrite Ei in HL.
  destruct H2 as [(U & B & E2)|(B & U & k & E2 & Hk)]; rewrite E2 in HL.
  - rewrite (IH i) in HL by lia. rewrite !Rmult_0_r in HL.
    revert HL. destruct (opcode o); auto; congruence.
  - rewrite (IH i), (IH k) in HL by lia. rewrite !Rmult_0_r, Rplus_0_r in HL.
    revert HL. destruct (opcode o); auto; congruence.
Qed.

Lemma sorted_nth l : StronglySorted lt l -> forall i j a b, (i <= j)%nat ->
  nth_error l i = Some a -> nth_error l j = Some b -> (a <= b)%nat.
Proof.
  induction 1 as [|c l HS IH HF]; intros i j a b Hij Ha Hb; [destruct i; discriminate|].
  destruct i as [|i], j as [|j]; cbn in Ha, Hb; try lia.
  - assert (a = b) by congruence. lia.
  - injection Ha as <-. rewrite Forall_forall in HF. apply nth_error_In in Hb. specialize (HF _ Hb). lia.
  - apply (IH i j a b); auto. lia.
Qed.

Lemma sub_no_abs (t s : tape R) : sub_of t s -> no_abs s.
Proof. intros H. apply no_abs_iff. eapply sub_of_ops; eauto. Qed.

Theorem l_lower (t : tape R) args L : wf_tape t -> abs_args t = Ok args ->
  represents (mk_sub t (abs_ids t) args) L -> strictly_lower L.
Proof.
  intros W EA [SL HL] i j Hij Hj.
  pose proof (sub_l t W args EA) as HS. set (s := mk_sub t (abs_ids t) args) in *.
  assert (wf_tape s) as Ws by (eapply sub_of_wf; eauto).
  assert (no_abs s) as Ns by (eapply sub_no_abs; eauto).
  assert (length args = num_abs t) as LA by (apply mapM_ok_length in EA; auto).
  assert (num_indeps s = num_abs t) as LI by (unfold num_indeps; cbn; apply abs_ids_length).
  destruct SL as (WL & RL & CL). rewrite CL, LI in Hj.
  rewrite <- row_ent, <- (dot_unit_r (num_indeps s) (row L i) j), <- nth_mulv; [|eapply row_len; [split; eauto|]|lia].
  2: { rewrite RL || idtac. unfold num_deps. cbn. lia. }
  destruct (forward_tangents Rops s (unitv Rops (num_indeps s) j) Ws (unitv_length _ _ _))
    as (D & dy & T & EF & EG).
  rewrite HL in EF by apply unitv_length. injection EF as EF. rewrite EF.
  destruct (nth_error (filter is_abs (t_ops t)) i) as [oi|] eqn:Ei.
  2: { apply nth_error_None in Ei. unfold num_abs in *. lia. }
  destruct (nth_error (filter is_abs (t_ops t)) j) as [oj|] eqn:Ej.
  2: { apply nth_error_None in Ej. unfold num_abs in *. lia. }
  destruct (abs_nth t W args i oi EA Ei) as (_ & _ & Ii & k & Hk & _ & Hlt).
  destruct (abs_nth t W args j oj EA Ej) as (_ & _ & Ij & _).
  destruct (mapM_ok_nth _ _ _ _ _ EG Hk) as (b & Hb & Hn). rewrite (nth_error_nth _ _ _ Hn).
  apply get_ok in Hb. rewrite <- (nth_at0 _ _ _ Hb).
  assert (vid oi <= vid oj)%nat as Hle
    by (eapply (sorted_nth _ (abs_ids_sorted t W) i j); eauto).
  apply (low_tangents s _ D (vid oj) Ws Ns T); [|lia].
  intros p q Hp Hq. cbn in Hp. unfold unitv. cbn [f_zero f_one Rops].
  assert (p <> j) as Hne. { intros ->. rewrite Ij in Hp. injection Hp as <-. lia. }
  fold (at0 (update (repeat 0 (num_indeps s)) j 1) p). rewrite at0_update_neq by auto. apply at0_repeat.
Qed.

(** ** Uniqueness of the switching values *)
Lemma dot_prefix u : forall x y i, length x = length y ->
  (forall j, (i <= j)%nat -> nth j u 0 = 0) -> (forall j, (j < i)%nat -> nth j x 0 = nth j y 0) ->
  dot u x = dot u y.
Proof.
  intros x y i L HU HX. apply dot_ext; auto. intros j.
  destruct (Nat.lt_ge_cases j i); [rewrite HX by auto; auto|rewrite HU by auto; ring].
Qed.

Lemma lower_prefix L s x y i : shape L s s -> strictly_lower L -> length x = length y ->
  (forall j, (j < i)%nat -> nth j x 0 = nth j y 0) ->
  nth i (mulv L x) 0 = nth i (mulv L y) 0.
Proof.
  intros SL HL Lxy H. rewrite !nth_mulv. apply (dot_prefix _ _ _ i); auto.
  intros j Hj. destruct (Nat.lt_ge_cases i s) as [Hi|Hi].
  - destruct (Nat.lt_ge_cases j s) as [Hjs|Hjs].
    + rewrite row_ent. apply HL; auto. destruct SL as (_ & _ & ->). auto.
    + apply nth_overflow. rewrite (row_len L s s) by auto. auto.
  - rewrite (row_over L s s) by auto. destruct j; auto.
Qed.

Lemma switching_unique_gen L s c zh zh' : shape L s s -> strictly_lower L -> length c = s ->
  length zh = s -> length zh' = s ->
  zh = vadd c (mulv L (vabs zh)) -> zh' = vadd c (mulv L (vabs zh')) -> zh = zh'.
Proof.
  intros SL HL Lc L1 L2 E1 E2. apply nth_ext0; [congruence|].
  intros i; induction i as [i IH] using (well_founded_induction lt_wf). intros Hi.
  rewrite E1, E2. rewrite !nth_vadd by (rewrite (mulv_len _ _ _ _ SL); auto). f_equal.
  eapply lower_prefix; eauto; [rewrite !vabs_len; congruence|].
  intros j Hj. rewrite !nth_vabs. rewrite IH by lia. auto.
Qed.

(** ** Splitting the inputs of a sub-tape *)
Lemma seeded_app_zero ids1 ids2 x D : seeded ids1 x D -> length x = length ids1 ->
  (forall i, In i ids2 -> nth_error D i = Some 0) ->
  seeded (ids1 ++ ids2) (x ++ repeat 0 (length ids2)) D.
Proof.
  intros HS L HZ k i Hk. destruct (Nat.lt_ge_cases k (length ids1)) as [H|H].
  - rewrite nth_error_app1 in Hk by auto. destruct (HS k i Hk) as (a & Ha & Hd). exists a.
    split; auto. rewrite nth_error_app1; [auto|lia].
  - rewrite nth_error_app2 in Hk by auto. exists 0. split; [|apply HZ; eapply nth_error_In; eauto].
    rewrite nth_error_app2 by lia. rewrite L. apply nth_error_repeat. apply nth_error_Some. congruence.
Qed.
Lemma seeded_zero_app ids1 ids2 x D : seeded ids2 x D ->
  (forall i, In i ids1 -> nth_error D i = Some 0) ->
  seeded (ids1 ++ ids2) (repeat 0 (length ids1) ++ x) D.
Proof.
  intros HS HZ k i Hk. destruct (Nat.lt_ge_cases k (length ids1)) as [H|H].
  - rewrite nth_error_app1 in Hk by auto. exists 0.
    split; [|apply HZ; eapply nth_error_In; eauto].
    rewrite nth_error_app1; [apply nth_error_repeat; auto|rewrite repeat_length; auto].
  - rewrite nth_error_app2 in Hk by auto. destruct (HS _ _ Hk) as (a & Ha & Hd). exists a.
    split; auto. rewrite nth_error_app2; rewrite repeat_length; auto.
Qed.

Section Split.
Context (t : tape R) (W : wf_tape t) (outs : list nat).
Context (Houts : forall d, In d outs -> (d < length (t_vals t))%nat).
Let full := mk_sub t (t_indeps t ++ abs_ids t) outs.
Let sx := mk_sub t (t_indeps t) outs.
Let sw := mk_sub t (abs_ids t) outs.

Lemma sub_full : sub_of t full.
Proof.
  split; [reflexivity|]. split; [reflexivity|]. cbn. split; [apply nodup_indeps; auto|].
  split; [intros i; rewrite in_app_iff; auto|auto].
Qed.
Lemma sub_sx : sub_of t sx.
Proof. split; [reflexivity|]. split; [reflexivity|]. cbn. split; [apply W|]. split; auto. Qed.
Lemma sub_sw : sub_of t sw.
Proof.
  split; [reflexivity|]. split; [reflexivity|]. cbn.
  split; [apply sorted_nodup, abs_ids_sorted; auto|]. split; auto.
Qed.

Lemma disjoint_abs i : In i (t_indeps t) -> In i (abs_ids t) -> False.
Proof. intros H1 H2. apply (wf_indep_def _ W i H1). apply abs_ids_def; auto. Qed.

Lemma tangents_x dx D : length dx = num_indeps t -> tangents_at Rops sx dx D ->
  tangents_at Rops full (dx ++ repeat 0 (length (abs_ids t))) D.
Proof.
  intros L [T1 T2 T3 T4]. cbn in *. constructor; cbn; auto.
  - apply seeded_app_zero; auto. intros i Hi. apply T4.
    + destruct (abs_ids_in t i Hi) as (o & Ho & Ha & <-). apply (abs_op_wf t W o Ho Ha).
    + intros G. apply (disjoint_abs i); auto.
    + apply abs_ids_not_deabs; auto.
  - intros k Hk H1 H2. apply T4; auto. intros G. apply H1, in_or_app; auto.
Qed.
Lemma tangents_w w D : tangents_at Rops sw w D ->
  tangents_at Rops full (repeat 0 (length (t_indeps t)) ++ w) D.
Proof.
  intros [T1 T2 T3 T4]. cbn in *. constructor; cbn; auto.
  - apply seeded_zero_app; auto. intros i Hi. apply T4.
    + apply (wf_indep_range _ W); auto.
    + intros G. apply (disjoint_abs i); auto.
    + intros G. apply (wf_indep_def _ W i Hi). apply def_deabs_sub; auto.
  - intros k Hk H1 H2. apply T4; auto. intros G. apply H1, in_or_app; auto.
Qed.

Lemma lincomb_app a b x1 : forall y1 x2 y2, length x1 = length y1 ->
  lincomb a b (x1 ++ x2) (y1 ++ y2) = lincomb a b x1 y1 ++ lincomb a b x2 y2.
Proof.
  induction x1 as [|c x1 IH]; intros [|d y1] x2 y2 L; cbn in L; try discriminate; auto.
  cbn. f_equal. apply IH. lia.
Qed.
Lemma lincomb_zero_r x n : length x = n -> lincomb 1 1 x (repeat 0 n) = x.
Proof.
  revert n; induction x as [|a x IH]; intros [|n] L; cbn in L; try discriminate; auto.
  cbn. f_equal; [ring|]. apply IH. lia.
Qed.
Lemma lincomb_zero_l x n : length x = n -> lincomb 1 1 (repeat 0 n) x = x.
Proof.
  revert n; induction x as [|a x IH]; intros [|n] L; cbn in L; try discriminate; auto.
  cbn. f_equal; [ring|]. apply IH. lia.
Qed.
Lemma lincomb_vadd x : forall y, lincomb 1 1 x y = vadd x y.
Proof.
  induction x as [|a x IH]; intros [|b y]; cbn; auto. f_equal; [ring|]. apply IH.
Qed.

Lemma forward_split dx w : length dx = num_indeps t -> length w = num_abs t ->
  exists p q, tape_forward Rops sx dx = Ok p /\ tape_forward Rops sw w = Ok q /\
    tape_forward Rops full (dx ++ w) = Ok (vadd p q).
Proof.
  intros Lx Lw. pose proof (sub_of_wf t W _ sub_full) as Wf. pose proof (sub_of_wf t W _ sub_sx) as Wx.
  pose proof (sub_of_wf t W _ sub_sw) as Ww.
  assert (length (abs_ids t) = num_abs t) as LA by apply abs_ids_length.
  destruct (forward_tangents Rops sx dx Wx) as (Dx & p & Tx & Fx & Gx); [auto|].
  destruct (forward_tangents Rops sw w Ww) as (Dw & q & Tw & Fw & Gw); [unfold num_indeps; cbn; lia|].
  exists p, q. split; auto. split; auto.
  pose proof (tangents_x dx Dx Lx Tx) as Tx'. pose proof (tangents_w w Dw Tw) as Tw'.
  assert (num_indeps full = length (t_indeps t) + num_abs t)%nat as Lf
    by (unfold num_indeps; cbn; rewrite app_length; lia).
  unfold num_indeps in Lx.
  destruct (forward_linear full 1 1 (dx ++ repeat 0 (length (abs_ids t)))
             (repeat 0 (length (t_indeps t)) ++ w) Wf) as (y1 & y2 & F1 & F2 & F3).
  { apply (sub_no_abs t), sub_full. }
  { rewrite app_length, repeat_length. lia. }
  { rewrite app_length, repeat_length. lia. }
  rewrite lincomb_app in F3 by (rewrite repeat_length; auto).
  rewrite lincomb_zero_r in F3 by auto. rewrite lincomb_zero_l in F3 by lia.
  rewrite F3. f_equal. rewrite lincomb_vadd.
  destruct (forward_tangents Rops full (dx ++ repeat 0 (length (abs_ids t))) Wf) as (D1 & y1' & T1 & F1' & G1).
  { rewrite app_length, repeat_length. lia. }
  destruct (forward_tangents Rops full (repeat 0 (length (t_indeps t)) ++ w) Wf) as (D2 & y2' & T2 & F2' & G2).
  { rewrite app_length, repeat_length. lia. }
  assert (D1 = Dx) as -> by (apply (tangents_at_unique Rops full _ D1 Dx Wf T1 Tx')).  
  assert (D2 = Dw) as -> by (apply (tangents_at_unique Rops full _ D2 Dw Wf T2 Tw')).
  cbn in G1, G2, Gx, Gw. congruence.
Qed.
End Split.

(** ** The original tape solves the equations of the abs-normal tape *)
Lemma tangents_abs t args dx D z zh :
  wf_tape t -> abs_args t = Ok args -> tangents_at Rops t dx D -> length dx = num_indeps t ->
  gather args (t_vals t) = Ok z ->
  zh = map (fun i => at0 (t_vals t) i + at0 D i) args ->
  tangents_at Rops (mk_sub t (t_indeps t ++ abs_ids t) (args ++ t_deps t))
    (dx ++ vsub (vabs zh) (vabs z)) D.
Proof.
  intros W EA [T1 T2 T3 T4] L Gz ->.
  assert (length args = num_abs t) as LA by (apply mapM_ok_length in EA; auto).
  constructor; cbn; auto.
  - intros k i Hk. destruct (Nat.lt_ge_cases k (length (t_indeps t))) as [H|H].
    + rewrite nth_error_app1 in Hk by auto. destruct (T2 k i Hk) as (a & Ha & Hd). exists a.
      split; auto. rewrite nth_error_app1; [auto|]. unfold num_indeps in L. lia.
    + rewrite nth_error_app2 in Hk by auto. unfold num_indeps in L.
      rewrite nth_error_app2 by lia. rewrite L. set (q := (k - length (t_indeps t))%nat) in *.
      destruct (nth_error (filter is_abs (t_ops t)) q) as [o|] eqn:Eo.
      2: { apply nth_error_None in Eo. assert (q < length (abs_ids t))%nat by (apply nth_error_Some; congruence).
           rewrite abs_ids_length in *. unfold num_abs in *. lia. }
      destruct (abs_nth t W args q o EA Eo) as (Ho & Ha & Hi & j & Hj & Ej & Hlt).
      rewrite Hi in Hk. injection Hk as <-.
      pose proof (T3 o Ho) as TE. apply is_abs_iff in Ha. apply tangent_eq_inv in TE; try congruence.
      destruct TE as (i & a & d & r & A1 & A2 & A3 & A4 & A5).
      assert (i = j) by congruence. subst i.
      destruct (abs_op_wf t W o Ho) as (_ & _ & E2); [apply is_abs_iff; auto|].
      rewrite E2, Ha in A5. cbn in A5. apply Ok_inj in A5. subst r. exists (Rabs (a + d) - Rabs a).
      split; auto.
      rewrite (nth_error_nth' _ 0).
      * rewrite nth_vsub.
        2: { rewrite !vabs_len, map_length. apply gather_length in Gz. auto. }
        rewrite !nth_vabs. f_equal.
        destruct (mapM_ok_nth _ _ _ _ _ Gz Hj) as (b & Hb & Hn). apply get_ok in Hb.
        assert (b = a) by congruence. subst b. rewrite (nth_error_nth _ _ _ Hn). f_equal. f_equal.
        rewrite (nth_error_nth _ q 0 (x := at0 (t_vals t) j + at0 D j)).
        -- rewrite (nth_at0 _ _ _ A2), (nth_at0 _ _ _ A3). auto.
        -- rewrite nth_error_map, Hj. auto.
      * rewrite vsub_len; rewrite !vabs_len, map_length.
        -- assert (nth_error args q <> None) as G by congruence. apply nth_error_Some in G. auto.
        -- apply gather_length in Gz. auto.
  - intros o Ho. apply in_map_iff in Ho as (o' & <- & Ho'). unfold deabs.
    destruct (is_abs o'); [exact I|]. auto.
  - intros k Hk H1 H2. apply T4; auto.
    + intros G. apply H1, in_or_app; auto.
    + intros G. apply AbsNormalFacts.in_def_ids in G as (o & Ho & NN & Ek). destruct (is_abs o) eqn:EA'.
      * apply H1, in_or_app. right. subst k. unfold abs_ids. apply in_map. apply filter_In. auto.
      * apply H2. apply AbsNormalFacts.in_def_ids. exists o. split; auto. apply in_map_iff. exists o.
        split; auto. unfold deabs. rewrite EA'. auto.
Qed.

Lemma gather_app ids1 ids2 (D : list R) y : gather (ids1 ++ ids2) D = Ok y ->
  exists y1 y2, y = y1 ++ y2 /\ gather ids1 D = Ok y1 /\ gather ids2 D = Ok y2.
Proof.
  revert y; induction ids1 as [|i ids1 IH]; intros y H.
  - exists [], y. auto.
  - unfold gather in *. cbn in H. apply bind_ok in H as (a & Ha & H).
    apply bind_ok in H as (l & Hl & H). injection H as <-.
    destruct (IH l Hl) as (y1 & y2 & -> & H1 & H2). exists (a :: y1), y2. split; auto. split; auto.
    cbn. rewrite Ha. cbn. rewrite H1. auto.
Qed.
Lemma gather_map ids (D y : list R) : gather ids D = Ok y -> y = map (at0 D) ids.
Proof.
  revert y; induction ids as [|i ids IH]; intros y H; unfold gather in *; cbn in H.
  - injection H as <-. auto.
  - apply bind_ok in H as (a & Ha & H). apply bind_ok in H as (l & Hl & H). injection H as <-.
    cbn. f_equal; auto. apply get_ok in Ha. symmetry. apply nth_at0; auto.
Qed.

(** The forward sweep of the original tape satisfies both abs-normal equations. *)
Theorem anf_equations t a args z dx : wf_tape t -> length dx = num_indeps t ->
  an_new t = Ok a -> abs_args t = Ok args -> an_z a = Ok z ->
  exists zh dy pz pl pj py,
    tape_forward Rops t dx = Ok dy /\ length zh = num_abs t /\ length z = num_abs t /\
    tape_forward Rops (z_tape a) dx = Ok pz /\
    tape_forward Rops (l_tape a) (vsub (vabs zh) (vabs z)) = Ok pl /\
    tape_forward Rops (j_tape a) dx = Ok pj /\
    tape_forward Rops (y_tape a) (vsub (vabs zh) (vabs z)) = Ok py /\
    vsub zh z = vadd pz pl /\ dy = vadd pj py.
Proof.
  intros W L EN EA EZ.
  destruct (sub_tapes t a args EN EA) as (-> & -> & -> & -> & _).
  assert (length args = num_abs t) as LA by (apply mapM_ok_length in EA; auto).
  assert (gather args (t_vals t) = Ok z) as Gz.
  { unfold an_z in EZ. unfold an_new in EN. rewrite EA in EN. cbn in EN. injection EN as <-.
    cbn in EZ. rewrite EA in EZ. auto. }
  destruct (forward_tangents Rops t dx W L) as (D & dy & T & EF & EG).
  set (zh := map (fun i => at0 (t_vals t) i + at0 D i) args).
  assert (length zh = num_abs t) as Lzh by (unfold zh; rewrite map_length; auto).
  assert (length z = num_abs t) as Lz by (apply gather_length in Gz; lia).
  set (w := vsub (vabs zh) (vabs z)).
  assert (length w = num_abs t) as Lw by (unfold w; rewrite vsub_len; rewrite !vabs_len; lia).
  pose proof (tangents_abs t args dx D z zh W EA T L Gz eq_refl) as TA. fold w in TA.
  assert (forall d, In d args -> (d < length (t_vals t))%nat) as HR1
    by (intros d Hd; eapply abs_args_range; eauto).
  destruct (forward_split t W args HR1 dx w L Lw) as (pz & pl & F1 & F2 & F3).
  destruct (forward_split t W (t_deps t) (wf_dep_range _ W) dx w L Lw) as (pj & py & F4 & F5 & F6).
  exists zh, dy, pz, pl, pj, py.
  do 7 (split; [auto|]).
  (* the tangents of the sub-tapes with all inputs are D *)
  assert (forall outs, (forall d, In d outs -> (d < length (t_vals t))%nat) -> forall y,
    tape_forward Rops (mk_sub t (t_indeps t ++ abs_ids t) outs) (dx ++ w) = Ok y -> gather outs D = Ok y) as HG.
  { intros outs HO y Hy.
    pose proof (sub_of_wf t W _ (sub_full t W outs HO)) as Wf.
    destruct (forward_tangents Rops _ (dx ++ w) Wf) as (D' & y' & T' & F' & G').
    { unfold num_indeps in *; cbn; rewrite !app_length, abs_ids_length. lia. }
    assert (D' = D) as ->.
    { eapply tangents_at_unique; [apply Wf|apply T'|]. destruct TA as [A1 A2 A3 A4]. constructor; auto. }
    change (gather outs D = Ok y') in G'. rewrite F' in Hy. congruence. }
  split.
  - specialize (HG args HR1 _ F3). apply gather_map in HG, Gz. rewrite HG, Gz. unfold zh.
    apply nth_ext0.
    + rewrite vsub_len; rewrite !map_length; auto.
    + intros i Hi. rewrite nth_vsub by (rewrite !map_length; auto).
      rewrite vsub_len, map_length in Hi by (rewrite !map_length; auto).
      rewrite (nth_indep _ 0 (at0 (t_vals t) 0 + at0 D 0)) by (rewrite map_length; auto).
      rewrite (map_nth (fun i => at0 (t_vals t) i + at0 D i)).
      rewrite (nth_indep (map (at0 (t_vals t)) args) 0 (at0 (t_vals t) 0)) by (rewrite map_length; auto).
      rewrite (map_nth (at0 (t_vals t))).
      rewrite (nth_indep (map (at0 D) args) 0 (at0 D 0)) by (rewrite map_length; auto).
      rewrite (map_nth (at0 D)). ring.
  - specialize (HG (t_deps t) (wf_dep_range _ W) _ F6). congruence.
Qed.

(** ** C25 *)
Lemma an_z_ok (t : tape R) a : wf_tape t -> an_new t = Ok a -> exists z, an_z a = Ok z /\ length z = num_abs t.
Proof.
  intros W EN. destruct (abs_args_ok t W) as (args & EA & LA).
  unfold an_new in EN. rewrite EA in EN. cbn in EN. injection EN as <-. unfold an_z. cbn.
  rewrite EA. cbn. destruct (gather_ok args (t_vals t)) as [z Ez].
  - intros d Hd. eapply abs_args_range; eauto.
  - exists z. split; auto. apply gather_length in Ez. lia.
Qed.

Lemma an_sizes (t : tape R) a : wf_tape t -> an_new t = Ok a ->
  num_indeps (z_tape a) = num_indeps t /\ num_deps (z_tape a) = num_abs t /\
  num_indeps (l_tape a) = num_abs t /\ num_deps (l_tape a) = num_abs t /\
  num_indeps (j_tape a) = num_indeps t /\ num_deps (j_tape a) = num_deps t /\
  num_indeps (y_tape a) = num_abs t /\ num_deps (y_tape a) = num_deps t.
Proof.
  intros W EN. destruct (abs_args_ok t W) as (args & EA & LA).
  destruct (sub_tapes t a args EN EA) as (-> & -> & -> & -> & _).
  unfold num_indeps, num_deps; cbn. rewrite abs_ids_length. repeat split; auto.
Qed.

Theorem anf_correct (t : tape R) (N : anf) dx :
  wf_tape t -> anf_of t N -> length dx = num_indeps t ->
  exists zh, switching N dx zh /\ (forall zh', switching N dx zh' -> zh' = zh) /\
    tape_forward Rops t dx = Ok (increment N dx zh).
Proof.
  intros W [(a & z & EN & EZ & [SZ RZ] & [SL RL] & [SJ RJ] & [SY RY] & Ea & Eb)] L.
  destruct (abs_args_ok t W) as (args & EA & LA).
  destruct (an_sizes t a W EN) as (N1 & N2 & N3 & N4 & N5 & N6 & N7 & N8).
  rewrite N1, N2 in SZ. rewrite N3, N4 in SL. rewrite N5, N6 in SJ. rewrite N7, N8 in SY.
  destruct (anf_equations t a args z dx W L EN EA EZ)
    as (zh & dy & pz & pl & pj & py & EF & Lzh & Lz & F1 & F2 & F3 & F4 & G1 & G2).
  rewrite RZ in F1 by lia. rewrite RJ in F3 by lia.
  assert (length (vsub (vabs zh) (vabs z)) = num_abs t) as Lw
    by (rewrite vsub_len; rewrite !vabs_len; lia).
  rewrite RL in F2 by lia. rewrite RY in F4 by lia.
  apply Ok_inj in F1, F2, F3, F4. subst pz pl pj py.
  assert (length (vabs zh) = length (vabs z)) as Lab by (rewrite !vabs_len; lia).
  rewrite mulv_vsub in G1, G2 by auto.
  assert (length (f_a N) = num_abs t) as La.
  { rewrite Ea, vsub_len; auto. rewrite (mulv_len _ _ _ _ SL). auto. }
  assert (length (f_b N) = num_deps t) as Lb.
  { rewrite Eb, map_length, (mulv_len _ _ _ _ SY). auto. }
  assert (switching N dx zh) as SW.
  { split; [congruence|]. apply nth_ext0.
    - rewrite !vadd_len; rewrite ?(mulv_len _ _ _ _ SZ), ?(mulv_len _ _ _ _ SL); try congruence.
      rewrite vadd_len; rewrite ?(mulv_len _ _ _ _ SZ); congruence.
    - intros i Hi. assert (nth i (vsub zh z) 0 = nth i (vadd (mulv (f_zmat N) dx)
         (vsub (mulv (f_lmat N) (vabs zh)) (mulv (f_lmat N) (vabs z)))) 0) as E by (rewrite G1; auto).
      rewrite nth_vsub in E by congruence.
      rewrite nth_vadd in E by (rewrite vsub_len; rewrite !(mulv_len _ _ _ _ SL), ?(mulv_len _ _ _ _ SZ); auto).
      rewrite nth_vsub in E by (rewrite !(mulv_len _ _ _ _ SL); auto).
      rewrite nth_vadd.
      2: { rewrite vadd_len; rewrite ?(mulv_len _ _ _ _ SL), ?(mulv_len _ _ _ _ SZ); auto. }
      rewrite nth_vadd by (rewrite ?(mulv_len _ _ _ _ SZ); auto).
      rewrite Ea, nth_vsub by (rewrite (mulv_len _ _ _ _ SL); auto). lra. }
  exists zh. split; [auto|]. split.
  - intros zh' [L' E']. destruct SW as [_ E].
    apply (switching_unique_gen (f_lmat N) (num_abs t) (vadd (f_a N) (mulv (f_zmat N) dx))); auto; try congruence.
    + eapply l_lower; eauto. destruct (sub_tapes t a args EN EA) as (_ & <- & _). split; auto.
      rewrite N3, N4. auto.
    + rewrite vadd_len; [auto|]. rewrite (mulv_len _ _ _ _ SZ); auto.
  - rewrite EF. f_equal. rewrite G2. unfold increment.
    apply nth_ext0.
    + rewrite !vadd_len; rewrite ?vsub_len; rewrite ?vadd_len;
        rewrite ?(mulv_len _ _ _ _ SJ), ?(mulv_len _ _ _ _ SY); auto.
    + intros i Hi.
      rewrite nth_vadd by (rewrite vsub_len; rewrite ?(mulv_len _ _ _ _ SJ), ?(mulv_len _ _ _ _ SY); auto).
      rewrite nth_vsub by (rewrite !(mulv_len _ _ _ _ SY); auto).
      rewrite nth_vadd.
      2: { rewrite vadd_len; rewrite ?(mulv_len _ _ _ _ SJ), ?(mulv_len _ _ _ _ SY); auto. }
      rewrite nth_vadd by (rewrite ?(mulv_len _ _ _ _ SJ); auto).
      rewrite Eb, nth_vneg. lra.
Qed.

Theorem anf_lower (t : tape R) (N : anf) : wf_tape t -> anf_of t N -> strictly_lower (f_lmat N).
Proof.
  intros W [(a & z & EN & EZ & _ & RL & _)]. destruct (abs_args_ok t W) as (args & EA & LA).
  eapply l_lower; eauto. destruct (sub_tapes t a args EN EA) as (_ & <- & _). auto.
Qed.

(** ** C27 *)
Lemma fdot_dot x : forall y, fdot Rops x y = dot x y.
Proof. induction x as [|a x IH]; intros [|b y]; cbn; auto.  Qed.

Lemma m_mulv_ok A r c x : shape A r c -> length x = c -> m_mulv Rops A x = Ok (mulv A x).
Proof.
  intros (WA & RA & CA) L. unfold m_mulv. rewrite CA, L, Nat.eqb_refl. reflexivity.
Qed.
Lemma v_sub_ok x y : length x = length y -> v_sub Rops x y = Ok (vsub x y).
Proof. intros L. unfold v_sub. rewrite L, Nat.eqb_refl. reflexivity. Qed.
Lemma v_add_ok x y : length x = length y -> v_add Rops x y = Ok (vadd x y).
Proof. intros L. unfold v_add. rewrite L, Nat.eqb_refl. reflexivity. Qed.
Lemma shape_neg A r c : shape A r c -> shape (m_neg2 Rops A) r c.
Proof.
  intros ([L H] & RA & CA). split; [|auto]. split; cbn; [rewrite map_length; auto|].
  rewrite Forall_forall in *. intros x Hx. apply in_map_iff in Hx as (y & <- & Hy).
  unfold v_neg. rewrite map_length. auto.
Qed.
Lemma mulv_neg A x : mulv (m_neg2 Rops A) x = map Ropp (mulv A x).
Proof.
  unfold mulv, m_neg2. cbn. rewrite !map_map. apply map_ext. intros rw.
  unfold v_neg. cbn. revert x. induction rw as [|a rw IH]; intros [|b x]; cbn; try ring.
  rewrite IH. ring.
Qed.

Lemma shape_id n : shape (m_id Rops n) n n.
Proof. apply shape_tab. Qed.

Section Dense.
Context (red : list (list (nat * list R)) -> list (nat * list R)) (HR : rayon red).

Lemma dense_right t M : represents t M ->
  mul_right Rops red t (m_id Rops (num_indeps t)) = Ok M.
Proof.
  intros RM. rewrite (mul_right_spec red t M); auto; [|apply shape_id].
  f_equal. destruct RM as [SM _]. eapply mm_id_r; eauto.
Qed.
Lemma dense_left t M : wf_tape t -> no_abs t -> NoDup (t_deps t) -> represents t M ->
  mul_left Rops red t (m_id Rops (num_deps t)) = Ok M.
Proof.
  intros W NA ND RM. rewrite (mul_left_spec red t M); auto; [|apply shape_id].
  f_equal. destruct RM as [SM _]. eapply mm_id_l; eauto.
Qed.

Theorem abs_normal_tape_correct (t : tape R) :
  wf_tape t -> NoDup (t_deps t) -> (forall args, abs_args t = Ok args -> NoDup args) ->
  exists N, abs_normal_tape Rops red t = Ok N /\ anf_of t N.
Proof.
  intros W ND NA. destruct (an_new_ok t W) as (args & EA & EN). specialize (NA args EA).
  set (a := mkAN _ _ _ _ _ _) in EN.
  destruct (an_z_ok t a W EN) as (z & EZ & Lz).
  destruct (sub_tapes t a args EN EA) as (Tz & Tl & Tj & Ty & _).
  destruct (an_sizes t a W EN) as (N1 & N2 & N3 & N4 & N5 & N6 & N7 & N8).
  pose proof (sub_z t W args EA) as Sz. pose proof (sub_l t W args EA) as Sl.
  pose proof (sub_j t W) as Sj. pose proof (sub_y t W) as Sy.
  rewrite <- Tz in Sz. rewrite <- Tl in Sl. rewrite <- Tj in Sj. rewrite <- Ty in Sy.
  assert (NoDup (t_deps (z_tape a)) /\ NoDup (t_deps (l_tape a)) /\
          NoDup (t_deps (j_tape a)) /\ NoDup (t_deps (y_tape a))) as (D1 & D2 & D3 & D4).
  { rewrite Tz, Tl, Tj, Ty. cbn. auto. }
  pose proof (sub_of_wf t W _ Sz) as Wz. pose proof (sub_no_abs _ _ Sz) as Az.
  pose proof (sub_of_wf t W _ Sl) as Wl. pose proof (sub_no_abs _ _ Sl) as Al.
  pose proof (sub_of_wf t W _ Sj) as Wj. pose proof (sub_no_abs _ _ Sj) as Aj.
  pose proof (sub_of_wf t W _ Sy) as Wy. pose proof (sub_no_abs _ _ Sy) as Ay.
  pose proof (represented _ Wz Az) as Rz. pose proof (represented _ Wl Al) as Rl.
  pose proof (represented _ Wj Aj) as Rj. pose proof (represented _ Wy Ay) as Ry.
  unfold abs_normal_tape. rewrite EN. cbn [bind].
  change (an_n a) with (num_indeps t). change (an_m a) with (num_deps t). change (an_s a) with (num_abs t).
  assert (forall u M (b : bool) k l, represents u M -> wf_tape u -> no_abs u -> NoDup (t_deps u) ->
    k = num_indeps u -> l = num_deps u ->
    (if b then mul_right Rops red u (m_id Rops k) else mul_left Rops red u (m_id Rops l)) = Ok M) as HB.
  { intros u M b k l RM Wu Au Du -> ->. destruct b; [apply dense_right|apply dense_left]; auto. }
  rewrite (HB _ _ _ _ _ Rz) by auto. cbn [bind].
  assert (mul_left Rops red (l_tape a) (m_id Rops (num_abs t)) = Ok (tmat (l_tape a))) as ->
    by (rewrite <- N4; apply dense_left; auto).
  cbn [bind]. rewrite (HB _ _ _ _ _ Rj) by auto. cbn [bind]. rewrite (HB _ _ _ _ _ Ry) by auto. cbn [bind].
  rewrite EZ. cbn [bind].
  assert (shape (tmat (l_tape a)) (num_abs t) (num_abs t)) as SL.
  { pose proof (proj1 Rl) as H. rewrite N3, N4 in H. auto. }
  assert (shape (tmat (y_tape a)) (num_deps t) (num_abs t)) as SY.
  { pose proof (proj1 Ry) as H. rewrite N7, N8 in H. auto. }
  change (v_abs Rops z) with (vabs z).
  rewrite (m_mulv_ok _ _ _ _ SL) by (rewrite vabs_len; auto). cbn [bind].
  rewrite v_sub_ok by (rewrite (mulv_len _ _ _ _ SL); auto). cbn [bind].
  rewrite (m_mulv_ok _ _ _ _ (shape_neg _ _ _ SY)) by (rewrite vabs_len; auto). cbn [bind].
  rewrite mulv_neg. eexists. split; [reflexivity|]. constructor. exists a, z.
  cbn [f_a f_b f_zmat f_lmat f_jmat f_ymat]. do 7 (split; [assumption || reflexivity|]). reflexivity.
Qed.
End Dense.

(** An abs-normal form exists for every tape, even where [abs_normal] gets it wrong. *)
Theorem anf_exists (t : tape R) : wf_tape t -> exists N, anf_of t N.
Proof.
  intros W. destruct (an_new_ok t W) as (args & EA & EN).
  set (a := mkAN _ _ _ _ _ _) in EN.
  destruct (an_z_ok t a W EN) as (z & EZ & Lz).
  destruct (sub_tapes t a args EN EA) as (Tz & Tl & Tj & Ty & _).
  pose proof (sub_z t W args EA) as Sz. pose proof (sub_l t W args EA) as Sl.
  pose proof (sub_j t W) as Sj. pose proof (sub_y t W) as Sy.
  rewrite <- Tz in Sz. rewrite <- Tl in Sl. rewrite <- Tj in Sj. rewrite <- Ty in Sy.
  exists (mkANF (vsub z (mulv (tmat (l_tape a)) (vabs z))) (tmat (z_tape a)) (tmat (l_tape a))
            (map Ropp (mulv (tmat (y_tape a)) (vabs z))) (tmat (j_tape a)) (tmat (y_tape a))).
  constructor. exists a, z. cbn.
  do 2 (split; [auto|]).
  do 4 (split; [apply represented; [eapply sub_of_wf; eauto|eapply sub_no_abs; eauto]|]). auto.
Qed.
