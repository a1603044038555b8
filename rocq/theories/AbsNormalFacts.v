(** Facts about abs-normal tapes: well-formedness of the sub-tapes, mul_left and mul_right. *)
From Coq Require Import Reals Lra List Arith ZArith Bool Lia Sorted.
From Verif Require Import Base Float Operation Tape AContext Methods Function Spec TapeFacts
  SweepFacts RealInst DerivSpec LinearFacts Matrix MatrixFacts Jacobian JacobianFacts AbsNormal.
Import ListNotations.

Open Scope nat_scope.

(** ** The sub-tapes are well formed and contain no abs *)
Lemma is_abs_iff o : is_abs o = true <-> opcode o = Abs.
Proof. unfold is_abs. apply opcode_eqb_eq. Qed.

Lemma def_ids_deabs ops : def_ids (map deabs ops) = map vid (filter (fun o => negb (is_nop o) && negb (is_abs o)) ops).
Proof.
  induction ops as [|o ops IH]; auto. cbn [map]. unfold deabs at 1.
  destruct (is_abs o) eqn:E.
  - rewrite def_ids_cons_nop by reflexivity. cbn. rewrite E, andb_false_r. auto.
  - destruct (is_nop o) eqn:N.
    + rewrite def_ids_cons_nop by (apply is_nop_iff; auto). cbn. rewrite N. auto.
    + rewrite def_ids_cons.
      * cbn. rewrite N, E. cbn. f_equal; auto.
      * intros G. apply is_nop_iff in G. congruence.
Qed.

Lemma in_def_ids k ops : In k (def_ids ops) <-> exists o, In o ops /\ opcode o <> Nop /\ vid o = k.
Proof.
  unfold def_ids. rewrite in_map_iff. split.
  - intros (o & <- & H). apply filter_In in H as [H N]. exists o. split; auto. split; auto.
    intros G. apply is_nop_iff in G. rewrite G in N. discriminate.
  - intros (o & Ho & N & <-). exists o. split; auto. apply filter_In. split; auto.
    destruct (is_nop o) eqn:G; auto. apply is_nop_iff in G. contradiction.
Qed.

Lemma sorted_filter {A} (f : A -> nat) (p q : A -> bool) l :
  (forall a, q a = true -> p a = true) ->
  StronglySorted lt (map f (filter p l)) -> StronglySorted lt (map f (filter q l)).
Proof.
  intros HI. induction l as [|a l IH]; auto. cbn. intros H.
  assert (StronglySorted lt (map f (filter p l))) as H'.
  { destruct (p a); auto. inversion H; auto. }
  destruct (q a) eqn:Q; auto. rewrite (HI _ Q) in H. cbn in *. inversion H; subst.
  constructor; auto. rewrite Forall_forall in *. intros b Hb. apply in_map_iff in Hb as (c & <- & Hc).
  apply H3. apply in_map_iff. exists c; split; auto. apply filter_In in Hc. apply filter_In.
  split; [tauto|]. apply HI; tauto.
Qed.

Lemma sorted_nodup l : StronglySorted lt l -> NoDup l.
Proof.
  induction 1 as [|a l H IH HF]; constructor; auto. intros Hin.
  rewrite Forall_forall in HF. specialize (HF a Hin). lia.
Qed.

(** ids in a sorted tape belong to one operation *)
Lemma sorted_vid_inj ops o1 o2 :
  StronglySorted lt (def_ids ops) -> In o1 ops -> In o2 ops ->
  opcode o1 <> Nop -> opcode o2 <> Nop -> vid o1 = vid o2 -> o1 = o2.
Proof.
  intros HS H1 H2 N1 N2 E.
  assert (forall l, StronglySorted lt (map vid l) -> In o1 l -> In o2 l -> o1 = o2) as G.
  { induction l as [|a l IH]; cbn; intros S1 I1 I2; [tauto|]. inversion S1; subst.
    rewrite Forall_forall in H4.
    destruct I1 as [->|I1], I2 as [->|I2]; auto.
    - specialize (H4 (vid o2) (in_map _ _ _ I2)). lia.
    - specialize (H4 (vid o1) (in_map _ _ _ I1)). lia. }
  apply (G _ HS); apply filter_In; split; auto.
  - destruct (is_nop o1) eqn:X; auto. apply is_nop_iff in X. contradiction.
  - destruct (is_nop o2) eqn:X; auto. apply is_nop_iff in X. contradiction.
Qed.

Section Structure.
Context {F : Type}.
Context (t : tape F) (W : wf_tape t).

Lemma abs_op_wf o : In o (t_ops t) -> is_abs o = true ->
  vid o < length (t_vals t) /\ (exists i, arg1 o = Some i /\ i < vid o) /\ arg2 o = None.
Proof.
  intros Ho Ha. pose proof (wf_ops _ W o Ho) as H. apply is_abs_iff in Ha.
  unfold wf_op in H. rewrite Ha in H. cbn in H. tauto.
Qed.

Lemma abs_args_ok : exists args, abs_args t = Ok args /\ length args = num_abs t.
Proof.
  unfold abs_args, num_abs.
  destruct (mapM_total (fun o => unwrap (arg1 o)) (filter is_abs (t_ops t))) as [args E].
  - intros o Ho. apply filter_In in Ho as [Ho Ha]. destruct (abs_op_wf o Ho Ha) as (_ & (i & -> & _) & _).
    cbn. eauto.
  - exists args. split; auto. apply mapM_ok_length in E. auto.
Qed.

Lemma abs_ids_length : length (abs_ids t) = num_abs t.
Proof. unfold abs_ids, num_abs. rewrite map_length. auto. Qed.

Lemma abs_nth args k o :
  abs_args t = Ok args -> nth_error (filter is_abs (t_ops t)) k = Some o ->
  In o (t_ops t) /\ is_abs o = true /\ nth_error (abs_ids t) k = Some (vid o) /\
  exists i, nth_error args k = Some i /\ arg1 o = Some i /\ i < vid o.
Proof.
  intros E H. assert (In o (filter is_abs (t_ops t))) as Hin by (eapply nth_error_In; eauto).
  apply filter_In in Hin as [Ho Ha]. split; auto. split; auto. split.
  - unfold abs_ids. rewrite nth_error_map, H. auto.
  - destruct (abs_op_wf o Ho Ha) as (_ & (i & E1 & Hi) & _).
    destruct (mapM_ok_nth _ _ _ _ _ E H) as (b & Hb & Hk). rewrite E1 in Hb. cbn in Hb.
    injection Hb as <-. eauto.
Qed.

Lemma abs_ids_sorted : StronglySorted lt (abs_ids t).
Proof.
  unfold abs_ids. eapply (sorted_filter vid (fun o => negb (is_nop o))); [|apply (wf_sorted _ W)].
  intros o H. apply is_abs_iff in H. unfold is_nop. rewrite H. reflexivity.
Qed.

Lemma abs_ids_in k : In k (abs_ids t) -> exists o, In o (t_ops t) /\ is_abs o = true /\ vid o = k.
Proof.
  unfold abs_ids. rewrite in_map_iff. intros (o & <- & H). apply filter_In in H as [? ?]. eauto.
Qed.

Lemma abs_ids_def k : In k (abs_ids t) -> In k (def_ids (t_ops t)).
Proof.
  intros H. destruct (abs_ids_in k H) as (o & Ho & Ha & <-). apply in_def_ids.
  exists o. split; auto. split; auto. apply is_abs_iff in Ha. congruence.
Qed.

Lemma abs_ids_not_deabs k : In k (abs_ids t) -> ~ In k (def_ids (map deabs (t_ops t))).
Proof.
  intros H. destruct (abs_ids_in k H) as (o & Ho & Ha & <-). intros H2.
  apply in_def_ids in H2 as (o2 & H2 & N2 & E). apply in_map_iff in H2 as (o3 & E3 & Ho3).
  unfold deabs in E3. destruct (is_abs o3) eqn:A3.
  - subst o2. apply N2. reflexivity.
  - subst o3. assert (o2 = o) as ->; [|congruence].
    apply (sorted_vid_inj (t_ops t)); auto; [apply W|]. apply is_abs_iff in Ha. congruence.
Qed.

Lemma def_deabs_sub k : In k (def_ids (map deabs (t_ops t))) -> In k (def_ids (t_ops t)).
Proof.
  rewrite def_ids_deabs, in_map_iff. intros (o & <- & H). apply filter_In in H as [Ho H].
  apply in_map. apply filter_In. split; auto. apply andb_prop in H. tauto.
Qed.

(** Any tape made of the same operations without abs, of some of the inputs and abs results, and
    of any outputs in range. *)
Definition sub_of (s : tape F) : Prop :=
  t_ops s = map deabs (t_ops t) /\ t_vals s = t_vals t /\
  NoDup (t_indeps s) /\ (forall i, In i (t_indeps s) -> In i (t_indeps t) \/ In i (abs_ids t)) /\
  (forall d, In d (t_deps s) -> d < length (t_vals t)).

Lemma sub_of_wf s : sub_of s -> wf_tape s.
Proof.
  intros (Eo & Ev & N & I & D). constructor; rewrite ?Eo, ?Ev; auto.
  - intros o Ho. apply in_map_iff in Ho as (o' & <- & Ho'). unfold deabs.
    destruct (is_abs o'); [exact Logic.I|]. apply (wf_ops _ W); auto.
  - rewrite def_ids_deabs. eapply (sorted_filter vid (fun o => negb (is_nop o))); [|apply (wf_sorted _ W)].
    intros o H. apply andb_prop in H. tauto.
  - intros i Hi. destruct (I i Hi) as [H|H]; [apply (wf_indep_range _ W); auto|].
    destruct (abs_ids_in i H) as (o & Ho & Ha & <-). apply (abs_op_wf o Ho Ha).
  - intros i Hi H. destruct (I i Hi) as [G|G].
    + apply (wf_indep_def _ W i G). apply def_deabs_sub; auto.
    + apply (abs_ids_not_deabs i G H).
Qed.

Lemma sub_of_ops s : sub_of s -> forall o, In o (t_ops s) -> opcode o <> Abs.
Proof.
  intros (Eo & _) o Ho. rewrite Eo in Ho. apply in_map_iff in Ho as (o' & <- & Ho').
  unfold deabs. destruct (is_abs o') eqn:E; [discriminate|]. intros G. apply is_abs_iff in G. congruence.
Qed.

Lemma nodup_indeps : NoDup (t_indeps t ++ abs_ids t).
Proof.
  assert (NoDup (abs_ids t)) as NA by (apply sorted_nodup, abs_ids_sorted).
  pose proof (wf_indep_nodup _ W) as NI.
  assert (forall i, In i (t_indeps t) -> ~ In i (abs_ids t)) as HD.
  { intros i Hi H. apply (wf_indep_def _ W i Hi). apply abs_ids_def; auto. }
  revert NI HD. generalize (t_indeps t). induction l as [|a l IH]; cbn; auto.
  intros NI HD. inversion NI; subst. constructor; auto. rewrite in_app_iff. intros [H|H]; auto.
  apply (HD a); auto.
Qed.

Lemma abs_args_range args d : abs_args t = Ok args -> In d args -> d < length (t_vals t).
Proof.
  intros E H. apply In_nth_error in H as [k Hk].
  assert (k < length args) as L by (apply nth_error_Some; congruence).
  destruct (nth_error (filter is_abs (t_ops t)) k) as [o|] eqn:Eo.
  - destruct (abs_nth args k o E Eo) as (Ho & Ha & _ & i & Hi & _ & Hlt).
    destruct (abs_op_wf o Ho Ha) as (Hr & _). assert (d = i) by congruence. lia.
  - apply nth_error_None in Eo. apply mapM_ok_length in E. lia.
Qed.

(** The four sub-tapes, explicitly. *)
Lemma an_new_ok : exists args, abs_args t = Ok args /\
  an_new t = Ok (mkAN t (t_indeps t ++ abs_ids t) (args ++ t_deps t)
                      (num_indeps t) (num_deps t) (num_abs t)).
Proof. destruct abs_args_ok as (args & E & _). exists args. unfold an_new. rewrite E. auto. Qed.

Definition mk_sub (ins outs : list nat) : tape F := mkTape ins outs (map deabs (t_ops t)) (t_vals t).

Lemma sub_tapes a args : an_new t = Ok a -> abs_args t = Ok args ->
  z_tape a = mk_sub (t_indeps t) args /\
  l_tape a = mk_sub (abs_ids t) args /\
  j_tape a = mk_sub (t_indeps t) (t_deps t) /\
  y_tape a = mk_sub (abs_ids t) (t_deps t) /\
  an_tape a = mk_sub (t_indeps t ++ abs_ids t) (args ++ t_deps t).
Proof.
  intros E EA. unfold an_new in E. rewrite EA in E. cbn in E. injection E as <-.
  assert (length args = num_abs t) as L by (apply mapM_ok_length in EA; auto).
  unfold z_tape, l_tape, j_tape, y_tape, sub_tape, an_tape, mk_sub; cbn.
  unfold num_indeps. rewrite <- L.
  rewrite !firstn_app, !firstn_all, !Nat.sub_diag, !firstn_O, !app_nil_r.
  rewrite !skipn_app, !skipn_all, !Nat.sub_diag, !skipn_O. auto.
Qed.

Lemma sub_z args : abs_args t = Ok args -> sub_of (mk_sub (t_indeps t) args).
Proof.
  intros E. split; [reflexivity|]. split; [reflexivity|]. cbn. split; [apply W|]. split; [auto|].
  intros d Hd. eapply abs_args_range; eauto.
Qed.
Lemma sub_l args : abs_args t = Ok args -> sub_of (mk_sub (abs_ids t) args).
Proof.
  intros E. split; [reflexivity|]. split; [reflexivity|]. cbn.
  split; [apply sorted_nodup, abs_ids_sorted|]. split; [auto|].
  intros d Hd. eapply abs_args_range; eauto.
Qed.
Lemma sub_j : sub_of (mk_sub (t_indeps t) (t_deps t)).
Proof.
  split; [reflexivity|]. split; [reflexivity|]. cbn. split; [apply W|]. split; [auto|]. apply W.
Qed.
Lemma sub_y : sub_of (mk_sub (abs_ids t) (t_deps t)).
Proof.
  split; [reflexivity|]. split; [reflexivity|]. cbn.
  split; [apply sorted_nodup, abs_ids_sorted|]. split; [auto|]. apply W.
Qed.
Lemma sub_all args : abs_args t = Ok args ->
  sub_of (mk_sub (t_indeps t ++ abs_ids t) (args ++ t_deps t)).
Proof.
  intros E. split; [reflexivity|]. split; [reflexivity|]. cbn.
  split; [apply nodup_indeps|]. split; [intros i; rewrite in_app_iff; auto|].
  intros d Hd. apply in_app_iff in Hd as [Hd|Hd]; [eapply abs_args_range; eauto|apply (wf_dep_range _ W); auto].
Qed.

End Structure.

(** ** mul_left and mul_right, generically *)
Section Mul.
Context {F : Type} (Fo : Fops F).
Context (red : list (list (nat * list F)) -> list (nat * list F)) (HR : rayon red).
Local Notation ent := (ent Fo).

Definition mcol (A : matrix F) (j : nat) : list F := map (fun i => ent A i j) (seq 0 (m_rows A)).
Definition mrow (A : matrix F) (i : nat) : list F := map (fun j => ent A i j) (seq 0 (m_cols A)).

Lemma mul_right_eq t B d :
  wf_mat B -> m_rows B = num_indeps t ->
  (forall j, j < m_cols B -> tape_forward Fo t (mcol B j) = Ok (d j)) ->
  mul_right Fo red t B = Ok (m_tab (num_deps t) (m_cols B) (fun i j => nth i (d j) (f_zero Fo))).
Proof.
  intros WB E HF. unfold mul_right. rewrite E, Nat.eqb_refl. cbn [assert bind].
  rewrite (mapM_fun _ (fun j => [(j, d j)])).
  - cbn [bind]. rewrite (rayon_concat red _ HR), concat_singletons. unfold m_zeros.
    apply (fill_cols Fo). intros j Hj. specialize (HF j Hj). unfold tape_forward in HF.
    apply bind_ok in HF as (? & _ & HF). apply bind_ok in HF as (? & _ & HF).
    apply gather_length in HF. unfold num_deps. lia.
  - intros j Hj. apply in_seq in Hj.
    rewrite (mapM_fun _ (fun i => ent B i j)).
    + cbn [bind]. rewrite <- E. fold (mcol B j). rewrite HF by lia. reflexivity.
    + intros i Hi. apply in_seq in Hi. apply m_get_wf; auto; lia.
Qed.

Lemma mul_left_eq t A d :
  wf_mat A -> m_cols A = num_deps t ->
  (forall i, i < m_rows A -> tape_reverse Fo t (mrow A i) = Ok (d i)) ->
  mul_left Fo red t A = Ok (m_tab (m_rows A) (num_indeps t) (fun i j => nth j (d i) (f_zero Fo))).
Proof.
  intros WA E HF. unfold mul_left. rewrite E, Nat.eqb_refl. cbn [assert bind].
  rewrite (mapM_fun _ (fun i => [(i, d i)])).
  - cbn [bind]. rewrite (rayon_concat red _ HR), concat_singletons. unfold m_zeros.
    apply (fill_rows Fo). intros i Hi. specialize (HF i Hi). unfold tape_reverse in HF.
    apply bind_ok in HF as (? & _ & HF). apply bind_ok in HF as (? & _ & HF).
    apply gather_length in HF. unfold num_indeps. lia.
  - intros i Hi. apply in_seq in Hi.
    rewrite (mapM_fun _ (fun j => ent A i j)).
    + cbn [bind]. rewrite <- E. fold (mrow A i). rewrite HF by lia. reflexivity.
    + intros j Hj. apply in_seq in Hj. apply m_get_wf; auto; lia.
Qed.

Lemma mul_right_dim t B : m_rows B <> num_indeps t -> mul_right Fo red t B = Panic PAssert.
Proof.
  intros H. unfold mul_right. destruct (Nat.eqb_spec (num_indeps t) (m_rows B)); [congruence|auto].
Qed.
Lemma mul_left_dim t A : m_cols A <> num_deps t -> mul_left Fo red t A = Panic PAssert.
Proof.
  intros H. unfold mul_left. destruct (Nat.eqb_spec (m_cols A) (num_deps t)); [congruence|auto].
Qed.
End Mul.

Section Det.
Context {F : Type} (Fo : Fops F).
Lemma mul_right_det red1 red2 t B : rayon red1 -> rayon red2 ->
  mul_right Fo red1 t B = mul_right Fo red2 t B.
Proof.
  intros H1 H2. unfold mul_right. destruct (assert _); auto. cbn [bind].
  destruct (mapM _ _); auto. cbn [bind].
  rewrite (rayon_concat _ _ H1), (rayon_concat _ _ H2). reflexivity.
Qed.
Lemma mul_left_det red1 red2 t B : rayon red1 -> rayon red2 ->
  mul_left Fo red1 t B = mul_left Fo red2 t B.
Proof.
  intros H1 H2. unfold mul_left. destruct (assert _); auto. cbn [bind].
  destruct (mapM _ _); auto. cbn [bind].
  rewrite (rayon_concat _ _ H1), (rayon_concat _ _ H2). reflexivity.
Qed.
End Det.

(** ** abs_normal always returns, with the documented dimensions *)
Section Total.
Context {F : Type} (Fo : Fops F).
Context (red : list (list (nat * list F)) -> list (nat * list F)) (HR : rayon red).
Local Open Scope nat_scope.

Lemma mul_right_total t B : wf_tape t -> wf_mat B -> m_rows B = num_indeps t ->
  exists A, mul_right Fo red t B = Ok A /\ wf_mat A /\ m_rows A = num_deps t /\ m_cols A = m_cols B.
Proof.
  intros W WB E. eexists. split.
  - apply (mul_right_eq Fo red HR t B
      (fun j => match tape_forward Fo t (mcol Fo B j) with Ok dy => dy | Panic _ => [] end)); auto.
    intros j Hj. destruct (forward_tangents Fo t (mcol Fo B j) W) as (D & dy & _ & EF & _).
    + unfold mcol. rewrite map_length, seq_length. auto.
    + rewrite EF. auto.
  - split; [apply m_tab_wf|auto].
Qed.

Lemma mul_left_total t A : wf_tape t -> (forall o, In o (t_ops t) -> opcode o <> Abs) ->
  wf_mat A -> m_cols A = num_deps t ->
  exists B, mul_left Fo red t A = Ok B /\ wf_mat B /\ m_rows B = m_rows A /\ m_cols B = num_indeps t.
Proof.
  intros W NA WA E. eexists. split.
  - apply (mul_left_eq Fo red HR t A
      (fun i => match tape_reverse Fo t (mrow Fo A i) with Ok xb => xb | Panic _ => [] end)); auto.
    intros i Hi. destruct (tape_reverse Fo t (mrow Fo A i)) as [xb|p] eqn:ER; auto. exfalso.
    assert (panics (tape_reverse Fo t (mrow Fo A i))) as P by (exists p; auto).
    apply reverse_panics in P; auto. destruct P as [P|(o & Ho & P)]; [|apply (NA o Ho P)].
    unfold mrow in P. rewrite map_length, seq_length in P. unfold num_deps in *. lia.
  - split; [apply m_tab_wf|auto].
Qed.

Theorem abs_normal_total (t : tape F) : wf_tape t ->
  exists N, abs_normal_tape Fo red t = Ok N /\
    length (f_a N) = num_abs t /\ length (f_b N) = num_deps t /\
    (wf_mat (f_zmat N) /\ m_rows (f_zmat N) = num_abs t /\ m_cols (f_zmat N) = num_indeps t) /\
    (wf_mat (f_lmat N) /\ m_rows (f_lmat N) = num_abs t /\ m_cols (f_lmat N) = num_abs t) /\
    (wf_mat (f_jmat N) /\ m_rows (f_jmat N) = num_deps t /\ m_cols (f_jmat N) = num_indeps t) /\
    (wf_mat (f_ymat N) /\ m_rows (f_ymat N) = num_deps t /\ m_cols (f_ymat N) = num_abs t).
Proof.
  intros W. destruct (an_new_ok t W) as (args & EA & EN).
  set (a := mkAN _ _ _ _ _ _) in EN.
  destruct (sub_tapes t a args EN EA) as (Tz & Tl & Tj & Ty & _).
  pose proof (sub_z t W args EA) as Sz. pose proof (sub_l t W args EA) as Sl.
  pose proof (sub_j t W) as Sj. pose proof (sub_y t W) as Sy.
  assert (length args = num_abs t) as LA by (apply mapM_ok_length in EA; auto).
  pose proof (abs_ids_length t) as LI.
  unfold abs_normal_tape. rewrite EN. cbn [bind]. rewrite Tz, Tl, Tj, Ty.
  change (an_n a) with (num_indeps t). change (an_m a) with (num_deps t). change (an_s a) with (num_abs t).
  assert (forall s l, sub_of t s -> l = num_deps s ->
    exists A, mul_left Fo red s (m_id Fo l) = Ok A /\
      wf_mat A /\ m_rows A = num_deps s /\ m_cols A = num_indeps s) as HL.
  { intros s l HS ->. pose proof (sub_of_wf t W s HS) as Ws.
    apply mul_left_total; auto; [apply (sub_of_ops t s HS)|apply m_tab_wf]. }
  assert (forall s (b : bool) k l, sub_of t s -> k = num_indeps s -> l = num_deps s ->
    exists A, (if b then mul_right Fo red s (m_id Fo k) else mul_left Fo red s (m_id Fo l)) = Ok A /\
      wf_mat A /\ m_rows A = num_deps s /\ m_cols A = num_indeps s) as HB.
  { intros s b k l HS -> ->. destruct b; [|apply HL; auto].
    pose proof (sub_of_wf t W s HS) as Ws. apply mul_right_total; auto. apply m_tab_wf. }
  destruct (HB _ (num_indeps t <? num_abs t) (num_indeps t) (num_abs t) Sz) as (Z & -> & WZ & RZ & CZ);
    [reflexivity|symmetry; exact LA|]. cbn [bind].
  destruct (HL _ (num_abs t) Sl) as (L & -> & WL & RL & CL); [symmetry; exact LA|]. cbn [bind].
  destruct (HB _ (num_indeps t <? num_deps t) (num_indeps t) (num_deps t) Sj) as (J & -> & WJ & RJ & CJ);
    [reflexivity|reflexivity|]. cbn [bind].
  destruct (HB _ (num_abs t <? num_deps t) (num_abs t) (num_deps t) Sy) as (Y & -> & WY & RY & CY);
    [symmetry; exact LI|reflexivity|]. cbn [bind].
  change (m_rows Z = length args) in RZ. change (m_rows L = length args) in RL.
  change (m_cols L = length (abs_ids t)) in CL. change (m_cols Y = length (abs_ids t)) in CY.
  change (m_rows Y = num_deps t) in RY. change (m_rows J = num_deps t) in RJ.
  change (m_cols J = num_indeps t) in CJ. change (m_cols Z = num_indeps t) in CZ.
  assert (exists z, an_z a = Ok z /\ length z = num_abs t) as (z & -> & Lz).
  { unfold an_z, a. cbn. rewrite EA. cbn. destruct (gather_ok args (t_vals t)) as [z Ez].
    - intros d Hd. eapply abs_args_range; eauto.
    - exists z. split; auto. apply gather_length in Ez. lia. }
  cbn [bind].
  assert (length (v_abs Fo z) = num_abs t) as Lza by (unfold v_abs; rewrite map_length; auto).
  assert (forall A x, wf_mat A -> m_cols A = length x ->
    exists y, m_mulv Fo A x = Ok y /\ length y = m_rows A) as HM.
  { intros A x [LA' _] EC. unfold m_mulv. rewrite EC, Nat.eqb_refl. eexists. split; [reflexivity|].
    rewrite map_length; auto. }
  destruct (HM L (v_abs Fo z) WL) as (lz & -> & Llz); [lia|]. cbn [bind].
  assert (exists av, v_sub Fo z lz = Ok av /\ length av = num_abs t) as (av & -> & Lav).
  { unfold v_sub. destruct (Nat.eqb_spec (length z) (length lz)); [|lia]. eexists. split; [reflexivity|].
    unfold v_zip. rewrite map_length, combine_length. lia. }
  cbn [bind].
  destruct (HM (m_neg2 Fo Y) (v_abs Fo z)) as (bv & -> & Lbv).
  { destruct WY as [W1 W2]. split; cbn; [rewrite map_length; auto|].
    rewrite Forall_forall in *. intros r Hr. apply in_map_iff in Hr as (r' & <- & Hr').
    unfold v_neg. rewrite map_length. auto. }
  { cbn. lia. }
  cbn [bind]. eexists. split; [reflexivity|]. cbn [f_a f_b f_zmat f_lmat f_jmat f_ymat].
  cbn in Lbv. repeat split; try lia; try apply WZ; try apply WL; try apply WJ; try apply WY.
Qed.
End Total.
