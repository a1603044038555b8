(** Proofs about single operations. *)
From Coq Require Import Reals Lra List Arith ZArith Bool Lia.
From Verif Require Import Base Float Operation Tape AContext Methods Function Spec Param TapeFacts
  Instances FunctionFacts ReplayFacts ApiFacts3 Replay2 RealInst Approx DerivSpec DerivFacts
  LinearFacts DerivFacts2 Nested NestedSpec NestedFacts RVec OpSpec.
Import ListNotations.
Open Scope nat_scope.

Section Generic.
Context {F : Type} (Fo : Fops F).
Lemma get_some {A} (l : list A) i : i < length l -> exists a, get l i = Ok a.
Proof. intros H. unfold get. destruct (nth_error l i) eqn:E; eauto. apply nth_error_None in E. lia. Qed.
Lemma get_nth {A} (l : list A) i d a : get l i = Ok a -> i < length l /\ a = nth i l d.
Proof.
  unfold get. destruct (nth_error l i) eqn:E; [|discriminate]. intros [= <-].
  split; [apply nth_error_Some; congruence|]. symmetry. now apply nth_error_nth.
Qed.
Lemma set_inv {A} (l : list A) i a l' : set l i a = Ok l' -> i < length l /\ l' = update l i a.
Proof.
  intros H. destruct (Nat.lt_ge_cases i (length l)) as [L|L].
  - rewrite set_lt in H by auto. split; congruence.
  - unfold set in H. destruct (Nat.ltb_spec i (length l)); [lia|discriminate].
Qed.

Theorem unary_executes mk f vid i v v' d : In (mk, f) (unary_ops Fo) ->
  op_zero_order Fo (mk vid i) v = Ok v' <-> vid < length v /\ i < length v /\ v' = update v vid (f (nth i v d)).
Proof.
  intros H. assert (op_zero_order Fo (mk vid i) v = (x <- get v i ;; set v vid (f x))) as ->.
  { cbn in H. repeat (destruct H as [[= <- <-]|H]; [unfold op_zero_order; cbn; destruct (get v i); reflexivity|]). destruct H. }
  split.
  - destruct (get v i) as [x|p] eqn:E; cbn; [|discriminate]. intros H1. apply set_inv in H1. apply get_nth with (d := d) in E.
    destruct E as [? ->]. tauto.
  - intros (L1 & L2 & ->). destruct (get_some v i L2) as (x & E). rewrite E. cbn. apply get_nth with (d := d) in E.
    destruct E as [_ ->]. apply set_lt. auto.
Qed.

Theorem binary_executes mk f vid i j v v' d : In (mk, f) (binary_ops Fo) ->
  op_zero_order Fo (mk vid i j) v = Ok v' <->
  vid < length v /\ i < length v /\ j < length v /\ v' = update v vid (f (nth i v d) (nth j v d)).
Proof.
  intros H. assert (op_zero_order Fo (mk vid i j) v = (x <- get v i ;; y <- get v j ;; set v vid (f x y))) as ->.
  { cbn in H. repeat (destruct H as [[= <- <-]|H]; [unfold op_zero_order; cbn; destruct (get v i), (get v j); reflexivity|]). destruct H. }
  split.
  - destruct (get v i) as [x|p] eqn:E; cbn; [|discriminate]. destruct (get v j) as [y|p] eqn:E2; cbn; [|discriminate].
    intros H1. apply set_inv in H1. apply get_nth with (d := d) in E, E2. destruct E as [? ->], E2 as [? ->]. tauto.
  - intros (L1 & L2 & L3 & ->). destruct (get_some v i L2) as (x & E). destruct (get_some v j L3) as (y & E2). rewrite E. cbn.
    rewrite E2. cbn. apply get_nth with (d := d) in E, E2. destruct E as [_ ->], E2 as [_ ->]. apply set_lt. auto.
Qed.

Theorem nop_executes v dv vbar :
  op_zero_order Fo op_nop v = Ok v /\ op_first_order Fo op_nop v dv = Ok dv /\ op_first_order_reverse Fo op_nop v vbar = Ok vbar.
Proof. repeat split. Qed.
Theorem constant_executes vid v dv vbar : vid < length dv ->
  op_zero_order Fo (op_constant vid) v = Ok v /\
  op_first_order Fo (op_constant vid) v dv = Ok (update dv vid (f_zero Fo)) /\
  op_first_order_reverse Fo (op_constant vid) v vbar = Ok vbar.
Proof. intros H. repeat split. unfold op_first_order. cbn. apply set_lt. auto. Qed.
End Generic.

Open Scope R_scope.
Lemma rep_line x dx : rep (x, dx) (fun s => x + s * dx).
Proof.
  apply rep_iff. cbn. split; [ring|]. intros eps He. exists (mkposreal 1 Rlt_0_1). intros h Hh _.
  replace (((x + (0 + h) * dx) - (x + 0 * dx)) / h - dx) with 0 by (field; auto). rewrite Rabs_R0. auto.
Qed.

(** opcode of the table entry *)
Lemma unary_entry mk f Dom : In (mk, f, Dom) unary_fns -> exists oc, (forall v i, mk v i = mkOp oc v (Some i) None) /\
  unary_oc oc = true /\ oc <> Abs /\ (forall x, zv oc x None = f x) /\ (forall x, Dom x -> in_domain oc x None false).
Proof.
  intros H. cbn in H.
  repeat (destruct H as [[= <- <- <-]|H]; [eexists; split; [intros; reflexivity|];
    (split; [reflexivity|]); (split; [discriminate|]); (split; [intros; reflexivity|]); cbn; auto|]). destruct H.
Qed.
Lemma binary_entry mk f Dom : In (mk, f, Dom) binary_fns -> exists oc, (forall v i j, mk v i j = mkOp oc v (Some i) (Some j)) /\
  binary_oc oc = true /\ (forall x y, Dom x y -> zv oc x (Some y) = f x y) /\ (forall x y, Dom x y -> in_domain oc x (Some y) false) /\
  (forall x y dx dy, Dom x y -> ev Rabs (fun s => zv oc (x + s * dx) (Some (y + s * dy)) = f (x + s * dx) (y + s * dy))).
Proof.
  intros H. cbn in H.
  repeat (destruct H as [[= <- <- <-]|H]; [eexists; split; [intros; reflexivity|]; (split; [reflexivity|])|]); try destruct H;
    try (split; [intros; reflexivity|]; split; [cbn; auto|]; intros; apply ev_all; reflexivity).
  - split; [intros; reflexivity|]. split; [cbn; intros x y H y0 [= <-]; auto|]. intros. apply ev_all. reflexivity.
  - split; [intros x y H; apply Rpowf_pos; auto|]. split; [cbn; intros x y H y0 [= <-]; auto|].
    intros x y dx dy H.
    assert (ev Rabs (fun s => 0 < x + s * dx)) as Hev.
    { eapply ev_imp; [|apply (bo_small _ Rabs_pos _ (approx_bo _ _ _ _ (rep_line x dx)) x H)].
      cbn. intros h Hh. apply Rabs_def2 in Hh. lra. }
    eapply ev_imp; [|apply Hev]. cbn. intros s Hs. apply Rpowf_pos; auto.
Qed.

Lemma fov_total1 oc x d : unary_oc oc = true -> exists l, first_order_value Rops oc x None d None = Ok l.
Proof. intros H. destruct oc; try discriminate; cbn; eauto. Qed.
Lemma fov_total2 oc x y d e : binary_oc oc = true -> exists l, first_order_value Rops oc x (Some y) d (Some e) = Ok l.
Proof. intros H. destruct oc; try discriminate; cbn; eauto. Qed.

Theorem unary_tangent mk f Dom vid i v dv : In (mk, f, Dom) unary_fns -> (i < length v)%nat -> (i < length dv)%nat -> (vid < length dv)%nat ->
  Dom (nth i v 0) ->
  exists l, derivable_pt_lim (fun s => f (nth i v 0 + s * nth i dv 0)) 0 l /\ op_first_order Rops (mk vid i) v dv = Ok (update dv vid l).
Proof.
  intros HI Li Ld Lv HD. destruct (unary_entry _ _ _ HI) as (oc & -> & U & NA & Z & Dm).
  set (x := nth i v 0) in *. set (dx := nth i dv 0).
  destruct (fov_total1 oc x dx U) as (l & El). exists l. split.
  - pose proof (rep_un oc (x, dx) _ U NA (Dm _ HD) (rep_line x dx)) as H. apply rep_iff in H. destruct H as [_ H].
    unfold dop, dual, d_fop, mbind, mlift in H. cbn [fst snd option_map] in H.
    assert (exists r, zero_order_value Rops oc x None = Ok r) as (r & Er) by (destruct oc; try discriminate; cbn; eauto).
    rewrite Er, El in H. cbn [fst snd mret] in H. eapply d_ext; [|exact H]. intros s. cbn. apply Z.
  - unfold op_first_order. cbn [opcode arg1 arg2 Operation.vid].
    assert (get v i = Ok x) as E1 by (apply at0_get; auto). assert (get dv i = Ok dx) as E2 by (apply at0_get; auto).
    destruct oc; try discriminate; cbn [unwrap bind optM]; rewrite E1; cbn [bind]; rewrite E2; cbn [bind]; rewrite El; cbn [bind]; apply set_lt; auto.
Qed.

Theorem binary_tangent mk f Dom vid i j v dv : In (mk, f, Dom) binary_fns -> (i < length v)%nat -> (j < length v)%nat ->
  (i < length dv)%nat -> (j < length dv)%nat -> (vid < length dv)%nat -> Dom (nth i v 0) (nth j v 0) ->
  exists l, derivable_pt_lim (fun s => f (nth i v 0 + s * nth i dv 0) (nth j v 0 + s * nth j dv 0)) 0 l /\ op_first_order Rops (mk vid i j) v dv = Ok (update dv vid l).
Proof.
  intros HI Li Lj Ldi Ldj Lv HD. destruct (binary_entry _ _ _ HI) as (oc & -> & U & Z & Dm & Ev).
  set (x := nth i v 0) in *. set (dx := nth i dv 0). set (y := nth j v 0) in *. set (dy := nth j dv 0).
  destruct (fov_total2 oc x y dx dy U) as (l & El). exists l. split.
  - pose proof (rep_bin oc (x, dx) _ (y, dy) _ U (or_introl (Dm _ _ HD)) (rep_line x dx) (rep_line y dy)) as H.
    apply (rep_ext _ _ (fun s => f (x + s * dx) (y + s * dy)) (Ev x y dx dy HD)) in H.
    apply rep_iff in H. destruct H as [_ H].
    unfold dop, dual, d_fop, mbind, mlift in H. cbn [fst snd option_map] in H.
    assert (exists r, zero_order_value Rops oc x (Some y) = Ok r) as (r & Er) by (destruct oc; try discriminate; cbn; eauto).
    rewrite Er, El in H. exact H.
  - unfold op_first_order. cbn [opcode arg1 arg2 Operation.vid].
    assert (get v i = Ok x) as E1 by (apply at0_get; auto). assert (get dv i = Ok dx) as E2 by (apply at0_get; auto).
    assert (get v j = Ok y) as E3 by (apply at0_get; auto). assert (get dv j = Ok dy) as E4 by (apply at0_get; auto).
    destruct oc; try discriminate; cbn [unwrap bind optM]; rewrite E1; cbn [bind]; rewrite E3; cbn [bind];
      rewrite E2; cbn [bind]; rewrite E4; cbn [bind]; rewrite El; cbn [bind]; apply set_lt; auto.
Qed.

(** The reverse step is the transpose of the forward step. *)
Theorem unary_adjoint mk f Dom vid i v vbar : In (mk, f, Dom) unary_fns -> (i < length v)%nat -> (i < length vbar)%nat ->
  (vid < length vbar)%nat -> Dom (nth i v 0) ->
  exists vbar', op_first_order_reverse Rops (mk vid i) v vbar = Ok vbar' /\ forall dv l, length dv = length vbar -> derivable_pt_lim (fun s => f (nth i v 0 + s * nth i dv 0)) 0 l ->
      dot vbar' dv = dot vbar dv + nth vid vbar 0 * l.
Proof.
  intros HI Li Lb Lv HD. destruct (unary_entry _ _ _ HI) as (oc & E & U & NA & Z & Dm).
  exists (update vbar i (at0 vbar i + nth vid vbar 0 * part1 oc (nth i v 0) 0)). split.
  - rewrite E. unfold op_first_order_reverse. cbn [opcode arg1 arg2 Operation.vid].
    assert (get v i = Ok (nth i v 0)) as E1 by (apply at0_get; auto).
    assert (get vbar vid = Ok (nth vid vbar 0)) as E2 by (apply at0_get; auto).
    assert (first_order_value Rops oc (nth i v 0) None (f_one Rops) None = Ok (part1 oc (nth i v 0) 0)) as E3.
    { rewrite fov_linear1 by auto. cbn [f_one Rops]. now rewrite Rmult_1_r. }
    destruct oc; try discriminate; try congruence; cbn [unwrap bind]; rewrite E1; cbn [bind]; rewrite E2; cbn [bind];
      rewrite E3; cbn [bind]; rewrite add_at_eq by auto; reflexivity.
  - intros dv l Ld Hl.
    destruct (unary_tangent mk f Dom vid i v dv HI Li ltac:(lia) ltac:(lia) HD) as (l' & Hl' & E').
    rewrite (uniqueness_limite _ _ _ _ Hl Hl'). rewrite E in E'. unfold op_first_order in E'. cbn [opcode arg1 arg2 Operation.vid] in E'.
    assert (get v i = Ok (nth i v 0)) as E1 by (apply at0_get; auto).
    assert (get dv i = Ok (nth i dv 0)) as E2 by (apply at0_get; lia).
    assert (l' = part1 oc (nth i v 0) 0 * nth i dv 0) as ->.
    { assert ((r <- first_order_value Rops oc (nth i v 0) None (nth i dv 0) None ;; set dv vid r) = Ok (update dv vid l')) as H.
      { destruct oc; try discriminate; cbn [unwrap bind optM] in E'; rewrite E1 in E'; cbn [bind] in E'; rewrite E2 in E'; exact E'. }
      rewrite fov_linear1 in H by auto. cbn [bind] in H. rewrite set_lt in H by lia. injection H as H.
      apply (f_equal (fun l => at0 l vid)) in H. rewrite !at0_update_eq in H by lia. auto. }
    rewrite dot_update by lia. unfold at0. ring.
Qed.

Theorem binary_adjoint mk f Dom vid i j v vbar : In (mk, f, Dom) binary_fns -> (i < length v)%nat -> (j < length v)%nat ->
  (i < length vbar)%nat -> (j < length vbar)%nat -> (vid < length vbar)%nat -> vid <> i ->
  Dom (nth i v 0) (nth j v 0) ->
  exists vbar', op_first_order_reverse Rops (mk vid i j) v vbar = Ok vbar' /\ forall dv l, length dv = length vbar ->
      derivable_pt_lim (fun s => f (nth i v 0 + s * nth i dv 0) (nth j v 0 + s * nth j dv 0)) 0 l ->
      dot vbar' dv = dot vbar dv + nth vid vbar 0 * l.
Proof.
  intros HI Li Lj Lbi Lbj Lv Ni HD. destruct (binary_entry _ _ _ HI) as (oc & E & U & Z & Dm & _).
  set (x := nth i v 0) in *. set (y := nth j v 0) in *. set (b := nth vid vbar 0).
  set (vb1 := update vbar i (at0 vbar i + b * part1 oc x y)).
  exists (update vb1 j (at0 vb1 j + b * part2 oc x y)). split.
  - rewrite E. unfold op_first_order_reverse. cbn [opcode arg1 arg2 Operation.vid].
    assert (get v i = Ok x) as E1 by (apply at0_get; auto).
    assert (get v j = Ok y) as E2 by (apply at0_get; auto).
    assert (get vbar vid = Ok b) as E3 by (apply at0_get; auto).
    assert (forall c, get (update vbar i c) vid = Ok b) as E4.
    { intros c. rewrite at0_get by (rewrite update_length; auto). rewrite at0_update_neq by auto. reflexivity. }
    unfold vb1.
    destruct oc; try discriminate; cbn [unwrap bind]; rewrite ?E1; cbn [bind]; rewrite ?E2; cbn [bind]; rewrite E3; cbn [bind];
      rewrite add_at_eq by lia; cbn [bind]; rewrite E4; cbn [bind]; (rewrite add_at_eq by (rewrite update_length; lia));
      cbn [part1 part2 f_add f_mul f_neg f_div f_one f_powi f_powf f_ln f_sub Rops]; rewrite ?Rmult_1_r.
    + reflexivity.
    + replace (b * -1) with (- b) by ring. reflexivity.
    + reflexivity.
    + replace (b / y) with (b * (1 / y)) by (unfold Rdiv; ring). reflexivity.
    + rewrite <- !Rmult_assoc. reflexivity.
  - intros dv l Ld Hl.
    destruct (binary_tangent mk f Dom vid i j v dv HI Li Lj ltac:(lia) ltac:(lia) ltac:(lia) HD) as (l' & Hl' & E').
    rewrite (uniqueness_limite _ _ _ _ Hl Hl'). rewrite E in E'. unfold op_first_order in E'. cbn [opcode arg1 arg2 Operation.vid] in E'.
    assert (get v i = Ok x) as E1 by (apply at0_get; auto). assert (get v j = Ok y) as E2 by (apply at0_get; auto).
    assert (get dv i = Ok (nth i dv 0)) as E3 by (apply at0_get; lia).
    assert (get dv j = Ok (nth j dv 0)) as E4 by (apply at0_get; lia).
    assert (l' = part1 oc x y * nth i dv 0 + part2 oc x y * nth j dv 0) as ->.
    { assert ((r <- first_order_value Rops oc x (Some y) (nth i dv 0) (Some (nth j dv 0)) ;; set dv vid r) = Ok (update dv vid l')) as H.
      { destruct oc; try discriminate; cbn [unwrap bind optM] in E'; rewrite E1 in E'; cbn [bind] in E'; rewrite E2 in E'; cbn [bind] in E';
          rewrite E3 in E'; cbn [bind] in E'; rewrite E4 in E'; exact E'. }
      rewrite fov_linear2 in H by auto. cbn [bind] in H. rewrite set_lt in H by lia. injection H as H.
      apply (f_equal (fun l => at0 l vid)) in H. rewrite !at0_update_eq in H by lia. auto. }
    rewrite dot_update by (unfold vb1; rewrite update_length; lia). unfold vb1 at 1. rewrite dot_update by lia.
    fold (at0 vb1 j). unfold at0. ring.
Qed.

Theorem abs_tangent vid i v dv vbar : (i < length v)%nat -> (i < length dv)%nat -> (vid < length dv)%nat ->
  op_first_order Rops (op_abs vid i) v dv = Ok (update dv vid (Rabs (nth i v 0 + nth i dv 0) - Rabs (nth i v 0))) /\
  op_first_order_reverse Rops (op_abs vid i) v vbar = Panic PAbsReverse.
Proof.
  intros Li Ld Lv. split; [|reflexivity]. unfold op_first_order. cbn [opcode arg1 arg2 Operation.vid op_abs unwrap bind optM].
  rewrite at0_get by auto. cbn [bind]. rewrite at0_get by auto. cbn [bind first_order_value]. apply set_lt. auto.
Qed.
