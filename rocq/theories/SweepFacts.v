(** When sweeps panic. *)
From Coq Require Import List Arith ZArith Bool Lia Sorted.
From Verif Require Import Base Float Operation Tape Spec TapeFacts.
Import ListNotations.

Section Sweeps.
Context {F : Type} (Fo : Fops F).

Definition panics {A} (r : res A) : Prop := exists p, r = Panic p.
Definition has_abs (t : tape F) : Prop := exists o, In o (t_ops t) /\ opcode o = Abs.

Lemma add_at_ok (vb : list F) i d : i < length vb ->
  exists vb', add_at Fo vb i d = Ok vb' /\ length vb' = length vb.
Proof.
  intros H. unfold add_at. destruct (get_lt vb i H) as [a ->]. cbn.
  rewrite set_lt by auto. eexists; split; [reflexivity|]. apply update_length.
Qed.

Lemma reverse_op_ok N o (v vb : list F) :
  wf_op N o -> opcode o <> Abs -> length v = N -> length vb = N ->
  exists vb', op_first_order_reverse Fo o v vb = Ok vb' /\ length vb' = N.
Proof.
  intros W NA Lv Lb.
  destruct (opcode_eqb (opcode o) Nop) eqn:E1.
  { apply opcode_eqb_eq in E1. unfold op_first_order_reverse; rewrite E1. eauto. }
  destruct (opcode_eqb (opcode o) Const) eqn:E2.
  { apply opcode_eqb_eq in E2. unfold op_first_order_reverse; rewrite E2. eauto. }
  assert (opcode o <> Nop) as NN by (intros E; apply opcode_eqb_eq in E; congruence).
  assert (opcode o <> Const) as NC by (intros E; apply opcode_eqb_eq in E; congruence).
  destruct (wf_op_args N o W NN NC) as (Hv & i & Ei & Hi & H2).
  destruct (get_lt vb (vid o) ltac:(lia)) as [b Eb].
  destruct (get_lt v i ltac:(lia)) as [x Ex].
  unfold op_first_order_reverse. rewrite Ei.
  destruct H2 as [(U & B & E2')|(B & U & j & E2' & Hj)].
  - destruct (opcode o) eqn:Eo; try discriminate; try congruence; cbn [unwrap bind];
      rewrite Ex; cbn [bind]; rewrite Eb; cbn [bind];
      (match goal with |- context [first_order_value Fo ?oc ?a ?b ?c ?d] =>
         destruct (first_order_value_total Fo oc a b c d) as [q ->]; [auto|] end); cbn [bind];
      (destruct (add_at_ok vb i (f_mul Fo b q) ltac:(lia)) as (vb' & -> & L));
      exists vb'; split; auto; lia.
  - destruct (get_lt v j ltac:(lia)) as [y Ey]. rewrite E2'.
    destruct (opcode o) eqn:Eo; try discriminate; try congruence; cbn [unwrap bind];
      rewrite ?Ex; cbn [bind]; rewrite ?Ey; cbn [bind]; rewrite Eb; cbn [bind];
      (match goal with |- context [add_at Fo vb i ?d] =>
         destruct (add_at_ok vb i d ltac:(lia)) as (vb1 & -> & L1) end); cbn [bind];
      (match goal with L : length ?vb1 = length vb |- _ =>
         destruct (get_lt vb1 (vid o) ltac:(lia)) as [b1 Eb1]; rewrite Eb1; cbn [bind] end);
      (match goal with L : length ?vb1 = length vb |- context [add_at Fo ?vb1 j ?d] =>
         destruct (add_at_ok vb1 j d ltac:(lia)) as (vb2 & -> & L2);
         exists vb2; split; auto; lia end).
Qed.

Lemma reverse_sweep_ok N l (v : list F) : forall vb,
  (forall o, In o l -> wf_op N o) -> (forall o, In o l -> opcode o <> Abs) ->
  length v = N -> length vb = N ->
  exists vb', foldM (fun vb o => op_first_order_reverse Fo o v vb) l vb = Ok vb' /\ length vb' = N.
Proof.
  induction l as [|o l IH]; intros vb W NA Lv Lb; cbn [foldM].
  - eauto.
  - destruct (reverse_op_ok N o v vb) as (vb1 & -> & L1); auto.
    + apply W; left; auto.
    + apply NA; left; auto.
    + cbn [bind]. apply IH; auto; intros o' H; [apply W|apply NA]; right; auto.
Qed.

Lemma reverse_sweep_abs N l (v : list F) : forall vb,
  (forall o, In o l -> wf_op N o) -> (exists o, In o l /\ opcode o = Abs) ->
  length v = N -> length vb = N ->
  foldM (fun vb o => op_first_order_reverse Fo o v vb) l vb = Panic PAbsReverse.
Proof.
  induction l as [|o l IH]; intros vb W (o' & Ho & HA) Lv Lb; cbn [foldM].
  - destruct Ho.
  - destruct (opcode_eqb (opcode o) Abs) eqn:E.
    + apply opcode_eqb_eq in E. unfold op_first_order_reverse. rewrite E. reflexivity.
    + assert (opcode o <> Abs) as NA by (intros E'; apply opcode_eqb_eq in E'; congruence).
      destruct (reverse_op_ok N o v vb) as (vb1 & -> & L1); auto; [apply W; left; auto|].
      cbn [bind]. apply IH; auto; [intros; apply W; right; auto|].
      destruct Ho as [->|Ho]; [congruence|]. eauto.
Qed.

Lemma scatter_short {A} ids (x arr : list A) :
  length x < length ids -> (forall i, In i ids -> i < length arr) ->
  scatter ids x arr = Panic PIndex.
Proof.
  revert x arr; induction ids as [|i ids IH]; intros [|a x] arr L R; cbn in *; try lia; auto.
  rewrite set_lt by (apply R; auto). cbn [bind]. apply IH; [lia|].
  intros j Hj. rewrite update_length. apply R; auto.
Qed.

Theorem tape_xy_ok (t : tape F) :
  wf_tape t -> (exists x, tape_x t = Ok x) /\ (exists y, tape_y t = Ok y).
Proof. intros W. split; apply gather_ok; apply W. Qed.

Theorem zero_order_panics (t : tape F) x :
  wf_tape t -> (panics (tape_zero_order Fo t x) <-> length x <> num_indeps t).
Proof.
  intros W. split.
  - intros [p Hp] L. destruct (zero_sweep_values Fo t x W L) as (t' & E & _). congruence.
  - intros L. unfold tape_zero_order, assert.
    destruct (Nat.eqb_spec (length x) (num_indeps t)); [contradiction|]. eexists; reflexivity.
Qed.

Theorem forward_panics (t : tape F) dx :
  wf_tape t -> (panics (tape_forward Fo t dx) <-> length dx < num_indeps t).
Proof.
  intros W. split.
  - intros [p Hp]. destruct (Nat.lt_ge_cases (length dx) (num_indeps t)) as [|L]; auto. exfalso.
    revert Hp. unfold tape_forward.
    (* a longer vector behaves like its prefix *)
    assert (forall ids (x arr : list F), scatter ids x arr = scatter ids (firstn (length ids) x) arr
            \/ length x < length ids) as G.
    { clear. induction ids as [|i ids IH]; intros [|a x] arr; cbn; auto; try (right; lia).
      destruct (set arr i a) as [arr'|]; cbn; auto.
      destruct (IH x arr'); [left; auto|right; lia]. }
    destruct (G (t_indeps t) dx (repeat (f_zero Fo) (length (t_vals t)))) as [->|HL];
      [|unfold num_indeps in L; lia].
    change (tape_forward Fo t (firstn (length (t_indeps t)) dx) = Panic p -> False).
    destruct (forward_tangents Fo t (firstn (length (t_indeps t)) dx) W) as (da & dy & _ & E & _).
    { rewrite firstn_length. unfold num_indeps in *. lia. }
    rewrite E. discriminate.
  - intros L. unfold tape_forward. rewrite scatter_short; auto.
    + eexists; reflexivity.
    + intros i Hi. rewrite repeat_length. apply W; auto.
Qed.

Theorem reverse_panics (t : tape F) ybar :
  wf_tape t ->
  (panics (tape_reverse Fo t ybar) <-> length ybar < num_deps t \/ has_abs t).
Proof.
  intros W. unfold tape_reverse.
  destruct (Nat.lt_ge_cases (length ybar) (num_deps t)) as [L|L].
  { rewrite scatter_short; auto.
    - split; auto. intros _. eexists; reflexivity.
    - intros i Hi. rewrite repeat_length. apply (wf_dep_range _ W); auto. }
  destruct (scatter_total (t_deps t) ybar (repeat (f_zero Fo) (length (t_vals t))))
    as (vb & -> & Lvb); [auto| |].
  { intros i Hi. rewrite repeat_length. apply (wf_dep_range _ W); auto. }
  rewrite repeat_length in Lvb. cbn [bind]. unfold reverse_sweep.
  destruct (existsb is_abs (t_ops t)) eqn:EA.
  - apply existsb_exists in EA as (o & Ho & HA). apply is_abs_iff in HA.
    rewrite (reverse_sweep_abs (length (t_vals t))); auto.
    + split; [|intros _; eexists; reflexivity]. intros _. right. exists o; auto.
    + intros o' Ho'. apply in_rev in Ho'. apply W; auto.
    + exists o; split; auto. apply -> in_rev; auto.
  - assert (forall o, In o (t_ops t) -> opcode o <> Abs) as NA.
    { intros o Ho E. apply is_abs_iff in E. 
      assert (existsb is_abs (t_ops t) = true) by (apply existsb_exists; eauto). congruence. }
    destruct (reverse_sweep_ok (length (t_vals t)) (rev (t_ops t)) (t_vals t) vb)
      as (vb' & -> & L'); auto.
    { intros o' Ho'. apply in_rev in Ho'. apply W; auto. }
    { intros o' Ho'. apply in_rev in Ho'. apply NA; auto. }
    cbn [bind]. destruct (gather_ok (t_indeps t) vb') as [y ->].
    { intros i Hi. rewrite L'. apply W; auto. }
    split.
    + intros [p Hp]; discriminate.
    + intros [H|(o & Ho & HA)]; [lia|]. destruct (NA o Ho HA).
Qed.

(** The only index panics come from vectors that are too short. *)
Theorem reverse_panic_reason (t : tape F) ybar :
  wf_tape t -> num_deps t <= length ybar -> has_abs t ->
  tape_reverse Fo t ybar = Panic PAbsReverse.
Proof.
  intros W L HA. unfold tape_reverse.
  destruct (scatter_total (t_deps t) ybar (repeat (f_zero Fo) (length (t_vals t))))
    as (vb & -> & Lvb); [auto| |].
  { intros i Hi. rewrite repeat_length. apply (wf_dep_range _ W); auto. }
  rewrite repeat_length in Lvb. cbn [bind]. unfold reverse_sweep.
  rewrite (reverse_sweep_abs (length (t_vals t))); auto.
  - intros o' Ho'. apply in_rev in Ho'. apply W; auto.
  - destruct HA as (o & Ho & HA). exists o; split; auto. apply -> in_rev; auto.
Qed.

End Sweeps.
