(** Piecewise linearisations at two neighbouring base points, compared at a third point. *)
From Coq Require Import Reals Lra List Arith ZArith Bool Lia.
From Verif Require Import Base Float Operation Tape AContext Methods Function Spec Param TapeFacts
  Instances FunctionFacts ReplayFacts ApiFacts3 Replay2 RealInst Approx Smooth DerivSpec DerivFacts.
Import ListNotations.
Open Scope R_scope.

Section Order.
Context {T : Type} (sz : T -> R).
Hypothesis sz_pos : forall t, 0 <= sz t.

(** f = O(g) *)
Definition O (g f : T -> R) : Prop := exists C, 0 <= C /\ ev sz (fun t => Rabs (f t) <= C * g t).

Lemma O_ext g f f' : ev sz (fun t => f t = f' t) -> O g f -> O g f'.
Proof.
  intros E (C & HC & H). exists C. split; auto. eapply ev_imp; [|apply (ev_and _ _ _ E H)].
  cbn. intros t [-> Ht]; auto.
Qed.

Lemma O_weak g g' f K : 0 <= K -> ev sz (fun t => g t <= K * g' t) -> O g f -> O g' f.
Proof.
  intros HK E (C & HC & H). exists (C * K). split; [apply Rmult_le_pos; auto|].
  eapply ev_imp; [|apply (ev_and _ _ _ E H)]. cbn. intros t [A B].
  eapply Rle_trans; [apply B|]. rewrite Rmult_assoc. apply Rmult_le_compat_l; auto.
Qed.

Lemma O_plus g f f' : O g f -> O g f' -> O g (fun t => f t + f' t).
Proof.
  intros (C & HC & H) (D & HD & H'). exists (C + D). split; [lra|].
  eapply ev_imp; [|apply (ev_and _ _ _ H H')]. cbn. intros t [A B].
  eapply Rle_trans; [apply Rabs_triang|]. lra.
Qed.

Lemma O_opp g f : O g f -> O g (fun t => - f t).
Proof.
  intros (C & HC & H). exists C. split; auto. eapply ev_imp; [|apply H]. cbn. intros t A.
  rewrite Rabs_Ropp. auto.
Qed.

Lemma O_minus g f f' : O g f -> O g f' -> O g (fun t => f t - f' t).
Proof. intros A B. apply (O_plus g f (fun t => - f' t)); auto. apply O_opp; auto. Qed.

Lemma O_mult g g' f f' : O g f -> O g' f' -> O (fun t => g t * g' t) (fun t => f t * f' t).
Proof.
  intros (C & HC & H) (D & HD & H'). exists (C * D). split; [apply Rmult_le_pos; auto|].
  eapply ev_imp; [|apply (ev_and _ _ _ H H')]. cbn. intros t [A B]. rewrite Rabs_mult.
  replace (C * D * (g t * g' t)) with ((C * g t) * (D * g' t)) by ring.
  apply Rmult_le_compat; auto using Rabs_pos.
Qed.

Lemma O_0 g : (forall t, 0 <= g t) -> O g (fun _ => 0).
Proof.
  intros Hg. exists 0. split; [lra|]. apply ev_all. intros t. rewrite Rabs_R0. specialize (Hg t). lra.
Qed.

Notation one := (fun _ : T => 1).

(** a bounded factor *)
Lemma O_bmult g f f' : O one f -> O g f' -> O g (fun t => f t * f' t).
Proof.
  intros A B. pose proof (O_mult _ _ _ _ A B) as H.
  eapply (O_weak _ _ _ 1); [lra| |apply H]. apply ev_all. intros t. lra.
Qed.

Lemma O_small f : O sz f -> forall e, 0 < e -> ev sz (fun t => Rabs (f t) < e).
Proof. intros (C & HC & H). apply bo_small; auto. exists C. auto. Qed.

Lemma O_near a b : O sz (fun t => b t - a) -> O one b.
Proof.
  intros H. exists (Rabs a + 1). pose proof (Rabs_pos a). split; [lra|].
  eapply ev_imp; [|apply (O_small _ H 1); lra]. cbn. intros t A.
  replace (b t) with ((b t - a) + a) by lra. eapply Rle_trans; [apply Rabs_triang|]. lra.
Qed.

(** ** The relation between a value at the point, the values at the two base points and their
    increments towards the third point. [n]: distance of the base points; [m1], [m2]: their
    distances from the third point. *)
Context (n m1 m2 : T -> R).
Hypothesis n_pos : forall t, 0 <= n t.
Hypothesis m1_pos : forall t, 0 <= m1 t.
Hypothesis m2_pos : forall t, 0 <= m2 t.
Hypothesis tri : forall t, n t <= m1 t + m2 t.
Hypothesis m1_sz : forall t, m1 t <= sz t.
Hypothesis m2_sz : forall t, m2 t <= sz t.

Notation prod := (fun t => n t * (m1 t + m2 t)).

Record near2 (a : R) (b1 b2 d1 d2 : T -> R) : Prop := {
  n2_b1 : O sz (fun t => b1 t - a);
  n2_b2 : O sz (fun t => b2 t - a);
  n2_b : O n (fun t => b1 t - b2 t);
  n2_d1 : O m1 d1;
  n2_d2 : O m2 d2;
  n2_w : O prod (fun t => (b1 t + d1 t) - (b2 t + d2 t))
}.

Lemma near2_ext a b1 b2 d1 d2 c1 c2 e1 e2 :
  ev sz (fun t => b1 t = c1 t /\ b2 t = c2 t /\ d1 t = e1 t /\ d2 t = e2 t) ->
  near2 a b1 b2 d1 d2 -> near2 a c1 c2 e1 e2.
Proof.
  intros E [H1 H2 H3 H4 H5 H6]. split.
  - eapply O_ext; [|apply H1]. eapply ev_imp; [|apply E]. cbn. intros t (A & B & C & D). congruence.
  - eapply O_ext; [|apply H2]. eapply ev_imp; [|apply E]. cbn. intros t (A & B & C & D). congruence.
  - eapply O_ext; [|apply H3]. eapply ev_imp; [|apply E]. cbn. intros t (A & B & C & D). congruence.
  - eapply O_ext; [|apply H4]. eapply ev_imp; [|apply E]. cbn. intros t (A & B & C & D). congruence.
  - eapply O_ext; [|apply H5]. eapply ev_imp; [|apply E]. cbn. intros t (A & B & C & D). congruence.
  - eapply O_ext; [|apply H6]. eapply ev_imp; [|apply E]. cbn. intros t (A & B & C & D). congruence.
Qed.

Lemma prod_pos t : 0 <= prod t.
Proof. apply Rmult_le_pos; auto. specialize (m1_pos t). specialize (m2_pos t). lra. Qed.

Lemma n_sz t : n t <= 2 * sz t.
Proof. specialize (tri t). specialize (m1_sz t). specialize (m2_sz t). lra. Qed.

Lemma near2_const a : near2 a (fun _ => a) (fun _ => a) (fun _ => 0) (fun _ => 0).
Proof.
  assert (forall g, (forall t, 0 <= g t) -> O g (fun _ => a - a)) as H.
  { intros g Hg. apply (O_ext _ (fun _ => 0)); [|apply O_0; auto]. apply ev_all. intros t. lra. }
  split; auto using O_0.
  apply (O_ext _ (fun _ => 0)); [|apply O_0; apply prod_pos]. apply ev_all. intros t. lra.
Qed.

Lemma near2_plus a b a1 a2 da1 da2 b1 b2 db1 db2 :
  near2 a a1 a2 da1 da2 -> near2 b b1 b2 db1 db2 ->
  near2 (a + b) (fun t => a1 t + b1 t) (fun t => a2 t + b2 t)
    (fun t => da1 t + db1 t) (fun t => da2 t + db2 t).
Proof.
  intros [A1 A2 A3 A4 A5 A6] [B1 B2 B3 B4 B5 B6]. split.
  - eapply O_ext; [|apply (O_plus _ _ _ A1 B1)]. apply ev_all; intros; cbn; lra.
  - eapply O_ext; [|apply (O_plus _ _ _ A2 B2)]. apply ev_all; intros; cbn; lra.
  - eapply O_ext; [|apply (O_plus _ _ _ A3 B3)]. apply ev_all; intros; cbn; lra.
  - apply O_plus; auto.
  - apply O_plus; auto.
  - eapply O_ext; [|apply (O_plus _ _ _ A6 B6)]. apply ev_all; intros; cbn; lra.
Qed.

Lemma near2_opp b b1 b2 db1 db2 :
  near2 b b1 b2 db1 db2 ->
  near2 (- b) (fun t => - b1 t) (fun t => - b2 t) (fun t => - db1 t) (fun t => - db2 t).
Proof.
  intros [B1 B2 B3 B4 B5 B6]. split.
  - eapply O_ext; [|apply (O_opp _ _ B1)]. apply ev_all; intros; cbn; lra.
  - eapply O_ext; [|apply (O_opp _ _ B2)]. apply ev_all; intros; cbn; lra.
  - eapply O_ext; [|apply (O_opp _ _ B3)]. apply ev_all; intros; cbn; lra.
  - apply O_opp; auto.
  - apply O_opp; auto.
  - eapply O_ext; [|apply (O_opp _ _ B6)]. apply ev_all; intros; cbn; lra.
Qed.

Lemma near2_minus a b a1 a2 da1 da2 b1 b2 db1 db2 :
  near2 a a1 a2 da1 da2 -> near2 b b1 b2 db1 db2 ->
  near2 (a - b) (fun t => a1 t - b1 t) (fun t => a2 t - b2 t)
    (fun t => da1 t - db1 t) (fun t => da2 t - db2 t).
Proof. intros A B. exact (near2_plus _ _ _ _ _ _ _ _ _ _ A (near2_opp _ _ _ _ _ B)). Qed.

Lemma near2_d a b1 b2 d1 d2 : near2 a b1 b2 d1 d2 -> O n (fun t => d1 t - d2 t).
Proof.
  intros [H1 H2 H3 H4 H5 H6].
  assert (O n (fun t => (b1 t + d1 t) - (b2 t + d2 t))) as H.
  { eapply (O_weak _ _ _ 2); [lra| |apply H6]. exists 1. split; [lra|]. intros t Ht.
    rewrite Rmult_comm. apply Rmult_le_compat_r; auto. specialize (m1_sz t). specialize (m2_sz t). lra. }
  eapply O_ext; [|apply (O_minus _ _ _ H H3)]. apply ev_all; intros; cbn; lra.
Qed.

Lemma near2_small1 a b1 b2 d1 d2 : near2 a b1 b2 d1 d2 -> O one d1.
Proof.
  intros H. eapply (O_weak _ _ _ 1); [lra| |apply H]. exists 1. split; [lra|]. intros t Ht.
  specialize (m1_sz t). lra.
Qed.
Lemma near2_small2 a b1 b2 d1 d2 : near2 a b1 b2 d1 d2 -> O one d2.
Proof.
  intros H. eapply (O_weak _ _ _ 1); [lra| |apply H]. exists 1. split; [lra|]. intros t Ht.
  specialize (m2_sz t). lra.
Qed.

Lemma O_n_m1 f : O (fun t => n t * m1 t) f -> O prod f.
Proof.
  apply (O_weak _ _ _ 1); [lra|]. apply ev_all. intros t. rewrite Rmult_1_l.
  apply Rmult_le_compat_l; auto. specialize (m2_pos t). lra.
Qed.
Lemma O_n_m2 f : O (fun t => n t * m2 t) f -> O prod f.
Proof.
  apply (O_weak _ _ _ 1); [lra|]. apply ev_all. intros t. rewrite Rmult_1_l.
  apply Rmult_le_compat_l; auto. specialize (m1_pos t). lra.
Qed.
Lemma O_n_n f : O (fun t => n t * n t) f -> O prod f.
Proof.
  apply (O_weak _ _ _ 1); [lra|]. apply ev_all. intros t. rewrite Rmult_1_l.
  apply Rmult_le_compat_l; auto.
Qed.

Lemma near2_mult a b a1 a2 da1 da2 b1 b2 db1 db2 :
  near2 a a1 a2 da1 da2 -> near2 b b1 b2 db1 db2 ->
  near2 (a * b) (fun t => a1 t * b1 t) (fun t => a2 t * b2 t)
    (fun t => da1 t * b1 t + a1 t * db1 t) (fun t => da2 t * b2 t + a2 t * db2 t).
Proof.
  intros HA HB.
  pose proof (near2_d _ _ _ _ _ HA) as DA. pose proof (near2_d _ _ _ _ _ HB) as DB.
  pose proof (near2_small1 _ _ _ _ _ HA) as SA1. pose proof (near2_small2 _ _ _ _ _ HB) as SB2.
  pose proof (near2_small1 _ _ _ _ _ HB) as SB1. pose proof (near2_small2 _ _ _ _ _ HA) as SA2.
  destruct HA as [A1 A2 A3 A4 A5 A6], HB as [B1 B2 B3 B4 B5 B6].
  pose proof (O_near _ _ A1) as NA1. pose proof (O_near _ _ A2) as NA2.
  pose proof (O_near _ _ B1) as NB1. pose proof (O_near _ _ B2) as NB2.
  assert (O one (fun _ => b)) as Kb.
  { exists (Rabs b). split; [apply Rabs_pos|]. apply ev_all. intros; lra. }
  split.
  - eapply O_ext; [|apply (O_plus _ _ _ (O_bmult _ _ _ NA1 B1) (O_bmult _ _ _ Kb A1))].
    apply ev_all; intros; cbn; ring.
  - eapply O_ext; [|apply (O_plus _ _ _ (O_bmult _ _ _ NA2 B2) (O_bmult _ _ _ Kb A2))].
    apply ev_all; intros; cbn; ring.
  - eapply O_ext; [|apply (O_plus _ _ _ (O_bmult _ _ _ NA1 B3) (O_bmult _ _ _ NB2 A3))].
    apply ev_all; intros; cbn; ring.
  - eapply O_ext; [|apply (O_plus _ _ _ (O_bmult _ _ _ NB1 A4) (O_bmult _ _ _ NA1 B4))].
    apply ev_all; intros; cbn; ring.
  - eapply O_ext; [|apply (O_plus _ _ _ (O_bmult _ _ _ NB2 A5) (O_bmult _ _ _ NA2 B5))].
    apply ev_all; intros; cbn; ring.
  - pose proof (O_bmult _ _ _ (O_plus _ _ _ NA1 SA1) B6) as H1.
    pose proof (O_bmult _ _ _ (O_plus _ _ _ NB2 SB2) A6) as H2.
    pose proof (O_n_m1 _ (O_mult _ _ _ _ DB A4)) as H3.
    pose proof (O_n_m2 _ (O_mult _ _ _ _ DA B5)) as H4.
    eapply O_ext; [|apply (O_minus _ _ _ (O_plus _ _ _ H1 H2) (O_plus _ _ _ H3 H4))].
    apply ev_all; intros; cbn; ring.
Qed.

Lemma near2_abs a b1 b2 d1 d2 :
  near2 a b1 b2 d1 d2 ->
  near2 (Rabs a) (fun t => Rabs (b1 t)) (fun t => Rabs (b2 t))
    (fun t => Rabs (b1 t + d1 t) - Rabs (b1 t)) (fun t => Rabs (b2 t + d2 t) - Rabs (b2 t)).
Proof.
  intros [H1 H2 H3 H4 H5 H6].
  assert (forall g f f', O g (fun t => f t - f' t) -> O g (fun t => Rabs (f t) - Rabs (f' t))) as HA.
  { intros g f f' (C & HC & H). exists C. split; auto. eapply ev_imp; [|apply H]. cbn. intros t B.
    eapply Rle_trans; [apply Rabs_triang_inv2|auto]. }
  split.
  - apply (HA sz b1 (fun _ => a)); auto.
  - apply (HA sz b2 (fun _ => a)); auto.
  - apply HA; auto.
  - apply (HA m1 (fun t => b1 t + d1 t) b1). eapply O_ext; [|apply H4]. apply ev_all; intros; cbn; lra.
  - apply (HA m2 (fun t => b2 t + d2 t) b2). eapply O_ext; [|apply H5]. apply ev_all; intros; cbn; lra.
  - eapply O_ext; [|apply (HA _ (fun t => b1 t + d1 t) (fun t => b2 t + d2 t) H6)].
    apply ev_all; intros; cbn; lra.
Qed.

Lemma near2_comp g g' a b1 b2 d1 d2 :
  c11 g g' a -> near2 a b1 b2 d1 d2 ->
  near2 (g a) (fun t => g (b1 t)) (fun t => g (b2 t))
    (fun t => g' (b1 t) * d1 t) (fun t => g' (b2 t) * d2 t).
Proof.
  intros HG [H1 H2 H3 H4 H5 H6].
  destruct (c11_loclip g g' a HG) as (L & rl & HL & Hrl & HLip).
  destruct HG as (M & r & HM & Hr & HC).
  pose proof (ev_and _ _ _ (O_small _ H1 (Rmin r rl) ltac:(apply Rmin_pos; auto))
                (O_small _ H2 (Rmin r rl) ltac:(apply Rmin_pos; auto))) as EV.
  assert (ev sz (fun t => Rabs (b1 t - a) < r /\ Rabs (b2 t - a) < r /\
                          Rabs (b1 t - a) < rl /\ Rabs (b2 t - a) < rl)) as EB.
  { eapply ev_imp; [|apply EV]. cbn. intros t [A B].
    pose proof (Rmin_l r rl). pose proof (Rmin_r r rl). repeat split; lra. }
  assert (Rabs (a - a) < r /\ Rabs (a - a) < rl) as [Ha Hal].
  { replace (a - a) with 0 by lra. rewrite Rabs_R0; auto. }
  assert (forall h (b c : T -> R), O h (fun t => b t - c t) ->
            ev sz (fun t => Rabs (b t - a) < rl /\ Rabs (c t - a) < rl) ->
            O h (fun t => g (b t) - g (c t))) as HO.
  { intros h b c (C & HCp & H) E. exists (L * C). split; [apply Rmult_le_pos; auto|].
    eapply ev_imp; [|apply (ev_and _ _ _ H E)]. cbn. intros t [A [B1 B2]].
    destruct (HLip _ _ B1 B2) as [X _]. eapply Rle_trans; [apply X|]. rewrite Rmult_assoc.
    apply Rmult_le_compat_l; auto. }
  assert (O one (fun t => g' (b1 t))) as G1.
  { exists M. split; auto. eapply ev_imp; [|apply EB]. cbn. intros t (A & B & _).
    destruct (HC _ _ A A) as (_ & _ & X). lra. }
  assert (O one (fun t => g' (b2 t))) as G2.
  { exists M. split; auto. eapply ev_imp; [|apply EB]. cbn. intros t (A & B & _).
    destruct (HC _ _ A B) as (_ & _ & X). lra. }
  assert (O n (fun t => g' (b1 t) - g' (b2 t))) as G3.
  { destruct H3 as (C & HCp & H3). exists (M * C). split; [apply Rmult_le_pos; auto|].
    eapply ev_imp; [|apply (ev_and _ _ _ EB H3)]. cbn. intros t ((A & B & _) & D).
    destruct (HC _ _ A B) as (_ & X & _). eapply Rle_trans; [apply X|]. rewrite Rmult_assoc.
    apply Rmult_le_compat_l; auto. }
  assert (O (fun t => n t * n t) (fun t => g (b1 t) - g (b2 t) - g' (b2 t) * (b1 t - b2 t))) as G4.
  { destruct H3 as (C & HCp & H3). exists (M * (C * C)).
    split; [apply Rmult_le_pos; auto; apply Rmult_le_pos; auto|].
    eapply ev_imp; [|apply (ev_and _ _ _ EB H3)]. cbn. intros t ((A & B & _) & D).
    destruct (HC _ _ A B) as (X & _ & _). eapply Rle_trans; [apply X|]. rewrite Rmult_assoc.
    apply Rmult_le_compat_l; auto. replace (C * C * (n t * n t)) with ((C * n t) * (C * n t)) by ring.
    apply Rmult_le_compat; auto using Rabs_pos. }
  split.
  - apply (HO sz b1 (fun _ => a)); auto. eapply ev_imp; [|apply EB]. cbn. tauto.
  - apply (HO sz b2 (fun _ => a)); auto. eapply ev_imp; [|apply EB]. cbn. tauto.
  - apply HO; auto. eapply ev_imp; [|apply EB]. cbn. tauto.
  - apply O_bmult; auto.
  - apply O_bmult; auto.
  - eapply O_ext; [|apply (O_plus _ _ _ (O_n_n _ G4)
      (O_plus _ _ _ (O_n_m1 _ (O_mult _ _ _ _ G3 H4)) (O_bmult _ _ _ G2 H6)))].
    apply ev_all; intros; cbn; ring.
Qed.

(** ** Evaluation over the family *)
(** value at the point; values and increments at the base points *)
Definition V5 : Type := (R * (T -> R * R) * (T -> R * R))%type.
Definition v5a (x : V5) : R := fst (fst x).
Definition v5p (x : V5) : T -> R * R := snd (fst x).
Definition v5q (x : V5) : T -> R * R := snd x.

(** value and increment of an operation *)
Definition dv (oc : OpCode) (x : R * R) (y : option (R * R)) : R * R :=
  (zv oc (fst x) (option_map fst y), fv oc (fst x) (option_map fst y) (snd x) (option_map snd y)).

Definition e_fop (oc : OpCode) (x : V5) (y : option V5) : M unit V5 :=
  fun s =>
    match zero_order_value Rops oc (v5a x) (option_map v5a y) with
    | Ok r => Ok ((r, fun t => dv oc (v5p x t) (option_map (fun z => v5p z t) y),
                   fun t => dv oc (v5q x t) (option_map (fun z => v5q z t) y)), s)
    | Panic p => Panic p
    end.
Definition e_cst (c : R) : V5 := (c, fun _ => (c, 0), fun _ => (c, 0)).

Lemma e_proj f (pr : V5 -> T -> R * R) env t :
  pr = v5p \/ pr = v5q ->
  straight_f f ->
  match feval Rops e_fop e_cst v5a f env tt with
  | Ok (ys, _) => d_eval Rops f (map (fun x => pr x t) env) = Ok (map (fun x => pr x t) ys)
  | Panic p => d_eval Rops f (map (fun x => pr x t) env) = Panic p
  end.
Proof.
  intros Hpr HS.
  assert (H : simM true (fun _ _ => True) (fun (_ : unit) (_ _ : unit) => True)
    (RVs (fun (_ : unit) (x : V5) v => pr x t = v)) tt
    (feval Rops e_fop e_cst v5a f env)
    (feval Rops (d_fop Rops) (d_cst Rops) fst f (map (fun x => pr x t) env))).
  { apply sim_feval; auto.
    - intros [] oc x1 y1 x2 y2 Ha <- Hy [] [] _.
      assert (y2 = option_map (fun z => pr z t) y1) as ->.
      { destruct y1, y2; cbn in *; try contradiction; congruence. }
      unfold e_fop, d_fop, mbind, mlift.
      assert (unary_oc oc = true \/ binary_oc oc = true /\ y1 <> None) as Hs.
      { destruct y1; cbn in Ha; [right; split; auto; discriminate|auto]. }
      destruct (zero_order_value_total Rops oc (v5a x1) (option_map v5a y1)) as [r1 ->].
      { destruct Hs as [|[? ?]]; auto. right; split; auto. destruct y1; cbn; congruence. }
      destruct (zero_order_value_total Rops oc (fst (pr x1 t))
                  (option_map fst (option_map (fun z => pr z t) y1))) as [r2 E2].
      { destruct Hs as [|[? ?]]; auto. right; split; auto. destruct y1; cbn; congruence. }
      destruct (first_order_value_total Rops oc (fst (pr x1 t))
                  (option_map fst (option_map (fun z => pr z t) y1)) (snd (pr x1 t))
                  (option_map snd (option_map (fun z => pr z t) y1))) as [d E3].
      { destruct y1; cbn in Ha |- *; [right; repeat split; auto; discriminate|auto]. }
      rewrite E2, E3. eexists _, tt, tt. split; [reflexivity|]. split; [exact I|]. split; [exact I|].
      assert (dv oc (pr x1 t) (option_map (fun z => pr z t) y1) = (r2, d)) as Ed.
      { unfold dv, zv, fv. rewrite E2, E3. reflexivity. }
      destruct Hpr as [-> | ->]; exact Ed.
    - intros [] c. destruct Hpr as [-> | ->]; reflexivity.
    - unfold RVs. clear. induction env; constructor; auto. }
  specialize (H tt tt I). unfold d_eval.
  destruct (feval Rops e_fop e_cst v5a f env tt) as [[ys []]|p].
  - destruct H as (vs & [] & [] & -> & _ & _ & HR). cbn. f_equal. clear -HR.
    unfold RVs in HR. induction HR; cbn; congruence.
  - rewrite (H eq_refl). reflexivity.
Qed.

Definition still5 (x : V5) : Prop := forall t, v5p x t = (v5a x, 0) /\ v5q x t = (v5a x, 0).
Definition good5 (x : V5) : Prop :=
  near2 (v5a x) (fun t => fst (v5p x t)) (fun t => fst (v5q x t))
    (fun t => snd (v5p x t)) (fun t => snd (v5q x t)).

Lemma still5_good x : still5 x -> good5 x.
Proof.
  intros H. eapply near2_ext; [|apply (near2_const (v5a x))]. apply ev_all. intros t.
  destruct (H t) as [-> ->]. auto.
Qed.

Lemma dv_still oc a b r :
  zero_order_value Rops oc a b = Ok r ->
  dv oc (a, 0) (option_map (fun v => (v, 0)) b) = (r, 0).
Proof.
  intros E. unfold dv. cbn [fst snd]. f_equal.
  - unfold zv. assert (option_map fst (option_map (fun v : R => (v, 0)) b) = b) as -> by (destruct b; auto).
    rewrite E. reflexivity.
  - apply fv_0. destruct b; cbn; [|discriminate]. intros d [= <-]; auto.
Qed.

Lemma still5_op oc x y r s :
  still5 x -> (forall z, y = Some z -> still5 z) -> e_fop oc x y tt = Ok (r, s) -> still5 r.
Proof.
  intros Hx Hy. unfold e_fop.
  destruct (zero_order_value _ _ _ _) as [r0|] eqn:E; [|discriminate]. intros [= <- <-] t.
  destruct (Hx t) as [Hp Hq].
  change (dv oc (v5p x t) (option_map (fun z => v5p z t) y) = (r0, 0) /\
          dv oc (v5q x t) (option_map (fun z => v5q z t) y) = (r0, 0)).
  rewrite Hp, Hq.
  assert (option_map (fun z => v5p z t) y = option_map (fun v => (v, 0)) (option_map v5a y)) as ->.
  { destruct y as [z|]; auto. cbn. destruct (Hy z eq_refl t) as [-> _]; auto. }
  assert (option_map (fun z => v5q z t) y = option_map (fun v => (v, 0)) (option_map v5a y)) as ->.
  { destruct y as [z|]; auto. cbn. destruct (Hy z eq_refl t) as [_ ->]; auto. }
  rewrite (dv_still _ _ _ _ E). auto.
Qed.

Lemma good5_intro r p q a b1 b2 d1 d2 :
  near2 a b1 b2 d1 d2 -> r = a ->
  ev sz (fun t => p t = (b1 t, d1 t) /\ q t = (b2 t, d2 t)) -> good5 (r, p, q).
Proof.
  intros H -> E. unfold good5, v5a, v5p, v5q. cbn [fst snd].
  eapply near2_ext; [|apply H]. eapply ev_imp; [|apply E]. cbn. intros t [-> ->]. auto.
Qed.

Lemma ev_ne a b : O sz (fun t => b t - a) -> a <> 0 -> ev sz (fun t => b t <> 0).
Proof.
  intros H Ha. eapply ev_imp; [|apply (O_small _ H (Rabs a)); apply Rabs_pos_lt; auto].
  cbn. intros t A B. rewrite B in A. replace (0 - a) with (- a) in A by lra.
  rewrite Rabs_Ropp in A. lra.
Qed.

Lemma ev_gt0 a b : O sz (fun t => b t - a) -> 0 < a -> ev sz (fun t => 0 < b t).
Proof.
  intros H Ha. eapply ev_imp; [|apply (O_small _ H a); auto].
  cbn. intros t A. apply Rabs_def2 in A. lra.
Qed.

(** The operation at a base point inside the domain. *)
Lemma dv_div u d v e : v <> 0 ->
  dv Div (u, d) (Some (v, e)) = (u * / v, d * / v + u * (- / (v * v) * e)).
Proof.
  intros H. unfold dv, zv, fv. cbn -[powerRZ IZR pow]. rewrite ?powerRZ_2. f_equal. field. auto.
Qed.

Lemma dv_tan u d : cos u <> 0 ->
  dv Tan (u, d) None = (sin u * / cos u, cos u * d * / cos u + sin u * (- / (cos u * cos u) * (- sin u * d))).
Proof.
  intros H. unfold dv, zv, fv. cbn -[powerRZ IZR pow]. rewrite ?powerRZ_2. f_equal.
  pose proof (sin2_cos2 u) as S. unfold Rsqr in S.
  replace (cos u * d * / cos u) with (d * (cos u * cos u) * / (cos u * cos u)) by (field; auto).
  replace (sin u * (- / (cos u * cos u) * (- sin u * d))) with
    (d * (sin u * sin u) * / (cos u * cos u)) by (field; auto).
  rewrite <- Rmult_plus_distr_r, <- Rmult_plus_distr_l.
  replace (cos u * cos u + sin u * sin u) with 1 by lra. unfold Rdiv. ring.
Qed.

Lemma dv_powf u d v e : 0 < u ->
  dv Powf (u, d) (Some (v, e)) =
  (exp (v * ln u), exp (v * ln u) * (e * ln u + v * (/ u * d))).
Proof.
  intros H. unfold dv, zv, fv. cbn -[powerRZ IZR pow].
  assert (forall (c d : R), (if negb (Reqb d 0) then c * d else 0) = c * d) as Hif.
  { intros c d'. destruct (Reqb d' 0) eqn:Ed; cbn; auto. apply Reqb_true in Ed. subst d'. ring. }
  rewrite !Hif. rewrite !Rpowf_pos by auto. rewrite Rpower_pred by auto.
  change (exp (v * ln u)) with (Rpower u v). f_equal. field. lra.
Qed.

Lemma dv_powi u d k :
  dv Powf (u, d) (Some (IZR k, 0)) = (powerRZ u k, IZR k * powerRZ u (k - 1) * d).
Proof.
  unfold dv, zv, fv. cbn -[powerRZ IZR pow].
  assert (Reqb 0 0 = true) as -> by (apply Reqb_true; auto). cbn -[powerRZ IZR].
  replace (IZR k - 1) with (IZR (k - 1)) by (rewrite minus_IZR; auto).
  rewrite !Rpowf_int. f_equal.
  destruct (Reqb d 0) eqn:Ed; cbn -[powerRZ IZR]; [|ring].
  apply Reqb_true in Ed. rewrite Ed. ring.
Qed.

Lemma op_good5 oc x y r s :
  arity_ok oc y ->
  in_domain oc (v5a x) (option_map v5a y) false \/
  (in_domain oc (v5a x) (option_map v5a y) true /\ forall z, y = Some z -> still5 z) ->
  good5 x -> (forall z, y = Some z -> good5 z) ->
  e_fop oc x y tt = Ok (r, s) -> good5 r.
Proof.
  intros Ha HD Gx Gy. unfold e_fop.
  destruct (zero_order_value _ _ _ _) as [r0|] eqn:E; [|discriminate]. intros [= <- <-].
  assert (in_domain oc (v5a x) (option_map v5a y) true) as HD'.
  { destruct HD as [H|[H _]]; auto. destruct oc; auto.
    cbn in *. intros b Hb. destruct (H b Hb) as [?|[? _]]; auto; discriminate. }
  destruct oc; cbn in Ha; try (destruct y; discriminate);
    (destruct y as [z|]; [try discriminate; specialize (Gy z eq_refl)|try discriminate]);
    cbn in E; injection E as <-; unfold good5 in Gx; try unfold good5 in Gy;
    cbn [option_map] in *.
  - eapply good5_intro; [apply (near2_plus _ _ _ _ _ _ _ _ _ _ Gx Gy)|reflexivity|].
    apply ev_all. intros t. split; reflexivity.
  - eapply good5_intro; [apply (near2_minus _ _ _ _ _ _ _ _ _ _ Gx Gy)|reflexivity|].
    apply ev_all. intros t. split; reflexivity.
  - eapply good5_intro; [apply (near2_mult _ _ _ _ _ _ _ _ _ _ Gx Gy)|reflexivity|].
    apply ev_all. intros t. split; reflexivity.
  - (* div *) cbn in HD'. specialize (HD' _ eq_refl).
    pose proof (near2_comp _ _ _ _ _ _ _ (c11_inv _ HD') Gy) as Gi.
    eapply good5_intro; [apply (near2_mult _ _ _ _ _ _ _ _ _ _ Gx Gi)|reflexivity|].
    eapply ev_imp; [|apply (ev_and _ _ _ (ev_ne _ _ (n2_b1 _ _ _ _ _ Gy) HD')
                               (ev_ne _ _ (n2_b2 _ _ _ _ _ Gy) HD'))].
    cbn. intros t [N1 N2].
    destruct (v5p x t), (v5q x t), (v5p z t), (v5q z t). cbn [fst snd] in *.
    split; apply dv_div; auto.
  - eapply good5_intro; [apply (near2_comp _ _ _ _ _ _ _ (c11_sin _) Gx)|reflexivity|].
    apply ev_all. intros t. unfold dv, zv, fv; cbn -[powerRZ IZR pow]. split; f_equal; ring.
  - eapply good5_intro; [apply (near2_comp _ _ _ _ _ _ _ (c11_cos _) Gx)|reflexivity|].
    apply ev_all. intros t. unfold dv, zv, fv; cbn -[powerRZ IZR pow]. split; f_equal; ring.
  - (* tan *) cbn in HD'.
    pose proof (near2_comp _ _ _ _ _ _ _ (c11_cos _) Gx) as Gc.
    pose proof (near2_comp _ _ _ _ _ _ _ (c11_sin _) Gx) as Gs.
    pose proof (near2_comp _ _ _ _ _ _ _ (c11_inv _ HD') Gc) as Gi.
    eapply good5_intro; [apply (near2_mult _ _ _ _ _ _ _ _ _ _ Gs Gi)|reflexivity|].
    eapply ev_imp; [|apply (ev_and _ _ _ (ev_ne _ _ (n2_b1 _ _ _ _ _ Gc) HD')
                               (ev_ne _ _ (n2_b2 _ _ _ _ _ Gc) HD'))].
    cbn. intros t [N1 N2]. destruct (v5p x t), (v5q x t). cbn [fst snd] in *.
    split; apply dv_tan; auto.
  - eapply good5_intro; [apply (near2_abs _ _ _ _ _ Gx)|reflexivity|].
    apply ev_all. intros t. split; reflexivity.
  - eapply good5_intro; [apply (near2_comp _ _ _ _ _ _ _ (c11_exp _) Gx)|reflexivity|].
    apply ev_all. intros t. unfold dv, zv, fv; cbn -[powerRZ IZR pow]. split; f_equal; ring.
  - eapply good5_intro; [apply (near2_comp _ _ _ _ _ _ _ (c11_ln _ HD') Gx)|reflexivity|].
    apply ev_all. intros t. unfold dv, zv, fv; cbn -[powerRZ IZR pow]. unfold Rdiv. split; f_equal; ring.
  - eapply good5_intro; [apply (near2_comp _ _ _ _ _ _ _ (c11_asin _ HD') Gx)|reflexivity|].
    apply ev_all. intros t. unfold dv, zv, fv; cbn -[powerRZ IZR pow]. rewrite ?powerRZ_2.
    unfold Rdiv. split; f_equal; ring.
  - eapply good5_intro; [apply (near2_comp _ _ _ _ _ _ _ (c11_acos _ HD') Gx)|reflexivity|].
    apply ev_all. intros t. unfold dv, zv, fv; cbn -[powerRZ IZR pow]. rewrite ?powerRZ_2.
    unfold Rdiv. split; f_equal; ring.
  - eapply good5_intro; [apply (near2_comp _ _ _ _ _ _ _ (c11_atan _) Gx)|reflexivity|].
    apply ev_all. intros t. unfold dv, zv, fv; cbn -[powerRZ IZR pow]. rewrite ?powerRZ_2.
    unfold Rdiv. split; f_equal; ring.
  - (* powf *)
    set (a := v5a x) in *. set (b := v5a z) in *.
    assert (0 < a \/ (still5 z /\ exists k, b = IZR k /\ (a <> 0 \/ (1 <= k)%Z))) as [Hpos|Hint].
    { destruct HD as [H|[H Hs]].
      - destruct (H b eq_refl) as [|[? _]]; [auto|discriminate].
      - destruct (H b eq_refl) as [|[_ ?]]; [auto|]. right; split; auto. }
    + pose proof (near2_comp _ _ _ _ _ _ _ (c11_ln _ Hpos) Gx) as Gl.
      pose proof (near2_mult _ _ _ _ _ _ _ _ _ _ Gy Gl) as Gm.
      pose proof (near2_comp _ _ _ _ _ _ _ (c11_exp _) Gm) as Ge.
      eapply good5_intro; [apply Ge|rewrite Rpowf_pos by auto; reflexivity|].
      eapply ev_imp; [|apply (ev_and _ _ _ (ev_gt0 _ _ (n2_b1 _ _ _ _ _ Gx) Hpos)
                                 (ev_gt0 _ _ (n2_b2 _ _ _ _ _ Gx) Hpos))].
      cbn. intros t [N1 N2].
      destruct (v5p x t), (v5q x t), (v5p z t), (v5q z t). cbn [fst snd] in *.
      split; apply dv_powf; auto.
    + destruct Hint as [Hs (k & Hb & Hk)].
      eapply good5_intro;
        [apply (near2_comp _ _ _ _ _ _ _ (c11_powerRZ k a Hk) Gx)|rewrite Hb, Rpowf_int; reflexivity|].
      apply ev_all. intros t. destruct (Hs t) as [-> ->]. fold b. rewrite Hb.
      destruct (v5p x t), (v5q x t). cbn [fst snd]. split; apply dv_powi.
Qed.

(** The main induction. *)
Theorem family_near2 f (x : list R) (env : list V5) :
  regular f x -> map v5a env = x -> Forall good5 env ->
  forall ys, feval Rops e_fop e_cst v5a f env tt = Ok (ys, tt) -> Forall good5 ys.
Proof.
  intros HR Ex HG ys E.
  set (RVk := fun (w : Prop) (p : R * bool) (q : V5) =>
                fst p = v5a q /\ (w -> good5 q /\ (snd p = true -> still5 q))).
  assert (H : simM true (fun P P' : Prop => P' -> P) (fun w s1 (_ : unit) => s1 = w)
    (RVs RVk) True
    (feval Rops r_fop (fun c => (c, true)) fst f (map (fun a => (a, false)) x))
    (feval Rops e_fop e_cst v5a f env)).
  { apply sim_feval; auto.
    - intros a b p q L [H1 H2]. split; auto.
    - intros w oc x1 y1 x2 y2 Ha [Hx1 Hx2] Hy s1 [] ->.
      assert (option_map fst y1 = option_map v5a y2) as Ey.
      { destruct y1, y2; cbn in *; try contradiction; auto. destruct Hy as [Hy _]. congruence. }
      unfold r_fop. rewrite Hx1, Ey.
      destruct (e_fop oc x2 y2 tt) as [[r []]|p] eqn:Ec.
      + pose proof Ec as Ec'. unfold e_fop in Ec'.
        destruct (zero_order_value Rops oc (v5a x2) (option_map v5a y2)) as [r0|] eqn:E0;
          [|discriminate].
        injection Ec' as Er. exists r, tt. eexists. split; [reflexivity|].
        split; [|split; [reflexivity|]]; [tauto|].
        assert (arity_ok oc y2) as Ha2.
        { destruct y1, y2; cbn in *; try contradiction; auto. }
        split; [cbn; rewrite <- Er; reflexivity|].
        intros [Hw HD]. destruct (Hx2 Hw) as [Gx Sx].
        assert (forall z, y2 = Some z -> good5 z) as Gy.
        { intros z ->. destruct y1; cbn in Hy; [|contradiction]. apply Hy; auto. }
        assert (match y1 with Some y' => snd y' | None => true end = true ->
                forall z, y2 = Some z -> still5 z) as Sy.
        { intros Hc z ->. destruct y1; cbn in Hy; [|contradiction]. apply Hy; auto. }
        split.
        * eapply op_good5; eauto.
          destruct (match y1 with Some y' => snd y' | None => true end) eqn:Ec1; auto.
        * cbn. intros Hc. apply andb_prop in Hc as [Hc1 Hc2].
          eapply still5_op; eauto.
      + unfold e_fop in Ec.
        destruct (zero_order_value Rops oc (v5a x2) (option_map v5a y2)); [discriminate|].
        intros _. congruence.
    - intros w c. split; auto. intros _. assert (still5 (e_cst c)) by (intros h; cbn; auto).
      split; auto using still5_good.
    - left. intros w p q [H _]; auto.
    - unfold RVs. rewrite <- Ex. clear -HG. induction HG; cbn; constructor; auto.
      split; auto. intros _. split; auto. discriminate. }
  specialize (H True tt eq_refl). unfold regular in HR.
  destruct (feval Rops r_fop (fun c => (c, true)) fst f (map (fun a => (a, false)) x) True)
    as [[ps P]|p] eqn:Er.
  - specialize (HR _ _ eq_refl). destruct H as (ys' & [] & w' & E' & _ & Es & HF).
    assert (ys' = ys) by congruence. subst ys' P.
    clear -HF HR. unfold RVs in HF. induction HF as [|p q l1 l2 [H1 H2] HF IH]; constructor; auto.
    apply H2; auto.
  - rewrite (H eq_refl) in E. discriminate.
Qed.

Lemma e_fop_val oc x y s r s' :
  arity_ok oc y -> e_fop oc x y s = Ok (r, s') ->
  zero_order_value Rops oc (v5a x) (option_map v5a y) = Ok (v5a r).
Proof.
  intros _. unfold e_fop. destruct (zero_order_value _ _ _ _); [|discriminate].
  intros [= <- <-]. reflexivity.
Qed.

(** All bounds with one constant and one radius. *)
Lemma vec_near2 (zs : list V5) :
  Forall good5 zs ->
  exists K d, 0 <= K /\ 0 < d /\ forall t, sz t < d -> forall z, In z zs ->
    Rabs (fst (v5p z t) - fst (v5q z t)) <= K * n t /\
    Rabs (snd (v5p z t)) <= K * m1 t /\
    Rabs ((fst (v5p z t) + snd (v5p z t)) - (fst (v5q z t) + snd (v5q z t)))
      <= K * (n t * (m1 t + m2 t)).
Proof.
  intros H. induction H as [|z zs [_ _ Hb Hd _ Hw] H IH].
  - exists 0, 1. split; [lra|]. split; [lra|]. intros t _ z [].
  - destruct IH as (K & d & HK & Hdp & IH). destruct Hw as (C & HC & d' & Hd' & Hw).
    destruct Hb as (Cb & HCb & db & Hdb & Hb). destruct Hd as (Cd & HCd & dd & Hdd & Hd).
    exists (K + (C + (Cb + Cd))), (Rmin d (Rmin d' (Rmin db dd))).
    split; [lra|]. split; [repeat apply Rmin_pos; auto|]. intros t Ht z' Hin.
    assert (sz t < d /\ sz t < d' /\ sz t < db /\ sz t < dd) as (L1 & L2 & L3 & L4).
    { pose proof (Rmin_l d (Rmin d' (Rmin db dd))). pose proof (Rmin_r d (Rmin d' (Rmin db dd))).
      pose proof (Rmin_l d' (Rmin db dd)). pose proof (Rmin_r d' (Rmin db dd)).
      pose proof (Rmin_l db dd). pose proof (Rmin_r db dd). lra. }
    assert (forall X Y g, 0 <= g -> 0 <= Y <= K + (C + (Cb + Cd)) -> X <= Y * g ->
              X <= (K + (C + (Cb + Cd))) * g) as Hup.
    { intros X Y g Hg HY HX. eapply Rle_trans; [apply HX|]. apply Rmult_le_compat_r; lra. }
    pose proof (prod_pos t) as Hpp. cbn in Hpp.
    destruct Hin as [<-|Hin].
    + repeat split.
      * apply (Hup _ Cb); auto; lra.
      * apply (Hup _ Cd); auto; lra.
      * apply (Hup _ C); auto; lra.
    + destruct (IH t L1 z' Hin) as (I1 & I2 & I3). repeat split; apply (Hup _ K); auto; lra.
Qed.

End Order.
