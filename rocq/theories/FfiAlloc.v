(** The C++ process does not depend on the allocator (C98). *)
From Coq Require Import List Arith Bool Lia.
From Verif Require Import Base Float Operation Tape AContext Methods Ffi FfiSpec FfiFacts.
Import ListNotations.

Section Alloc.
Context {S : Type} (So : Fops S).

Lemma step_self w0 m st x : inv w0 m st ->
  step So (SCopyAssign x x) m = Err (match s_val st x with None => BadScope | Some _ => UseAfterFree end).
Proof.
  intros I. cbn [step]. unfold adouble_copy_assign, xbind, obj_get.
  destruct (obj_cases _ _ _ x I) as [[E1 E2]|(i & q & v & E1 & E2 & E3 & E4)]; rewrite E1, ?E2, ?E4; auto.
  unfold imp_get. rewrite E2. unfold adv_adouble_free, box_free. rewrite E3. cbn.
  rewrite E1. cbn. rewrite ?E2. unfold adv_adouble_copy, xbind, box_get. cbn. unfold upd. rewrite Nat.eqb_refl. auto.
Qed.

Definition same_process (a b : out (unit * mach S)) : Prop :=
  match a, b with
  | Done (_, m), Done (_, m') =>
      m_w m = m_w m' /\ (forall x, value_of m x = value_of m' x) /\ (forall k, context_of m k = context_of m' k)
  | Err e, Err e' => e = e'
  | _, _ => False
  end.

Lemma run_same w0 p : ids_fresh w0 -> forall m m' st, inv w0 m st -> inv w0 m' st -> w_next w0 <= w_next (m_w m) ->
  same_process (cxx So p m) (cxx So p m').
Proof.
  intros F. induction p as [|s p IH]; intros m m' st I I' L.
  - cbn. destruct (inv_shows _ _ _ I) as (A1 & A2 & A3), (inv_shows _ _ _ I') as (B1 & B2 & B3).
    split; [congruence|]. split; intros; congruence.
  - cbn. unfold xbind.
    assert (not_self_copy s \/ exists x, s = SCopyAssign x x) as [NS|[x ->]].
    { destruct s; cbn; auto. destruct (Nat.eq_dec x y) as [->|]; eauto. }
    + assert (w_next w0 <= w_next (m_w m')) as L' by (rewrite (inv_w _ _ _ I'), <- (inv_w _ _ _ I); auto).
      pose proof (step_ok So w0 m st s F I L NS) as A. pose proof (step_ok So w0 m' st s F I' L' NS) as B. unfold agree in A, B.
      destruct (step So s m) as [[u m1]|e], (step So s m') as [[u' m1']|e'], (value_step So plus st s) as [st1|e1];
        try contradiction; try (cbn; congruence). destruct A as [A1 A2], B as [B1 B2]. eauto.
    + rewrite (step_self _ _ _ x I), (step_self _ _ _ x I'). reflexivity.
Qed.

Theorem any_allocator a1 a2 a3 a4 w p : sound a1 -> sound a2 -> sound a3 -> sound a4 -> ids_fresh w ->
  same_process (cxx So p (mach0_at a1 a2 a3 a4 w)) (cxx So p (mach0 w)).
Proof.
  intros H1 H2 H3 H4 F. apply (run_same w p F _ _ (store0 w)); auto; [apply inv0_at; auto|apply inv0; auto].
Qed.

Theorem any_allocator_no_uaf a1 a2 a3 a4 w p : sound a1 -> sound a2 -> sound a3 -> sound a4 -> ids_fresh w ->
  Forall not_self_copy p -> cxx So p (mach0_at a1 a2 a3 a4 w) <> Err UseAfterFree.
Proof.
  intros H1 H2 H3 H4 F H E. pose proof (any_allocator a1 a2 a3 a4 w p H1 H2 H3 H4 F) as A. rewrite E in A. cbn in A.
  destruct (cxx So p (mach0 w)) as [[? ?]|e] eqn:E'; [contradiction|]. subst. eapply never_touches_freed; eauto.
Qed.

Theorem any_allocator_no_leak a1 a2 a3 a4 w p m : sound a1 -> sound a2 -> sound a3 -> sound a4 -> ids_fresh w ->
  Forall not_self_copy p -> cxx So p (mach0_at a1 a2 a3 a4 w) = Done (tt, m) ->
  (forall x, m_obj m x = None) -> (forall k, m_cobj m k = None) ->
  (forall a, h_at (m_box m) a = None) /\ (forall a, h_at (m_imp m) a = None) /\
  (forall a, h_at (m_cbox m) a = None) /\ (forall a, h_at (m_cimp m) a = None) /\
  (forall c, w_ctx (m_w m) c = None <-> w_ctx w c = None).
Proof.
  intros H1 H2 H3 H4 F H E Ho Hc. pose proof (run_agree_at So a1 a2 a3 a4 w p H1 H2 H3 H4 F H) as A. rewrite E in A. cbn in A.
  destruct (value_run So plus (store0 w) p) as [st|]; [|contradiction]. destruct A as [I _]. eapply inv_no_leak; eauto.
Qed.

(** ** What the cells hold: a run never has two objects on one cell, whatever the allocator *)
Theorem cells_not_shared a1 a2 a3 a4 w p m x y i : sound a1 -> sound a2 -> sound a3 -> sound a4 -> ids_fresh w ->
  Forall not_self_copy p -> cxx So p (mach0_at a1 a2 a3 a4 w) = Done (tt, m) ->
  (m_obj m x = Some i -> m_obj m y = Some i -> x = y) /\
  (forall j q, h_at (m_imp m) i = Some q -> h_at (m_imp m) j = Some q -> i = j).
Proof.
  intros H1 H2 H3 H4 F H E. pose proof (run_agree_at So a1 a2 a3 a4 w p H1 H2 H3 H4 F H) as A. rewrite E in A. cbn in A.
  destruct (value_run So plus (store0 w) p) as [st|]; [|contradiction]. destruct A as [[_ [_ _ R] _] _].
  split; [apply (rep_inj1 _ _ _ _ R)|]. intros j q. apply (rep_inj2 _ _ _ _ R).
Qed.
End Alloc.
