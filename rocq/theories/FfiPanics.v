(** When a C++ program is ended by a panic of the Rust library. *)
From Coq Require Import List Arith ZArith Bool Lia.
From Verif Require Import Base Float Operation Tape AContext AContextFacts Methods Spec Param Ffi FfiSpec
  FfiFacts ApiFacts3 FfiPanicSpec.
Import ListNotations.

Section Panics.
Context {S : Type} (So : Fops S).

(** Variables of context [c] or of none. *)
Definition bel (c : nat) (x : AF S) : Prop := af_ctx x = None \/ exists k, af_ctx x = Some (c, k).

Lemma pick_bel c x y : bel c x -> (forall b, y = Some b -> bel c b) ->
  pick_cid x y = Ok None \/ pick_cid x y = Ok (Some c).
Proof.
  unfold pick_cid. intros Hx Hy. destruct y as [b|].
  - specialize (Hy b eq_refl). destruct Hx as [->|[k ->]], Hy as [->|[k' ->]]; auto.
    cbn. rewrite Nat.eqb_refl. auto.
  - destruct Hx as [->|[k ->]]; auto.
Qed.

Lemma fop_bel c oc x y w : arity_ok oc y -> bel c x -> (forall b, y = Some b -> bel c b) ->
  exists r w', fop So oc x y w = Ok (r, w') /\ bel c r.
Proof.
  intros A Hx Hy. pose proof (pick_bel c x y Hx Hy) as P. unfold fop.
  destruct (from_op_total So Some oc x y w) as [(p & Q & _)|(r & w' & E)]; [discriminate|auto| |].
  - destruct P; congruence.
  - exists r, w'. split; auto. apply from_op_spec in E as (_ & _ & D).
    destruct D as [_ D _|c' i i1 i2 v1 v2 fv P' _ _ _ _ D _]; [left; auto|].
    right. destruct P as [P|P]; [congruence|]. rewrite P in P'. injection P' as <-. eauto.
Qed.

(** A computation that stays within context [c]. *)
Definition within (c : nat) (f : M (world S) (AF S)) : Prop :=
  forall w, exists r w', f w = Ok (r, w') /\ bel c r.

Lemma within_bind c f g : within c f -> (forall r, bel c r -> within c (g r)) -> within c (mbind f g).
Proof. intros Hf Hg w. destruct (Hf w) as (r & w' & E & B). unfold mbind. rewrite E. apply Hg; auto. Qed.

Lemma within_fop1 c oc x : unary_oc oc = true -> bel c x -> within c (fop So oc x None).
Proof. intros A B w. apply fop_bel; auto. discriminate. Qed.
Lemma within_fop2 c oc x y : binary_oc oc = true -> bel c x -> bel c y -> within c (fop So oc x (Some y)).
Proof. intros A B C w. apply fop_bel; auto. intros b [= <-]; auto. Qed.

Lemma bel_const c v : bel c (const_val So v).
Proof. left; reflexivity. Qed.

Ltac wi := repeat first
  [ apply within_bind; [|intros] | apply within_fop2 | apply within_fop1 | apply bel_const | assumption
  | reflexivity ].

Lemma meth1_within c f x : bel c x -> within c (meth1 So (fop So) (const_val So) (rust_fn1 f) x).
Proof.
  intros B. destruct f; cbn [rust_fn1 meth1];
    unfold m_sin, m_cos, m_tan, m_abs, m_exp, m_ln; wi.
Qed.

Lemma op_within c o x y : bel c x -> bel c y ->
  within c (meth2 So (fop So) (const_val So) (rust_op o) x y).
Proof.
  intros B C. destruct o; cbn [rust_op meth2]; unfold m_add, m_sub, m_mul, m_div; wi.
Qed.
Lemma fn2_within c f x y : bel c x -> bel c y ->
  within c (meth2 So (fop So) (const_val So) (rust_fn2 f) x y).
Proof.
  intros B C. destruct f; cbn [rust_fn2 meth2]; unfold m_min, m_max, m_add, m_sub, m_mul, m_abs; wi.
Qed.

(** The two operands: of one context, or mixed. *)
Definition mixed (x y : AF S) : Prop :=
  exists c1 k1 c2 k2, af_ctx x = Some (c1, k1) /\ af_ctx y = Some (c2, k2) /\ c1 <> c2.

Lemma mixed_or x y : (exists c, bel c x /\ bel c y) \/ mixed x y.
Proof.
  destruct (af_ctx x) as [[c1 k1]|] eqn:Ex, (af_ctx y) as [[c2 k2]|] eqn:Ey.
  - destruct (Nat.eq_dec c1 c2) as [->|N].
    + left. exists c2. split; right; eauto.
    + right. exists c1, k1, c2, k2. auto.
  - left. exists c1. split; [right; eauto|left; auto].
  - left. exists c2. split; [left; auto|right; eauto].
  - left. exists 0. split; left; auto.
Qed.

Lemma mixed_not c x y : mixed x y -> bel c x -> bel c y -> False.
Proof.
  intros (c1 & k1 & c2 & k2 & E1 & E2 & N) [B|[k B]] [C|[k' C]]; congruence.
Qed.

Lemma fop_mixed oc x y w : binary_oc oc = true -> mixed x y -> fop So oc x (Some y) w = Panic PAssert.
Proof.
  intros A (c1 & k1 & c2 & k2 & E1 & E2 & N). unfold fop. eapply mix_op; eauto.
Qed.

Lemma op_mixed o x y w : mixed x y -> meth2 So (fop So) (const_val So) (rust_op o) x y w = Panic PAssert.
Proof. intros Mx. destruct o; cbn [rust_op meth2]; apply fop_mixed; auto. Qed.
Lemma fn2_mixed f x y w : mixed x y -> meth2 So (fop So) (const_val So) (rust_fn2 f) x y w = Panic PAssert.
Proof.
  intros Mx. destruct f; cbn [rust_fn2 meth2]; unfold m_min, m_max, m_add, mbind;
    rewrite fop_mixed by auto; reflexivity.
Qed.

Lemma set_dep_cases c (v : AF S) w : w_ctx w c <> None ->
  (exists w', set_dep Some c v w = Ok (tt, w') /\ forall c2 k, af_ctx v = Some (c2, k) -> c2 = c) \/
  (set_dep Some c v w = Panic PAssert /\ exists c2 k, af_ctx v = Some (c2, k) /\ c2 <> c).
Proof.
  intros H. unfold set_dep, with_ctx. destruct (w_ctx w c) as [i|]; [|congruence].
  destruct (af_ctx v) as [[c2 k]|].
  - destruct (Nat.eqb_spec c2 c) as [->|N]; cbn.
    + left. eexists. split; [reflexivity|]. congruence.
    + right. split; auto. eauto.
  - left. eexists. split; [reflexivity|]. discriminate.
Qed.

Lemma new_indep_ok c w : w_ctx w c <> None ->
  exists r w' k, new_indep So Some c (f_zero So) w = Ok (r, w') /\ af_ctx r = Some (c, k).
Proof.
  intros H. unfold new_indep, set_indep, with_ctx. destruct (w_ctx w c) as [i|]; [|congruence].
  cbn. eexists _, _, _. split; reflexivity.
Qed.

(** A context held by an object is alive. *)
Lemma held_alive (w0 : world S) m (st : store S) k c : inv w0 m st -> s_ctx st k = Some (Some c) -> w_ctx (s_w st) c <> None.
Proof.
  intros I H. destruct (ctx_cases _ _ _ k I) as [[_ E]|[[_ E]|(i & p & c' & E1 & E2 & E3 & E4)]]; try congruence.
  rewrite H in E4. injection E4 as <-.
  pose proof (k_live _ _ _ (inv_k _ _ _ I) _ _ E3) as L. unfold mine in L. rewrite <- (inv_w _ _ _ I).
  destruct (w_ctx w0 c); congruence.
Qed.

(** One statement of the value semantics. *)
Definition vmixes (st : store S) (s : stmt S) : Prop :=
  match s with
  | SBin _ x y z | SFn2 _ x y z =>
      s_val st x = None /\ exists a b, s_val st y = Some a /\ s_val st z = Some b /\ mixed a b
  | KDep k x => exists c v c2 i, s_ctx st k = Some (Some c) /\ s_val st x = Some v /\
                  af_ctx v = Some (c2, i) /\ c2 <> c
  | _ => False
  end.

Ltac cas := repeat (match goal with
  | |- context [match ?x with _ => _ end] =>
      lazymatch x with
      | context [match _ with _ => _ end] => fail
      | call _ _ => fail
      | _ => destruct x eqn:?
      end
  end; cbn -[meth1 meth2 new_indep set_dep]).

Lemma value_panics w0 m st s q : inv w0 m st ->
  value_step So plus st s = Err (RustPanic q) <-> q = PAssert /\ vmixes st s.
Proof.
  intros I.
  destruct s as [x|x c|x y|x y|x y|x y|o x y z|o x c y|f x y z|f x y|x|k|k j|k j|k|x k|k x];
    cbn -[meth1 meth2 call new_indep set_dep]; unfold fresh_val, fresh_ctx, the_val, the_ctx, usable, release;
    unfold obind;
    try (cbn -[meth1 meth2 new_indep set_dep]; cas; (split; [discriminate|intros [_ []]])).
  - (* SBin *)
    destruct (s_val st x) eqn:Ex; [split; [discriminate|intros (_ & [=] & _)]|].
    destruct (s_val st y) as [a|] eqn:Ey; [|split; [discriminate|intros (_ & _ & a & b & [=] & _)]].
    destruct (s_val st z) as [b|] eqn:Ez; [|split; [discriminate|intros (_ & _ & a' & b & _ & [=] & _)]].
    unfold call. destruct (mixed_or a b) as [(c & Ba & Bb)|Mx].
    + destruct (op_within c o a b Ba Bb (s_w st)) as (r & w' & -> & _). cbn. split; [discriminate|].
      intros (_ & _ & a' & b' & [= <-] & [= <-] & Mx). destruct (mixed_not _ _ _ Mx Ba Bb).
    + rewrite op_mixed by auto. split; [intros [= <-]; split; auto; split; auto; exists a, b; auto|].
      intros [-> _]. reflexivity.
  - (* SBinLeft *)
    destruct (s_val st x) eqn:Ex; [split; [discriminate|intros [_ []]]|].
    destruct (s_val st y) as [b|] eqn:Ey; [|split; [discriminate|intros [_ []]]].
    unfold call. destruct (mixed_or (const_val So c) b) as [(c' & Ba & Bb)|Mx].
    + destruct (op_within c' CoAdd _ _ Ba Bb (s_w st) : exists r w', meth2 So (fop So) (const_val So) BAdd (const_val So c) b (s_w st) = Ok (r, w') /\ _) as (r & w' & -> & _). cbn. split; [discriminate|intros [_ []]].
    + destruct Mx as (c1 & k1 & _ & _ & [=] & _).
  - (* SFn2 *)
    destruct (s_val st x) eqn:Ex; [split; [discriminate|intros (_ & [=] & _)]|].
    destruct (s_val st y) as [a|] eqn:Ey; [|split; [discriminate|intros (_ & _ & a & b & [=] & _)]].
    destruct (s_val st z) as [b|] eqn:Ez; [|split; [discriminate|intros (_ & _ & a' & b & _ & [=] & _)]].
    unfold call. destruct (mixed_or a b) as [(c & Ba & Bb)|Mx].
    + destruct (fn2_within c f a b Ba Bb (s_w st)) as (r & w' & -> & _). cbn. split; [discriminate|].
      intros (_ & _ & a' & b' & [= <-] & [= <-] & Mx). destruct (mixed_not _ _ _ Mx Ba Bb).
    + rewrite fn2_mixed by auto. split; [intros [= <-]; split; auto; split; auto; exists a, b; auto|].
      intros [-> _]. reflexivity.
  - (* SFn1 *)
    destruct (s_val st x) eqn:Ex; [split; [discriminate|intros [_ []]]|].
    destruct (s_val st y) as [a|] eqn:Ey; [|split; [discriminate|intros [_ []]]].
    unfold call. destruct (mixed_or a (const_val So (f_zero So))) as [(c & Ba & _)|Mx].
    + destruct (meth1_within c f a Ba (s_w st)) as (r & w' & -> & _). cbn. split; [discriminate|intros [_ []]].
    + destruct Mx as (c1 & k1 & c2 & k2 & _ & [=] & _).
  - (* KIndep *)
    destruct (s_val st x) eqn:Ex; [split; [discriminate|intros [_ []]]|].
    destruct (s_ctx st k) as [[c|]|] eqn:Ek; try (split; [discriminate|intros [_ []]]).
    unfold call. destruct (new_indep_ok c (s_w st) (held_alive _ _ _ _ _ I Ek)) as (r & w' & n & -> & _).
    cbn. split; [discriminate|intros [_ []]].
  - (* KDep *)
    destruct (s_ctx st k) as [[c|]|] eqn:Ek;
      try (split; [discriminate|intros (_ & ? & ? & ? & ? & [=] & _)]).
    destruct (s_val st x) as [v|] eqn:Ex; [|split; [discriminate|intros (_ & ? & ? & ? & ? & _ & [=] & _)]].
    unfold call. destruct (set_dep_cases c v (s_w st) (held_alive _ _ _ _ _ I Ek)) as [(w' & -> & H)|(-> & c2 & n & H1 & H2)].
    + cbn. split; [discriminate|]. intros (_ & c' & v' & c2 & n & [= <-] & [= <-] & H3 & H4). apply H in H3. congruence.
    + split; [intros [= <-]; split; auto; exists c, v, c2, n; auto|]. intros [-> _]. reflexivity.
Qed.

Lemma vmixes_iff w0 m st s : inv w0 m st -> vmixes st s <-> mixes m s.
Proof.
  intros I. pose proof (inv_shows _ _ _ I) as (_ & V & C). unfold vmixes, mixes, attached_to.
  assert (forall x, s_val st x = None <-> m_obj m x = None) as O.
  { intros x. destruct (obj_cases _ _ _ x I) as [[E1 E2]|(i & p & v & E1 & E2 & E3 & E4)]; rewrite E1.
    - tauto.
    - rewrite E4. split; discriminate. }
  destruct s; try tauto.
  - rewrite O. split; intros [H R]; split; auto.
    + destruct R as (a & b & Ha & Hb & c1 & k1 & c2 & k2 & E1 & E2 & N).
      exists c1, c2. rewrite !V. eauto 10.
    + destruct R as (c1 & c2 & (a & k1 & Ha & E1) & (b & k2 & Hb & E2) & N). rewrite V in Ha, Hb.
      exists a, b. do 2 (split; auto). exists c1, k1, c2, k2. auto.
  - rewrite O. split; intros [H R]; split; auto.
    + destruct R as (a & b & Ha & Hb & c1 & k1 & c2 & k2 & E1 & E2 & N).
      exists c1, c2. rewrite !V. eauto 10.
    + destruct R as (c1 & c2 & (a & k1 & Ha & E1) & (b & k2 & Hb & E2) & N). rewrite V in Ha, Hb.
      exists a, b. do 2 (split; auto). exists c1, k1, c2, k2. auto.
  - split.
    + intros (c & v & c2 & i & E1 & E2 & E3 & N). exists c, c2. rewrite C, V. split; auto. split; eauto.
    + intros (c1 & c2 & E1 & (v & i & E2 & E3) & N). rewrite C in E1. rewrite V in E2.
      exists c1, v, c2, i. auto.
Qed.

Lemma cxx_app p q a b : cxx So p a = Done (tt, b) -> cxx So (p ++ q) a = cxx So q b.
Proof.
  revert a. induction p as [|s p IH]; intros a; cbn.
  - intros [= <-]; auto.
  - unfold xbind. destruct (step So s a) as [[u a']|]; [|discriminate]. apply IH.
Qed.

Lemma step_panics w0 m st s q : ids_fresh w0 -> inv w0 m st -> w_next w0 <= w_next (m_w m) ->
  not_self_copy s -> (step So s m = Err (RustPanic q) <-> q = PAssert /\ mixes m s).
Proof.
  intros F I Hn Hs. rewrite <- (vmixes_iff _ _ _ _ I), <- (value_panics _ _ _ _ _ I).
  pose proof (step_ok So w0 m st s F I Hn Hs) as A. unfold FfiFacts.agree in A.
  destruct (step So s m) as [[u m']|e], (value_step So plus st s) as [st'|e']; try contradiction A.
  - split; discriminate.
  - subst. split; intros E; injection E as ->; reflexivity.
Qed.

Theorem rust_panics w p q : ids_fresh w -> Forall not_self_copy p ->
  (cxx So p (mach0 w) = Err (RustPanic q) <->
   q = PAssert /\ exists p1 s p2 m, p = p1 ++ s :: p2 /\ cxx So p1 (mach0 w) = Done (tt, m) /\ mixes m s).
Proof.
  intros F H.
  enough (forall m0 st, inv w m0 st -> w_next w <= w_next (m_w m0) ->
    (cxx So p m0 = Err (RustPanic q) <->
     q = PAssert /\ exists p1 s p2 m, p = p1 ++ s :: p2 /\ cxx So p1 m0 = Done (tt, m) /\ mixes m s)) as G.
  { apply (G _ (store0 w)); auto. apply inv0; auto. }
  induction H as [|s p Hs Hp IH]; intros m0 st I Hn.
  - cbn. split; [discriminate|]. intros (_ & p1 & s & p2 & m & E & _). destruct p1; discriminate.
  - pose proof (step_panics w m0 st s q F I Hn Hs) as P.
    pose proof (step_ok So w m0 st s F I Hn Hs) as A. unfold FfiFacts.agree in A. cbn [cxx]. unfold xbind.
    destruct (step So s m0) as [[u m1]|e] eqn:Es, (value_step So plus st s) as [st'|e']; try contradiction A.
    + destruct u. destruct A as [I1 Hn1]. rewrite (IH m1 st' I1 Hn1).
      split; intros [Q (p1 & s' & p2 & m & E1 & E2 & E3)]; split; auto.
      * exists (s :: p1), s', p2, m. subst p. split; auto. split; auto. cbn. unfold xbind. rewrite Es. auto.
      * destruct p1 as [|s1 p1]; cbn in E1.
        -- injection E1 as <- <-. cbn in E2. injection E2 as <-.
           destruct P as [_ P]. specialize (P (conj Q E3)). discriminate.
        -- injection E1 as <- ->. exists p1, s', p2, m. split; auto. split; auto.
           cbn in E2. unfold xbind in E2. rewrite Es in E2. auto.
    + rewrite P. split; intros [Q R]; split; auto.
      * exists [], s, p, m0. split; auto.
      * destruct R as (p1 & s' & p2 & m & E1 & E2 & E3). destruct p1 as [|s1 p1]; cbn in E1.
        -- injection E1 as <- <-. cbn in E2. injection E2 as <-. auto.
        -- injection E1 as <- ->. cbn in E2. unfold xbind in E2. rewrite Es in E2. discriminate.
Qed.

(** ** Programs with one context *)
(** All contexts and recorded variables of the program are those of context [c]. *)
Definition only (c : nat) (st : store S) : Prop :=
  (forall x v, s_val st x = Some v -> bel c v) /\
  (forall k c', s_ctx st k = Some (Some c') -> c' = c).

Lemma only_set c st x v : only c st -> (forall a, v = Some a -> bel c a) -> only c (set_val st x v).
Proof.
  intros [O1 O2] H. split; auto. intros y a. cbn. unfold upd. destruct (y =? x); eauto.
Qed.
Lemma only_ctx c st k d : only c st -> (forall c', d = Some (Some c') -> c' = c) -> only c (set_ctx st k d).
Proof.
  intros [O1 O2] H. split; auto. intros y a. cbn. unfold upd. destruct (y =? k); eauto.
Qed.
Lemma only_world c st w : only c st -> only c (mkStore w (s_val st) (s_ctx st)).
Proof. intros [O1 O2]. split; auto. Qed.

Lemma only_call {A} c st (f : M (world S) A) r st' : call st f = Done (r, st') -> only c st -> only c st'.
Proof.
  unfold call. destruct (f (s_w st)) as [[a w]|]; [|discriminate]. intros [= _ <-]. apply only_world.
Qed.

Lemma only_release c st d st' : release st d = Done st' -> only c st -> only c st'.
Proof.
  destruct d as [d|]; cbn; [|intros [= <-]; auto]. intros [= <-]. apply only_world.
Qed.

Lemma only_step w0 m c st s st' : inv w0 m st -> only c st -> creates s = false ->
  value_step So plus st s = Done st' -> only c st'.
Proof.
  intros I O K. pose proof O as [O1 O2].
  destruct s as [x|x a|x y|x y|x y|x y|o x y z|o x a y|f x y z|f x y|x|k|k j|k j|k|x k|k x]; try discriminate K;
    cbn -[meth1 meth2 call new_indep set_dep release]; unfold fresh_val, fresh_ctx, the_val, the_ctx, usable, obind.
  - destruct (s_val st x); [discriminate|]. intros [= <-]. apply only_set; auto. intros ? [= <-]; apply bel_const.
  - destruct (s_val st x); [discriminate|]. intros [= <-]. apply only_set; auto. intros ? [= <-]; apply bel_const.
  - destruct (s_val st x); [discriminate|]. destruct (s_val st y) eqn:Ey; [|discriminate].
    intros [= <-]. apply only_set; auto. intros ? [= <-]; eauto.
  - destruct (s_val st x); [discriminate|]. destruct (s_val st y) eqn:Ey; [|discriminate].
    intros [= <-]. apply only_set; [apply only_set; auto; intros ? [= <-]; eauto|]. intros ? [= <-]; apply bel_const.
  - destruct (s_val st x); [|discriminate]. destruct (s_val st y) eqn:Ey; [|discriminate].
    intros [= <-]. apply only_set; auto. intros ? [= <-]; eauto.
  - destruct (s_val st x); [|discriminate]. destruct (s_val st y) eqn:Ey; [|discriminate].
    intros [= <-]. apply only_set; [apply only_set; auto; intros ? [= <-]; eauto|]. intros ? [= <-]; apply bel_const.
  - destruct (s_val st x); [discriminate|]. destruct (s_val st y) as [a|] eqn:Ey; [|discriminate].
    destruct (s_val st z) as [b|] eqn:Ez; [|discriminate].
    unfold call. destruct (op_within c o a b (O1 _ _ Ey) (O1 _ _ Ez) (s_w st)) as (r & w' & -> & B). cbn.
    intros [= <-]. apply only_set; [apply only_world; auto|]. intros ? [= <-]; auto.
  - destruct (s_val st x); [discriminate|]. destruct (s_val st y) as [b|] eqn:Ey; [|discriminate].
    unfold call. destruct (op_within c CoAdd _ b (bel_const c a) (O1 _ _ Ey) (s_w st) : exists r w', meth2 So (fop So) (const_val So) BAdd (const_val So a) b (s_w st) = Ok (r, w') /\ _) as (r & w' & -> & B). cbn.
    intros [= <-]. apply only_set; [apply only_world; auto|]. intros ? [= <-]; auto.
  - destruct (s_val st x); [discriminate|]. destruct (s_val st y) as [a|] eqn:Ey; [|discriminate].
    destruct (s_val st z) as [b|] eqn:Ez; [|discriminate].
    unfold call. destruct (fn2_within c f a b (O1 _ _ Ey) (O1 _ _ Ez) (s_w st)) as (r & w' & -> & B). cbn.
    intros [= <-]. apply only_set; [apply only_world; auto|]. intros ? [= <-]; auto.
  - destruct (s_val st x); [discriminate|]. destruct (s_val st y) as [a|] eqn:Ey; [|discriminate].
    unfold call. destruct (meth1_within c f a (O1 _ _ Ey) (s_w st)) as (r & w' & -> & B). cbn.
    intros [= <-]. apply only_set; [apply only_world; auto|]. intros ? [= <-]; auto.
  - destruct (s_val st x); [|discriminate]. intros [= <-]. apply only_set; auto. discriminate.
  - destruct (s_ctx st k); [discriminate|]. destruct (s_ctx st j) as [d|] eqn:Ej; [|discriminate].
    intros [= <-]. apply only_ctx; [apply only_ctx; auto|discriminate]. intros c' [= ->]. eauto.
  - destruct (s_ctx st k) as [d|] eqn:Ek; [|discriminate].
    destruct (release st d) as [st1|] eqn:R; [|discriminate].
    pose proof (only_release _ _ _ _ R O) as O'. pose proof O' as [_ O2'].
    destruct (s_ctx st1 j) as [e|] eqn:Ej; [|discriminate].
    intros [= <-]. apply only_ctx; [apply only_ctx; auto|discriminate]. intros c' [= ->]. eauto.
  - destruct (s_ctx st k) as [d|] eqn:Ek; [|discriminate].
    destruct (release st d) as [st1|] eqn:R; [|discriminate].
    intros [= <-]. apply only_ctx; [eapply only_release; eauto|discriminate].
  - destruct (s_val st x); [discriminate|]. destruct (s_ctx st k) as [[d|]|] eqn:Ek; try discriminate.
    unfold call. destruct (new_indep_ok d (s_w st) (held_alive _ _ _ _ _ I Ek)) as (r & w' & n & -> & B).
    intros [= <-]. apply only_set; [apply only_world; auto|]. intros ? [= <-]. right. exists n.
    rewrite B. do 2 f_equal. eauto.
  - destruct (s_ctx st k) as [[d|]|] eqn:Ek; try discriminate. destruct (s_val st x) as [v|]; [|discriminate].
    destruct (call st (set_dep Some d v)) as [[[] st1]|] eqn:E; [|discriminate].
    intros [= <-]. eapply only_call; eauto.
Qed.

Lemma only_mixes c st s : only c st -> ~ vmixes st s.
Proof.
  intros [O1 O2] H. unfold vmixes in H. destruct s; auto.
  - destruct H as (_ & a & b & Ha & Hb & Mx). eapply mixed_not; eauto.
  - destruct H as (_ & a & b & Ha & Hb & Mx). eapply mixed_not; eauto.
  - destruct H as (c1 & v & c2 & i & E1 & E2 & E3 & N). apply O2 in E1. apply O1 in E2.
    destruct E2 as [E2|[j E2]]; congruence.
Qed.

(** From any state all of whose contexts are [c], while no context is created. *)
Lemma no_panic w0 p q : ids_fresh w0 -> Forall not_self_copy p -> forall m c st, inv w0 m st ->
  w_next w0 <= w_next (m_w m) -> only c st -> filter creates p = [] ->
  cxx So p m <> Err (RustPanic q).
Proof.
  intros F H. induction H as [|s p Hs Hp IH]; intros m c st I Hn O K; [discriminate|].
  cbn in K. destruct (creates s) eqn:Ks; [discriminate|].
  pose proof (step_panics w0 m st s q F I Hn Hs) as P. pose proof (step_ok So w0 m st s F I Hn Hs) as A.
  unfold FfiFacts.agree in A. cbn [cxx]. unfold xbind.
  destruct (step So s m) as [[u m1]|e] eqn:Es, (value_step So plus st s) as [st'|e'] eqn:Ev; try contradiction A.
  - destruct A as [I1 Hn1]. apply (IH m1 c st' I1 Hn1); auto. exact (only_step _ _ _ _ _ _ I O Ks Ev).
  - intros E. injection E as ->. destruct P as [P _]. destruct (P eq_refl) as [_ Mx].
    apply (vmixes_iff _ _ _ _ I) in Mx. eapply only_mixes; eauto.
Qed.

(** From a state without contexts, if at most one is created. *)
Definition bare (st : store S) : Prop := forall c, only c st.

Lemma bare_held st k c : bare st -> s_ctx st k <> Some (Some c).
Proof. intros B E. destruct (B (c + 1)) as [_ B2]. apply B2 in E. lia. Qed.

Theorem one_context w p q : ids_fresh w -> Forall not_self_copy p -> length (filter creates p) <= 1 ->
  cxx So p (mach0 w) <> Err (RustPanic q).
Proof.
  intros F H.
  enough (forall m st, inv w m st -> w_next w <= w_next (m_w m) -> bare st ->
    length (filter creates p) <= 1 -> cxx So p m <> Err (RustPanic q)) as G.
  { intros K. apply (G _ (store0 w)); auto; [apply inv0; auto|]. intros c. split; discriminate. }
  induction H as [|s p Hs Hp IH]; intros m st I Hn B K; [discriminate|].
  pose proof (step_panics w m st s q F I Hn Hs) as P. pose proof (step_ok So w m st s F I Hn Hs) as A.
  unfold FfiFacts.agree in A. cbn [cxx]. unfold xbind.
  destruct (step So s m) as [[u m1]|e] eqn:Es, (value_step So plus st s) as [st'|e'] eqn:Ev; try contradiction A.
  - destruct A as [I1 Hn1]. cbn in K. destruct (creates s) eqn:Ks.
    + destruct s; try discriminate Ks. cbn in Ev. unfold fresh_ctx, obind in Ev.
      destruct (s_ctx st k) eqn:Ek; [discriminate|]. injection Ev as <-.
      apply (no_panic w p q F Hp m1 (w_next (s_w st)) _ I1 Hn1).
      * apply only_ctx; [apply only_world; apply B|]. intros c' [= ->]. reflexivity.
      * destruct (filter creates p); auto. cbn in K. lia.
    + apply (IH m1 st' I1 Hn1); auto. intros c. exact (only_step _ _ _ _ _ _ I (B c) Ks Ev).
  - intros E. injection E as ->. destruct P as [P _]. destruct (P eq_refl) as [_ Mx].
    apply (vmixes_iff _ _ _ _ I) in Mx. eapply (only_mixes 0); eauto.
Qed.

End Panics.
