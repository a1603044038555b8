(** The C++ objects refine the value semantics of FfiSpec.v: proofs. *)
From Coq Require Import List Arith ZArith Bool Lia.
From Verif Require Import Base Float Operation Tape AContext AContextFacts Methods Ffi FfiSpec.
Import ListNotations.

Ltac updc :=
  unfold upd in *;
  repeat match goal with
         | |- context [?a =? ?b] => destruct (Nat.eqb_spec a b); try subst
         | H : context [?a =? ?b] |- _ => destruct (Nat.eqb_spec a b); try subst
         end.

(** ** Ownership: objects own Impl structs, which own boxes. *)
Section Rep.
Context {A : Type}.
Implicit Types (o im : nat -> option nat) (b sv : nat -> option A).

Definition inj (f : nat -> option nat) : Prop := forall x y p, f x = Some p -> f y = Some p -> x = y.

Record rep o im b sv : Prop := mkRep {
  rep_none : forall x, o x = None -> sv x = None;
  rep_some : forall x i, o x = Some i -> exists p v, im i = Some p /\ b p = Some v /\ sv x = Some v;
  rep_inj1 : inj o;
  rep_inj2 : inj im;
  rep_own1 : forall i p, im i = Some p -> exists x, o x = Some i;
  rep_own2 : forall p v, b p = Some v -> exists i, im i = Some p
}.

Lemma rep_ext o im b sv o' im' b' sv' :
  rep o im b sv -> (forall x, o' x = o x) -> (forall x, im' x = im x) -> (forall x, b' x = b x) ->
  (forall x, sv' x = sv x) -> rep o' im' b' sv'.
Proof.
  intros [R1 R2 R3 R4 R5 R6] E1 E2 E3 E4. split.
  - intros x H. rewrite E4. rewrite E1 in H. auto.
  - intros x i H. rewrite E1 in H. destruct (R2 _ _ H) as (p & v & A1 & A2 & A3).
    exists p, v. rewrite E2, E3, E4. auto.
  - intros x y p. rewrite !E1. apply R3.
  - intros x y p. rewrite !E2. apply R4.
  - intros i p. rewrite E2. intros H. destruct (R5 _ _ H) as [x Hx]. exists x. rewrite E1; auto.
  - intros p v. rewrite E3. intros H. destruct (R6 _ _ H) as [i Hi]. exists i. rewrite E2; auto.
Qed.

Lemma rep_new o im b sv x i p v :
  rep o im b sv -> o x = None -> im i = None -> b p = None ->
  rep (upd o x (Some i)) (upd im i (Some p)) (upd b p (Some v)) (upd sv x (Some v)).
Proof.
  intros [R1 R2 R3 R4 R5 R6] Ho Hi Hb.
  assert (forall y, o y <> Some i) as No.
  { intros y Hy. destruct (R2 _ _ Hy) as (q & u & Q & _). congruence. }
  assert (forall j, im j <> Some p) as Ni.
  { intros j Hj. destruct (R5 _ _ Hj) as [y Hy]. destruct (R2 _ _ Hy) as (q & u & Q & U & _).
    congruence. }
  split.
  - intros y H. updc; [discriminate|auto].
  - intros y j H. unfold upd in H. destruct (Nat.eqb_spec y x) as [->|Ny].
    + injection H as <-. exists p, v. unfold upd. rewrite !Nat.eqb_refl. auto.
    + destruct (R2 _ _ H) as (q & u & A1 & A2 & A3). exists q, u. unfold upd.
      destruct (Nat.eqb_spec j i); [congruence|]. destruct (Nat.eqb_spec q p); [congruence|].
      destruct (Nat.eqb_spec y x); [congruence|]. auto.
  - intros y z j H1 H2. updc; auto; try (injection H1 as <-; exfalso; eapply No; eauto; fail);
      try (injection H2 as <-; exfalso; eapply No; eauto; fail). eapply R3; eauto.
  - intros y z j H1 H2. updc; auto; try (injection H1 as <-; exfalso; eapply Ni; eauto; fail);
      try (injection H2 as <-; exfalso; eapply Ni; eauto; fail). eapply R4; eauto.
  - intros j q H. unfold upd in H. destruct (Nat.eqb_spec j i) as [->|Nj].
    + exists x. unfold upd. rewrite Nat.eqb_refl; auto.
    + destruct (R5 _ _ H) as [y Hy]. exists y. unfold upd.
      destruct (Nat.eqb_spec y x); [congruence|auto].
  - intros q u H. unfold upd in H. destruct (Nat.eqb_spec q p) as [->|Nq].
    + exists i. unfold upd. rewrite Nat.eqb_refl; auto.
    + destruct (R6 _ _ H) as [j Hj]. exists j. unfold upd.
      destruct (Nat.eqb_spec j i); [congruence|auto].
Qed.

Lemma rep_del o im b sv x i p :
  rep o im b sv -> o x = Some i -> im i = Some p ->
  rep (upd o x None) (upd im i None) (upd b p None) (upd sv x None).
Proof.
  intros [R1 R2 R3 R4 R5 R6] Ho Hi.
  split.
  - intros y H. updc; auto.
  - intros y j H. unfold upd in H. destruct (Nat.eqb_spec y x) as [->|Ny]; [discriminate|].
    destruct (R2 _ _ H) as (q & u & A1 & A2 & A3). exists q, u. unfold upd.
    destruct (Nat.eqb_spec j i) as [->|]; [exfalso; apply Ny; eapply R3; eauto|].
    destruct (Nat.eqb_spec q p) as [->|]; [exfalso; apply n; eapply R4; eauto|].
    destruct (Nat.eqb_spec y x); [congruence|]. auto.
  - intros y z j H1 H2. updc; try discriminate. eapply R3; eauto.
  - intros y z j H1 H2. updc; try discriminate. eapply R4; eauto.
  - intros j q H. unfold upd in H. destruct (Nat.eqb_spec j i) as [->|Nj]; [discriminate|].
    destruct (R5 _ _ H) as [y Hy]. exists y. unfold upd.
    destruct (Nat.eqb_spec y x); [congruence|auto].
  - intros q u H. unfold upd in H. destruct (Nat.eqb_spec q p) as [->|Nq]; [discriminate|].
    destruct (R6 _ _ H) as [j Hj]. exists j. unfold upd.
    destruct (Nat.eqb_spec j i); [congruence|auto].
Qed.

End Rep.

(** ** Allocators *)
Lemma beyond_lt l p : In p (live l) -> p < beyond l.
Proof.
  induction l as [|[b q] l IH]; [contradiction|]. change (beyond ((b, q) :: l)) with (Nat.max (S q) (beyond l)).
  destruct b; cbn [live].
  - intros [<-|H]; [lia|]. apply IH in H. lia.
  - intros H. apply in_remove in H as [H _]. apply IH in H. lia.
Qed.
Lemma beyond_sound : sound beyond.
Proof. intros l H. apply beyond_lt in H. lia. Qed.
Lemma reusing_sound : sound reusing.
Proof.
  intros l H. unfold reusing in H. destruct (find _ l) as [e|] eqn:E; [|eapply beyond_sound; eauto].
  apply find_some in E as [_ E]. apply andb_prop in E as [_ E]. apply negb_true_iff in E.
  assert (existsb (Nat.eqb (snd e)) (live l) = true) as K; [|congruence].
  apply existsb_exists. exists (snd e). split; auto. apply Nat.eqb_refl.
Qed.

Section Facts.
Context {S : Type} (So : Fops S).
Implicit Types (m : mach S) (st : store S) (w : world S).

(** ** What Rust calls do to the set of live contexts *)
Definition keeps w w' : Prop :=
  w_next w' = w_next w /\ forall c, w_ctx w' c = None <-> w_ctx w c = None.

Lemma keeps_refl w : keeps w w.
Proof. split; auto. tauto. Qed.

Lemma keeps_trans w1 w2 w3 : keeps w1 w2 -> keeps w2 w3 -> keeps w1 w3.
Proof. intros [A B] [C D]. split; [congruence|]. intros c. rewrite D; auto. Qed.

Lemma keeps_changes c i i' w w' : changes c i i' w w' -> keeps w w'.
Proof.
  intros (A & B & C & D). split; auto. intros k. destruct (Nat.eq_dec k c) as [->|N].
  - rewrite B, C. split; discriminate.
  - rewrite D by auto. tauto.
Qed.

Definition mkeeps {A : Type} (f : M (world S) A) : Prop :=
  forall w a w', f w = Ok (a, w') -> keeps w w'.

Lemma mk_ret {A} (a : A) : mkeeps (mret a).
Proof. intros w b w' [= _ <-]. apply keeps_refl. Qed.

Lemma mk_bind {A B} (f : M (world S) A) (g : A -> M (world S) B) :
  mkeeps f -> (forall a, mkeeps (g a)) -> mkeeps (x <~ f ;; g x).
Proof.
  intros F G w b w'. unfold mbind. destruct (f w) as [[a w1]|] eqn:E; [|discriminate].
  intros H. eapply keeps_trans; [eapply F; eauto|eapply G; eauto].
Qed.

Lemma mk_fop oc x y : mkeeps (fop So oc x y).
Proof.
  intros w r w' H. apply from_op_spec in H as (_ & _ & D). destruct D as [-> _ _|c i i1 i2 v1 v2 fv _ _ _ _ _ _ D].
  - apply keeps_refl.
  - eapply keeps_changes; eauto.
Qed.

Ltac mk := repeat (first [apply mk_fop | apply mk_ret | apply mk_bind; [|intros ?]]).

Lemma mk_meth1 cst u x : mkeeps (meth1 So (fop So) cst u x).
Proof.
  destruct u; cbn; unfold m_neg, m_abs, m_exp, m_ln, m_sin, m_cos, m_tan, m_asin, m_acos, m_atan,
    m_recip, m_powi, m_sqrt, m_exp2, m_log2, m_log10, m_cbrt, m_log, m_powf, m_sub, m_mul, m_div, m_ln;
    try (mk; fail).
  intros w a w' H. discriminate.
Qed.

Lemma mk_meth2 cst b x y : mkeeps (meth2 So (fop So) cst b x y).
Proof.
  destruct b; cbn; unfold m_hypot, m_powi, m_sqrt, m_abs_sub, m_max, m_min, m_log, m_powf, m_add,
    m_sub, m_mul, m_div, m_ln, m_abs, m_powf; try (mk; fail).
  intros w a w' H. discriminate.
Qed.

Lemma mk_with {A} c (f : inner S -> res (A * inner S)) : mkeeps (with_ctx c f).
Proof.
  intros w a w'. unfold with_ctx. destruct (w_ctx w c) as [i|] eqn:E; [|discriminate].
  destruct (f i) as [[b i']|]; [|discriminate]. intros [= _ <-].
  eapply keeps_changes. apply changes_upd; eauto.
Qed.

Lemma mk_new_indep c v : mkeeps (new_indep So (@Some S) c v).
Proof. apply mk_with. Qed.

Lemma mk_set_dep c (v : AF S) : mkeeps (set_dep (@Some S) c v).
Proof. apply mk_with. Qed.

(** ** The invariant *)
Definition low {A} (h : heap A) : Prop :=
  (forall l, ~ In (h_pol h l) (live l)) /\ forall p, h_at h p <> None -> In p (live (h_log h)).

Definition join {A} (f : nat -> option (option A)) : nat -> option A :=
  fun k => match f k with Some (Some i) => Some i | _ => None end.

(** Contexts created by the C++ program: those that did not exist in [w0] *)
Definition mine w0 w : nat -> option (inner S) :=
  fun c => match w_ctx w0 c with Some _ => None | None => w_ctx w c end.

Record dpart (m : mach S) (sv : nat -> option (AF S)) : Prop := mkDpart {
  d_box : low (m_box m);
  d_imp : low (m_imp m);
  d_rep : rep (m_obj m) (h_at (m_imp m)) (h_at (m_box m)) sv
}.

Record kpart (w0 : world S) (m : mach S) (sc : nat -> option (option nat)) : Prop := mkKpart {
  k_cbox : low (m_cbox m);
  k_cimp : low (m_cimp m);
  k_rep : rep (join (m_cobj m)) (h_at (m_cimp m)) (h_at (m_cbox m)) (join sc);
  k_shape : forall k, match m_cobj m k, sc k with
                      | None, None => True
                      | Some i, Some c => (i = None <-> c = None)
                      | _, _ => False
                      end;
  k_ids : forall c, w_next (m_w m) <= c -> w_ctx (m_w m) c = None;
  k_inj : inj (h_at (m_cbox m));
  k_live : forall p c, h_at (m_cbox m) p = Some c -> mine w0 (m_w m) c <> None;
  k_own : forall c, mine w0 (m_w m) c <> None -> exists p, h_at (m_cbox m) p = Some c;
  k_old : forall c, w_ctx w0 c <> None -> w_ctx (m_w m) c <> None
}.

Record inv (w0 : world S) (m : mach S) (st : store S) : Prop := mkInv {
  inv_w : m_w m = s_w st;
  inv_d : dpart m (s_val st);
  inv_k : kpart w0 m (s_ctx st)
}.

Lemma low_start {A} a : sound a -> low (@h_start A a).
Proof. intros H. split; auto. cbn. intros p K. congruence. Qed.
Lemma inv0_at a1 a2 a3 a4 w : sound a1 -> sound a2 -> sound a3 -> sound a4 -> ids_fresh w ->
  inv w (mach0_at a1 a2 a3 a4 w) (store0 w).
Proof.
  intros H1 H2 H3 H4 Hw. split; cbn; auto.
  - split; cbn; auto using low_start.
    split; cbn; try discriminate; try (intros x y p; discriminate); auto.
  - split; cbn; auto using low_start; try (intros; discriminate).
    + split; cbn; try discriminate; try (intros x y p; discriminate); auto.
    + intros c. unfold mine. destruct (w_ctx w c); congruence.
Qed.
Lemma inv0 w : ids_fresh w -> inv w (mach0 w) (store0 w).
Proof. intros F. apply inv0_at; auto using beyond_sound. Qed.

(** Rust calls that keep the live contexts keep the invariant. *)
Definition with_world (m : mach S) (w : world S) : mach S :=
  mkMach w (m_box m) (m_imp m) (m_cbox m) (m_cimp m) (m_obj m) (m_cobj m).

Lemma kpart_keeps w0 m sc w : kpart w0 m sc -> keeps (m_w m) w -> kpart w0 (with_world m w) sc.
Proof.
  intros [K1 K2 K3 K4 K5 K6 K7 K8 K9] [N L]. 
  assert (forall c, mine w0 w c <> None <-> mine w0 (m_w m) c <> None) as E.
  { intros c. unfold mine. destruct (w_ctx w0 c); [tauto|]. rewrite L. tauto. }
  split; cbn; auto.
  - intros c. rewrite N, L. auto.
  - intros p c H. apply E. eauto.
  - intros c H. apply E in H. eauto.
  - intros c H. specialize (K9 c H). rewrite L. auto.
Qed.

Lemma inv_call {A} w0 m st (f : M (world S) A) :
  inv w0 m st -> mkeeps f ->
  match rust f m, call st f with
  | Done (a, m'), Done (a', st') =>
      a' = a /\ (exists w, m' = with_world m w) /\ inv w0 m' st' /\
      s_val st' = s_val st /\ s_ctx st' = s_ctx st
  | Err e, Err e' => e = e'
  | _, _ => False
  end.
Proof.
  intros [I1 I2 I3] K. unfold rust, call. rewrite <- I1.
  destruct (f (m_w m)) as [[a w]|p] eqn:E; auto.
  split; auto. split; [exists w; reflexivity|]. split; [|auto].
  split; cbn; auto.
  - destruct I2. split; auto.
  - apply kpart_keeps with (w := w) in I3; eauto.
Qed.

(** ** Objects *)
Lemma low_next {A} (h : heap A) : low h -> h_at h (h_next h) = None.
Proof. intros [L1 L2]. destruct (h_at h (h_next h)) eqn:E; auto. exfalso. eapply L1, L2. fold (h_next h). congruence. Qed.

Lemma low_alloc {A} (h : heap A) a : low h -> low (h_alloc h a).
Proof. intros [L1 L2]. split; cbn; auto. intros p. unfold upd. destruct (Nat.eqb_spec p (h_next h)); auto. Qed.

Lemma low_set {A} (h : heap A) p a : low h -> (a = None \/ h_at h p <> None) -> low (h_set h p a).
Proof.
  intros [L1 L2] C. split; cbn; auto. intros q. unfold upd. destruct (Nat.eqb_spec q p) as [->|N].
  - intros K. destruct C as [->|C]; [congruence|]. destruct a; [auto|congruence].
  - intros K. destruct a; auto. cbn. apply in_in_remove; auto.
Qed.

Lemma next_two {A} (h : heap A) a : low h ->
  h_at h (h_next (h_alloc h a)) = None /\ h_next (h_alloc h a) <> h_next h.
Proof.
  intros L. pose proof (low_next _ (low_alloc h a L)) as E. cbn [h_at h_alloc] in E. unfold upd in E.
  destruct (Nat.eqb_spec (h_next (h_alloc h a)) (h_next h)); [discriminate|auto].
Qed.

Lemma obj_cases w0 m st x : inv w0 m st ->
  (m_obj m x = None /\ s_val st x = None) \/
  (exists i p v, m_obj m x = Some i /\ h_at (m_imp m) i = Some p /\ h_at (m_box m) p = Some v /\
                 s_val st x = Some v).
Proof.
  intros [_ [_ _ R] _]. destruct (m_obj m x) as [i|] eqn:E.
  - right. destruct (rep_some _ _ _ _ R _ _ E) as (p & v & A1 & A2 & A3). exists i, p, v. auto.
  - left. split; auto. eapply rep_none; eauto.
Qed.

Lemma ctx_cases w0 m st k : inv w0 m st ->
  (m_cobj m k = None /\ s_ctx st k = None) \/
  (m_cobj m k = Some None /\ s_ctx st k = Some None) \/
  (exists i p c, m_cobj m k = Some (Some i) /\ h_at (m_cimp m) i = Some p /\
     h_at (m_cbox m) p = Some c /\ s_ctx st k = Some (Some c)).
Proof.
  intros [_ _ K]. pose proof (k_shape _ _ _ K k) as Sh.
  destruct (m_cobj m k) as [[i|]|] eqn:E.
  - right; right.
    assert (join (m_cobj m) k = Some i) as J by (unfold join; rewrite E; auto).
    destruct (rep_some _ _ _ _ (k_rep _ _ _ K) _ _ J) as (p & c & A1 & A2 & A3).
    exists i, p, c. repeat split; auto. unfold join in A3.
    destruct (s_ctx st k) as [[c'|]|]; congruence.
  - right; left. destruct (s_ctx st k) as [c|]; [|contradiction]. split; auto.
    f_equal. apply Sh; auto.
  - left. destruct (s_ctx st k); [contradiction|auto].
Qed.

(** Two objects never share an Impl, two Impls never share a box. *)
Lemma obj_sep w0 m st x y i j : inv w0 m st -> m_obj m x = Some i -> m_obj m y = Some j -> x <> y -> i <> j.
Proof. intros [_ [_ _ R] _] A B N ->. apply N. eapply (rep_inj1 _ _ _ _ R); eauto. Qed.

Lemma imp_sep w0 m st i j p q : inv w0 m st -> h_at (m_imp m) i = Some p -> h_at (m_imp m) j = Some q -> i <> j -> p <> q.
Proof. intros [_ [_ _ R] _] A B N ->. apply N. eapply (rep_inj2 _ _ _ _ R); eauto. Qed.

Ltac ext := let z := fresh "z" in intro z; cbn; updc; try congruence; auto.

Lemma new_ok w0 m st x v : inv w0 m st -> m_obj m x = None ->
  inv w0 (mkMach (m_w m) (h_alloc (m_box m) v) (h_alloc (m_imp m) (h_next (m_box m))) (m_cbox m)
            (m_cimp m) (upd (m_obj m) x (Some (h_next (m_imp m)))) (m_cobj m))
    (set_val st x (Some v)).
Proof.
  intros [I1 [D1 D2 D3] I3] H. split; cbn; auto.
  - split; cbn; try (apply low_alloc; assumption).
    apply rep_new; auto using low_next.
  - destruct I3. split; auto.
Qed.

Lemma dtor_ok w0 m st x i p : inv w0 m st -> m_obj m x = Some i -> h_at (m_imp m) i = Some p ->
  inv w0 (mkMach (m_w m) (h_set (m_box m) p None) (h_set (m_imp m) i None) (m_cbox m)
            (m_cimp m) (upd (m_obj m) x None) (m_cobj m))
    (set_val st x None).
Proof.
  intros [I1 [D1 D2 D3] I3] H1 H2. split; cbn; auto.
  - split; cbn; try (apply low_set; auto).
    apply rep_del; auto.
  - destruct I3. split; auto.
Qed.

Lemma copy_assign_ok w0 m st x i p v : inv w0 m st ->
  m_obj m x = Some i -> h_at (m_imp m) i = Some p ->
  inv w0 (mkMach (m_w m) (h_alloc (h_set (m_box m) p None) v)
            (h_set (m_imp m) i (Some (h_next (h_set (m_box m) p None)))) (m_cbox m)
            (m_cimp m) (m_obj m) (m_cobj m))
    (set_val st x (Some v)).
Proof.
  intros [I1 [D1 D2 D3] I3] H1 H2.
  assert (low (h_set (m_box m) p None)) as LB by (apply low_set; auto). pose proof (low_next _ LB) as NB.
  set (b := h_next (h_set (m_box m) p None)) in *. cbn [h_at h_set] in NB.
  split; cbn; auto.
  - split; cbn.
    + apply low_alloc, low_set; auto.
    + apply low_set; auto. right; congruence.
    + pose proof (rep_del _ _ _ _ _ _ _ D3 H1 H2) as Q.
      eapply (rep_new _ _ _ _ x i b v) in Q.
      * eapply rep_ext; [exact Q|ext|ext|ext|ext].
      * unfold upd; rewrite Nat.eqb_refl; auto.
      * unfold upd; rewrite Nat.eqb_refl; auto.
      * exact NB.
  - destruct I3. split; auto.
Qed.

Lemma move_ok w0 m st x y i q v z : inv w0 m st ->
  m_obj m x = None -> m_obj m y = Some i -> h_at (m_imp m) i = Some q -> h_at (m_box m) q = Some v ->
  inv w0 (mkMach (m_w m) (h_alloc (m_box m) z)
            (h_set (h_alloc (m_imp m) q) i (Some (h_next (m_box m)))) (m_cbox m)
            (m_cimp m) (upd (m_obj m) x (Some (h_next (m_imp m)))) (m_cobj m))
    (set_val (set_val st x (Some v)) y (Some z)).
Proof.
  intros [I1 [D1 D2 D3] I3] Hx H1 H2 H3.
  assert (x <> y) as Nxy by congruence.
  assert (i <> h_next (m_imp m)) as Ni by (intros ->; rewrite low_next in H2; [discriminate|auto]).
  assert (q <> h_next (m_box m)) as Nq by (intros ->; rewrite low_next in H3; [discriminate|auto]).
  split; cbn; auto.
  - split; cbn.
    + apply low_alloc; auto.
    + apply low_set; [apply low_alloc; auto|]. right. cbn. unfold upd.
      destruct (_ =? _); congruence.
    + pose proof (rep_del _ _ _ _ _ _ _ D3 H1 H2) as Q.
      eapply (rep_new _ _ _ _ x (h_next (m_imp m)) q v) in Q.
      * eapply (rep_new _ _ _ _ y i (h_next (m_box m)) z) in Q.
        -- eapply rep_ext; [exact Q|ext|ext|ext|ext].
        -- updc; congruence.
        -- updc; congruence.
        -- updc; try congruence. auto using low_next.
      * updc; congruence.
      * updc; auto using low_next.
      * updc; congruence.
  - destruct I3. split; auto.
Qed.

Lemma move_assign_ok w0 m st x y i p j q v z : inv w0 m st -> x <> y ->
  m_obj m x = Some i -> h_at (m_imp m) i = Some p ->
  m_obj m y = Some j -> h_at (m_imp m) j = Some q -> h_at (m_box m) q = Some v ->
  inv w0 (mkMach (m_w m) (h_alloc (h_set (m_box m) p None) z)
            (h_set (h_set (m_imp m) i (Some q)) j (Some (h_next (h_set (m_box m) p None)))) (m_cbox m)
            (m_cimp m) (m_obj m) (m_cobj m))
    (set_val (set_val st x (Some v)) y (Some z)).
Proof.
  intros II Nxy H1 H2 H3 H4 H5.
  pose proof (obj_sep _ _ _ _ _ _ _ II H1 H3 Nxy) as Nij.
  pose proof (imp_sep _ _ _ _ _ _ _ II H2 H4 Nij) as Npq.
  destruct II as [I1 [D1 D2 D3] I3].
  assert (low (h_set (m_box m) p None)) as LB by (apply low_set; auto). pose proof (low_next _ LB) as NB.
  set (b := h_next (h_set (m_box m) p None)) in *. cbn [h_at h_set] in NB.
  assert (b = h_pol (m_box m) ((false, p) :: h_log (m_box m))) as Eb by reflexivity.
  assert (q <> b) as Nq by (intros ->; unfold upd in NB; destruct (Nat.eqb_spec b p); congruence).
  split; cbn; rewrite <- ?Eb; clearbody b; auto.
  - split; cbn; rewrite <- ?Eb.
    + apply (low_alloc (h_set (m_box m) p None)), low_set; auto.
    + apply (low_set (h_set (m_imp m) i (Some q)) j (Some b)); [apply low_set; auto; right; congruence|]. right. cbn. unfold upd.
      destruct (_ =? _); congruence.
    + pose proof (rep_del _ _ _ _ _ _ _ D3 H1 H2) as Q.
      eapply (rep_del _ _ _ _ y j q) in Q; [|updc; congruence|updc; congruence].
      eapply (rep_new _ _ _ _ x i q v) in Q; [|updc; congruence|updc; congruence|updc; congruence].
      eapply (rep_new _ _ _ _ y j b z) in Q;
        [|updc; congruence|updc; congruence|unfold upd in *; destruct (Nat.eqb_spec b q); [congruence|exact NB]].
      eapply rep_ext; [exact Q|ext|ext|ext|ext].
  - destruct I3. split; auto.
Qed.

Lemma self_move_ok w0 m st x i p z : inv w0 m st ->
  m_obj m x = Some i -> h_at (m_imp m) i = Some p ->
  inv w0 (mkMach (m_w m) (h_alloc (h_set (m_box m) p None) z)
            (h_set (h_set (m_imp m) i (Some p)) i (Some (h_next (h_set (m_box m) p None)))) (m_cbox m)
            (m_cimp m) (m_obj m) (m_cobj m))
    (set_val st x (Some z)).
Proof.
  intros II H1 H2. pose proof (copy_assign_ok _ _ _ _ _ _ z II H1 H2) as [J1 [J2 J3 J4] J5].
  destruct II as [_ [D1 D2 D3] _].
  split; cbn in *; auto.
  - split; cbn in *; auto.
    + apply low_set; [apply low_set; auto; right; congruence|]. right. cbn. unfold upd.
      rewrite Nat.eqb_refl. congruence.
    + eapply rep_ext; [exact J4|ext|ext|ext|ext].
  - destruct J5. split; auto.
Qed.

Lemma rep_left {A} o im (b sv : nat -> option A) x i1 i2 b1 b2 v l :
  rep o im b sv -> o x = None -> im i1 = None -> im i2 = None -> i2 <> i1 -> b b1 = None -> b b2 = None -> b2 <> b1 ->
  rep (upd o x (Some i2)) (upd (upd (upd im i1 (Some b1)) i2 (Some b2)) i1 None)
    (upd (upd (upd b b1 (Some l)) b2 (Some v)) b1 None) (upd sv x (Some v)).
Proof.
  intros D3 H I1 I2 I3 B1 B2 B3. eapply (rep_new _ _ _ _ x i2 b2 v) in D3; auto.
  eapply rep_ext; [exact D3|ext|ext|ext|ext].
Qed.
(** The local object of `c op x` is built and destroyed around the creation of the result. *)
Lemma left_ok w0 m st x v l : inv w0 m st -> m_obj m x = None ->
  let b1 := h_next (m_box m) in let b2 := h_next (h_alloc (m_box m) l) in
  let i1 := h_next (m_imp m) in let i2 := h_next (h_alloc (m_imp m) b1) in
  inv w0 (mkMach (m_w m) (h_set (h_alloc (h_alloc (m_box m) l) v) b1 None)
            (h_set (h_alloc (h_alloc (m_imp m) b1) b2) i1 None)
            (m_cbox m) (m_cimp m) (upd (m_obj m) x (Some i2)) (m_cobj m))
    (set_val st x (Some v)).
Proof.
  intros [I1 [D1 D2 D3] I3] H b1 b2 i1 i2.
  destruct (next_two (m_box m) l D1) as [B1 B2]. destruct (next_two (m_imp m) b1 D2) as [B3 B4].
  split; cbn [m_w m_box m_imp m_cbox m_cimp m_obj m_cobj s_w s_val s_ctx set_val]; auto.
  - split; cbn [m_w m_box m_imp m_cbox m_cimp m_obj m_cobj]; try (apply low_set; auto; repeat apply low_alloc; assumption).
    cbn [h_at h_set h_alloc]. exact (rep_left _ _ _ _ x i1 i2 b1 b2 v l D3 H (low_next _ D2) B3 B4 (low_next _ D1) B1 B2).
  - destruct I3. split; auto.
Qed.

(** ** Contexts *)
Definition with_cobj (m : mach S) (f : nat -> option (option nat)) : mach S :=
  mkMach (m_w m) (m_box m) (m_imp m) (m_cbox m) (m_cimp m) (m_obj m) f.
Definition with_sctx st (f : nat -> option (option nat)) : store S := mkStore (s_w st) (s_val st) f.

Lemma join_ext {A} (f g : nat -> option (option A)) : (forall k, f k = g k) -> forall k, join f k = join g k.
Proof. intros E k. unfold join. rewrite E; auto. Qed.

Lemma inv_ext w0 m st f g :
  inv w0 m st -> (forall k, f k = m_cobj m k) -> (forall k, g k = s_ctx st k) ->
  inv w0 (with_cobj m f) (with_sctx st g).
Proof.
  intros [I1 I2 [K1 K2 K3 K4 K5 K6 K7 K8 K9]] F G. split; cbn; auto.
  - destruct I2; split; auto.
  - split; cbn; auto.
    + eapply rep_ext; [exact K3| | | |]; auto; apply join_ext; auto.
    + intros k. rewrite F, G. apply K4.
Qed.

Lemma knew_ok w0 m st k : ids_fresh w0 -> inv w0 m st -> w_next w0 <= w_next (m_w m) -> m_cobj m k = None ->
  forall w', ctx_new (m_w m) = Ok (w_next (m_w m), w') ->
  inv w0 (mkMach w' (m_box m) (m_imp m) (h_alloc (m_cbox m) (w_next (m_w m)))
            (h_alloc (m_cimp m) (h_next (m_cbox m))) (m_obj m)
            (upd (m_cobj m) k (Some (Some (h_next (m_cimp m))))))
    (mkStore w' (s_val st) (upd (s_ctx st) k (Some (Some (w_next (m_w m)))))).
Proof.
  intros F0 [I1 I2 [K1 K2 K3 K4 K5 K6 K7 K8 K9]] Hn Hk w' [= <-]. split; cbn; auto.
  - destruct I2; split; auto.
  - assert (join (m_cobj m) k = None) as J by (unfold join; rewrite Hk; auto).
    assert (s_ctx st k = None) as Sk.
    { specialize (K4 k). rewrite Hk in K4. destruct (s_ctx st k); [contradiction|auto]. }
    split; cbn.
    + apply low_alloc; auto.
    + apply low_alloc; auto.
    + eapply (rep_new _ _ _ _ k (h_next (m_cimp m)) (h_next (m_cbox m)) (w_next (m_w m))) in K3;
        auto using low_next.
      eapply rep_ext; [exact K3| |ext|ext|]; intro z; unfold join, upd; destruct (z =? k); auto.
    + intros z. unfold upd. destruct (Nat.eqb_spec z k) as [->|]; [|apply K4]. split; discriminate.
    + intros c Hc. destruct (Nat.eqb_spec c (w_next (m_w m))); [lia|]. apply K5; lia.
    + intros p q c. unfold upd.
      assert (forall p, h_at (m_cbox m) p <> Some (w_next (m_w m))) as N.
      { intros p' H. apply K7 in H. apply H. unfold mine. destruct (w_ctx w0 _); auto. }
      destruct (Nat.eqb_spec p (h_next (m_cbox m))), (Nat.eqb_spec q (h_next (m_cbox m))); subst; auto.
      * intros [= <-] H. exfalso. eapply N; eauto.
      * intros H [= <-]. exfalso. eapply N; eauto.
      * apply K6.
    + intros p c. unfold upd. destruct (Nat.eqb_spec p (h_next (m_cbox m))).
      * intros [= <-]. unfold mine. cbn. rewrite Nat.eqb_refl.
        rewrite F0 by exact Hn. discriminate.
      * intros H. apply K7 in H. unfold mine in *. cbn.
        destruct (w_ctx w0 c); auto. destruct (Nat.eqb_spec c (w_next (m_w m))); [discriminate|auto].
    + intros c H. unfold mine in H. cbn in H. destruct (w_ctx w0 c) eqn:E; [congruence|].
      destruct (Nat.eqb_spec c (w_next (m_w m))) as [->|N].
      * exists (h_next (m_cbox m)). unfold upd. rewrite Nat.eqb_refl; auto.
      * destruct (K8 c) as [p Hp]; [unfold mine; rewrite E; auto|]. exists p. unfold upd.
        destruct (Nat.eqb_spec p (h_next (m_cbox m))) as [->|]; auto.
        rewrite low_next in Hp; auto; discriminate.
    + intros c H. destruct (_ =? _); [discriminate|auto].
Qed.

Lemma crelease_ok w0 m st k i p c : inv w0 m st ->
  m_cobj m k = Some (Some i) -> h_at (m_cimp m) i = Some p -> h_at (m_cbox m) p = Some c ->
  inv w0 (mkMach (upd_ctx (m_w m) c None) (m_box m) (m_imp m) (h_set (m_cbox m) p None)
            (h_set (m_cimp m) i None) (m_obj m) (upd (m_cobj m) k (Some None)))
    (mkStore (upd_ctx (s_w st) c None) (s_val st) (upd (s_ctx st) k (Some None))).
Proof.
  intros [I1 I2 [K1 K2 K3 K4 K5 K6 K7 K8 K9]] H1 H2 H3. split; cbn.
  - rewrite I1; auto.
  - destruct I2; split; auto.
  - assert (join (m_cobj m) k = Some i) as J by (unfold join; rewrite H1; auto).
    split; cbn.
    + apply low_set; auto.
    + apply low_set; auto.
    + eapply (rep_del _ _ _ _ k i p) in K3; auto.
      eapply rep_ext; [exact K3| |ext|ext|]; intro z; unfold join, upd; destruct (z =? k); auto.
    + intros z. unfold upd. destruct (Nat.eqb_spec z k) as [->|]; [|apply K4]. tauto.
    + intros d Hd. destruct (_ =? _); auto.
    + intros a b d. unfold upd. destruct (_ =? _); [discriminate|]. destruct (_ =? _); [discriminate|].
      apply K6.
    + intros q d. unfold upd. destruct (Nat.eqb_spec q p) as [|N]; [discriminate|]. intros H.
      pose proof (K7 _ _ H) as L. unfold mine in *. cbn.
      destruct (w_ctx w0 d); auto. destruct (Nat.eqb_spec d c) as [->|]; auto.
      exfalso. apply N. eapply K6; eauto.
    + intros d H. unfold mine in H. cbn in H. destruct (w_ctx w0 d) eqn:E; [congruence|].
      destruct (Nat.eqb_spec d c) as [->|N]; [congruence|].
      destruct (K8 d) as [q Hq]; [unfold mine; rewrite E; auto|]. exists q. unfold upd.
      destruct (Nat.eqb_spec q p) as [->|]; auto. congruence.
    + intros d H. destruct (Nat.eqb_spec d c) as [->|]; auto.
      exfalso. pose proof (K7 _ _ H3) as L. unfold mine in L. destruct (w_ctx w0 c); congruence.
Qed.

Lemma cmove_ok w0 m st k j n c : inv w0 m st -> k <> j -> join (m_cobj m) k = None ->
  m_cobj m j = Some n -> s_ctx st j = Some c ->
  inv w0 (with_cobj m (upd (upd (m_cobj m) k (Some n)) j (Some None)))
    (with_sctx st (upd (upd (s_ctx st) k (Some c)) j (Some None))).
Proof.
  intros [I1 I2 [K1 K2 K3 K4 K5 K6 K7 K8 K9]] Nkj Jk Hj Sj. split; cbn; auto.
  - destruct I2; split; auto.
  - split; cbn; auto.
    + pose proof (K4 j) as Sh. rewrite Hj, Sj in Sh.
      assert (join (s_ctx st) k = None) as Sk.
      { unfold join in *. specialize (K4 k). destruct (m_cobj m k) as [[|]|]; try discriminate.
        - destruct (s_ctx st k) as [[|]|]; auto. destruct K4 as [K4 _]. discriminate K4; auto.
        - destruct (s_ctx st k); [contradiction|auto]. }
      destruct n as [i|].
      * assert (join (m_cobj m) j = Some i) as Jj by (unfold join; rewrite Hj; auto).
        destruct (rep_some _ _ _ _ K3 _ _ Jj) as (p & d & A1 & A2 & A3).
        assert (c = Some d) as -> by (unfold join in A3; rewrite Sj in A3; destruct c; congruence).
        pose proof (rep_del _ _ _ _ _ _ _ K3 Jj A1) as Q.
        eapply (rep_new _ _ _ _ k i p d) in Q; [|updc; congruence|updc; congruence|updc; congruence].
        eapply rep_ext; [exact Q| |ext|ext|]; intro z; unfold join in *; updc; congruence.
      * assert (c = None) as -> by (apply Sh; auto).
        eapply rep_ext; [exact K3| |auto|auto|]; intro z; unfold join in *; updc; auto;
          try congruence; rewrite ?Hj, ?Sj; auto.
    + intros z. unfold upd. destruct (Nat.eqb_spec z j) as [->|]; [tauto|].
      destruct (Nat.eqb_spec z k) as [->|]; [|apply K4].
      specialize (K4 j). rewrite Hj, Sj in K4. auto.
Qed.

Lemma cdel_ok w0 m st k : inv w0 m st -> m_cobj m k = Some None ->
  inv w0 (with_cobj m (upd (m_cobj m) k None)) (with_sctx st (upd (s_ctx st) k None)).
Proof.
  intros [I1 I2 [K1 K2 K3 K4 K5 K6 K7 K8 K9]] H. split; cbn; auto.
  - destruct I2; split; auto.
  - assert (s_ctx st k = Some None) as Sk.
    { specialize (K4 k). rewrite H in K4. destruct (s_ctx st k) as [c|]; [|contradiction].
      f_equal. apply K4; auto. }
    split; cbn; auto.
    + eapply rep_ext; [exact K3| |auto|auto|]; intro z; unfold join; updc; auto; rewrite ?H, ?Sk; auto.
    + intros z. unfold upd. destruct (Nat.eqb_spec z k) as [->|]; [auto|apply K4].
Qed.

(** ** One statement *)
Definition agree (w0 : world S) (a : out (unit * mach S)) (b : out (store S)) : Prop :=
  match a, b with
  | Done (_, m'), Done st' => inv w0 m' st' /\ w_next w0 <= w_next (m_w m')
  | Err e, Err e' => e = e'
  | _, _ => False
  end.

Ltac rd := cbn -[meth1 meth2 call rust new_indep set_dep ctx_new ctx_drop].
Ltac objc I x :=
  let i := fresh "i" in let p := fresh "p" in let v := fresh "v" in
  let E1 := fresh "E" in let E2 := fresh "E" in let E3 := fresh "E" in let E4 := fresh "E" in
  destruct (obj_cases _ _ _ x I) as [[E1 E4]|(i & p & v & E1 & E2 & E3 & E4)];
  rewrite ?E1, ?E4; rd; try reflexivity; rewrite ?E2; rd; rewrite ?E3; rd.

Lemma af_const_is c : af_const So c = const_val So c.
Proof. reflexivity. Qed.

(** A Rust call whose result becomes the value of a new object. *)
Lemma call_new_ok w0 m st x (f : M (world S) (AF S)) : inv w0 m st -> w_next w0 <= w_next (m_w m) ->
  mkeeps f -> m_obj m x = None ->
  agree w0 (xbind (rust f) (fun r => xbind (box_new r) (adouble_new x)) m)
    (obind (call st f) (fun r => Done (set_val (snd r) x (Some (fst r))))).
Proof.
  intros I Hn K Hx. pose proof (inv_call w0 m st f I K) as C. unfold xbind at 1, obind.
  pose proof (K (m_w m)) as K'. unfold rust in *.
  destruct (f (m_w m)) as [[a w]|p] eqn:E, (call st f) as [[a' st']|e]; try contradiction; auto.
  destruct C as (-> & _ & C & _). cbn. split.
  - apply (new_ok _ _ _ _ a C); auto.
  - destruct (K' a w eq_refl) as [Ke _]. cbn. lia.
Qed.

Lemma call_ok w0 m st (f : M (world S) unit) : inv w0 m st -> w_next w0 <= w_next (m_w m) -> mkeeps f ->
  agree w0 (rust f m) (obind (call st f) (fun r => Done (snd r))).
Proof.
  intros I Hn K. pose proof (inv_call w0 m st f I K) as C. unfold obind.
  pose proof (K (m_w m)) as K'. unfold rust in *.
  destruct (f (m_w m)) as [[a w]|p] eqn:E, (call st f) as [[a' st']|e]; try contradiction; auto.
  destruct C as (-> & _ & C & _). cbn. split; auto.
  destruct (K' a w eq_refl) as [Ke _]. cbn. lia.
Qed.

Definition plus : cop -> cop := fun _ => CoAdd.

Lemma step_ok w0 m st s : ids_fresh w0 -> inv w0 m st -> w_next w0 <= w_next (m_w m) ->
  not_self_copy s -> agree w0 (step So s m) (value_step So plus st s).
Proof.
  intros F0 I Hn Hs. destruct s as [x|x c|x y|x y|x y|x y|o x y z|o x c y|f x y z|f x y|x|k|k j|k j|k|x k|k x];
    cbn [step value_step not_self_copy] in *;
    unfold adouble_default, adouble_value, adouble_copy, adouble_move, adouble_copy_assign,
      adouble_move_assign, adouble_bin, adouble_bin_left, adouble_fn, adouble_dtor, acontext_new,
      acontext_move, acontext_move_assign, acontext_dtor, acontext_new_independent,
      acontext_set_dependent, adv_adouble_free, adv_adouble_copy, adv_op, adv_fn,
      adv_acontext_new, adv_acontext_free, adv_acontext_new_independent,
      adv_acontext_set_dependent, xbind, obj_fresh, cobj_fresh, fresh_val, fresh_ctx, the_val, the_ctx,
      obj_get, imp_get, imp_set, imp_delete, imp_upd, box_get, box_free, cobj_get.
  - objc I x. split; [|exact Hn]. apply (new_ok _ _ _ _ (zero_val So) I); auto.
  - objc I x. split; [|exact Hn]. apply (new_ok _ _ _ _ (const_val So c) I); auto.
  - objc I x. objc I y. split; [|exact Hn]. apply (new_ok _ _ _ _ v I); auto.
  - objc I x. objc I y.
    destruct (upd (h_at (m_imp m)) (h_next (m_imp m)) (Some p) i) eqn:U.
    + split; [|exact Hn]. apply (move_ok _ _ _ x y i p v (zero_val So) I); auto.
    + unfold upd in U. destruct (_ =? _); congruence.
  - objc I x. objc I y.
    pose proof (imp_sep _ _ _ _ _ _ _ I E0 E4 (obj_sep _ _ _ _ _ _ _ I E E3 Hs)) as Npq.
    unfold upd at 1. destruct (Nat.eqb_spec p0 p); [congruence|]. rewrite E5. rd.
    rewrite E0. split; [|exact Hn].
    apply (copy_assign_ok _ _ _ _ _ _ v0 I); auto.
  - objc I x. objc I y. rewrite E0. rd.
    destruct (upd (h_at (m_imp m)) i (Some p0) i0) eqn:U; [|unfold upd in U; destruct (_ =? _); congruence].
    split; [|exact Hn]. destruct (Nat.eq_dec x y) as [<-|N].
    + rewrite E in E3. injection E3 as <-. rewrite E0 in E4. injection E4 as <-.
      pose proof (self_move_ok _ _ _ _ _ _ (zero_val So) I E E0) as [J1 [J2 J3 J4] J5].
      split; cbn in *; auto.
      split; cbn in *; auto. eapply rep_ext; [exact J4|auto|auto|auto|ext].
    + apply (move_assign_ok _ _ _ x y i p i0 p0 v0 (zero_val So) I); auto.
  - objc I x. objc I y. objc I z. rewrite E3. rd. rewrite E7. rd.
    pose proof (call_new_ok w0 m st x (meth2 So (fop So) (const_val So) (rust_op o) v v0) I Hn
                  (mk_meth2 _ _ _ _) E) as Q.
    unfold xbind in Q. change (af_const So) with (const_val So).
    destruct (rust _ m) as [[a m']|e]; exact Q.
  - objc I x. unfold upd at 1. rewrite Nat.eqb_refl. rd. objc I y. unfold upd at 1.
    destruct (Nat.eqb_spec i (h_next (m_imp m))) as [->|Ni].
    { destruct I as [_ [_ L _] _]. rewrite low_next in E1; [discriminate|auto]. }
    rewrite E1. rd. unfold upd at 1. rewrite Nat.eqb_refl. rd. unfold upd at 1.
    destruct (Nat.eqb_spec p (h_next (m_box m))) as [->|Np].
    { destruct I as [_ [L _ _] _]. rewrite low_next in E3; [discriminate|auto]. }
    rewrite E3. rd.
    set (f := meth2 So (fop So) (const_val So) BAdd (const_val So c) v).
    change (meth2 So (fop So) (af_const So) BAdd (af_const So c) v) with f.
    pose proof (inv_call w0 m st f I (mk_meth2 (const_val So) BAdd _ _)) as C.
    pose proof (mk_meth2 (const_val So) BAdd (const_val So c) v (m_w m)) as K'.
    fold f in K'.
    unfold rust in *. cbn [m_w] in *.
    destruct (f (m_w m)) as [[a w]|e] eqn:Ef, (call st f) as [[a' st']|e'] eqn:Ec; try contradiction; auto.
    destruct C as (-> & _ & C & _). rd.
    assert (h_pol (m_imp m) ((true, h_next (m_imp m)) :: h_log (m_imp m)) <> h_next (m_imp m)) as N1
      by (apply (next_two (m_imp m) (h_next (m_box m))); apply I).
    assert (h_pol (m_box m) ((true, h_next (m_box m)) :: h_log (m_box m)) <> h_next (m_box m)) as N2
      by (apply (next_two (m_box m) a); apply I).
    match goal with |- context [match (match upd (upd _ _ _) ?q ?r ?k with _ => _ end) with _ => _ end] =>
      replace (upd (upd (h_at (m_imp m)) (h_next (m_imp m)) (Some (h_next (m_box m)))) q r k) with (Some (h_next (m_box m)))
        by (unfold upd; destruct (Nat.eqb_spec k q); [congruence|]; now rewrite Nat.eqb_refl) end.
    rd.
    match goal with |- context [match (match upd (upd _ _ _) ?q ?r ?k with _ => _ end) with _ => _ end] =>
      replace (upd (upd (h_at (m_box m)) (h_next (m_box m)) (Some (af_const So c))) q r k) with (Some (af_const So c))
        by (unfold upd; destruct (Nat.eqb_spec k q); [congruence|]; now rewrite Nat.eqb_refl) end.
    rd.
    match goal with |- context [match upd (upd _ _ _) ?q ?r ?k with _ => _ end] =>
      replace (upd (upd (h_at (m_imp m)) (h_next (m_imp m)) (Some (h_next (m_box m)))) q r k) with (Some (h_next (m_box m)))
        by (unfold upd; destruct (Nat.eqb_spec k q); [congruence|]; now rewrite Nat.eqb_refl) end.
    split.
    + apply (left_ok _ _ _ x a (const_val So c) C). auto.
    + destruct (K' a w eq_refl) as [Ke _]. cbn. lia.
  - objc I x. objc I y. objc I z. rewrite E3. rd. rewrite E7. rd.
    pose proof (call_new_ok w0 m st x (meth2 So (fop So) (const_val So) (rust_fn2 f) v v0) I Hn
                  (mk_meth2 _ _ _ _) E) as Q.
    unfold xbind in Q. change (af_const So) with (const_val So).
    destruct (rust _ m) as [[a m']|e]; exact Q.
  - objc I x. objc I y.
    pose proof (call_new_ok w0 m st x (meth1 So (fop So) (const_val So) (rust_fn1 f) v) I Hn
                  (mk_meth1 _ _ _) E) as Q.
    unfold xbind in Q. change (af_const So) with (const_val So).
    destruct (rust _ m) as [[a m']|e]; exact Q.
  - objc I x. rewrite E0. split; [|exact Hn]. apply (dtor_ok _ _ _ _ _ _ I); auto.
  - destruct (ctx_cases _ _ _ k I) as [[E1 E2]|[[E1 E2]|(i & p & c & E1 & E2 & E3 & E4)]];
      rewrite E1; rewrite ?E2, ?E4; rd; auto.
    unfold call, rust. rewrite <- (inv_w _ _ _ I). cbn. split; [|cbn; lia].
    apply (knew_ok _ _ _ _ F0 I Hn E1). reflexivity.
  - destruct (ctx_cases _ _ _ k I) as [[E1 E2]|[[E1 E2]|(i & p & c & E1 & E2 & E3 & E4)]];
      rewrite E1; rewrite ?E2, ?E4; rd; auto.
    assert (join (m_cobj m) k = None) as J by (unfold join; rewrite E1; auto).
    destruct (ctx_cases _ _ _ j I) as [[E3 E4]|[[E3 E4]|(i & p & c & E3 & E4 & E5 & E6)]];
      rewrite E3; rewrite ?E4, ?E6; rd; auto.
    + split; [|exact Hn]. apply (cmove_ok _ _ _ k j None None I); auto. congruence.
    + split; [|exact Hn]. apply (cmove_ok _ _ _ k j (Some i) (Some c) I); auto. congruence.
  - destruct (ctx_cases _ _ _ k I) as [[E1 E2]|[[E1 E2]|(i & p & c & E1 & E2 & E3 & E4)]];
      rewrite E1; rewrite ?E2, ?E4; rd; auto.
    + destruct (Nat.eq_dec k j) as [<-|N].
      * rewrite E1, E2. rd. split; [|exact Hn].
        apply (inv_ext _ _ _ _ _ I); ext.
      * assert (join (m_cobj m) k = None) as J by (unfold join; rewrite E1; auto).
        destruct (ctx_cases _ _ _ j I) as [[E3 E4]|[[E3 E4]|(i & p & c & E3 & E4 & E5 & E6)]];
          rewrite E3; rewrite ?E4, ?E6; rd; auto.
        -- split; [|exact Hn]. apply (cmove_ok _ _ _ k j None None I); auto.
        -- split; [|exact Hn]. apply (cmove_ok _ _ _ k j (Some i) (Some c) I); auto.
    + unfold xbind, cimp_get, cimp_delete. rewrite E2. rd. unfold adv_acontext_free, xbind, cbox_get. rewrite E3. unfold cbox_free. rewrite E3. cbn.
      rewrite E2. cbn.
      pose proof (crelease_ok _ _ _ _ _ _ _ I E1 E2 E3) as I'.
      destruct (Nat.eq_dec k j) as [<-|N].
      * rewrite E1, E4. cbn. split; [|exact Hn].
        apply (inv_ext _ _ _ _ _ I'); ext.
      * assert (join (upd (m_cobj m) k (Some None)) k = @None nat) as J
          by (unfold join, upd; rewrite Nat.eqb_refl; auto).
        destruct (ctx_cases _ _ _ j I) as [[E5 E6]|[[E5 E6]|(i' & p' & c' & E5 & E6 & E7 & E8)]];
          rewrite E5; rewrite ?E6, ?E8; cbn; auto.
        -- split; [|exact Hn].
           eapply (cmove_ok _ _ _ k j None None) in I'; auto; [|cbn; updc; congruence|cbn; updc; congruence].
           apply (inv_ext _ _ _ _ _ I'); ext.
        -- split; [|exact Hn].
           eapply (cmove_ok _ _ _ k j (Some i') (Some c')) in I'; auto; [|cbn; updc; congruence|cbn; updc; congruence].
           apply (inv_ext _ _ _ _ _ I'); ext.
  - destruct (ctx_cases _ _ _ k I) as [[E1 E2]|[[E1 E2]|(i & p & c & E1 & E2 & E3 & E4)]];
      rewrite E1; rewrite ?E2, ?E4; rd; auto.
    + split; [|exact Hn]. apply (cdel_ok _ _ _ k I); auto.
    + unfold xbind, cimp_get, cimp_delete. rewrite E2. rd. unfold adv_acontext_free, xbind, cbox_get. rewrite E3. unfold cbox_free. rewrite E3. cbn.
      rewrite E2. cbn. split; [|exact Hn].
      pose proof (crelease_ok _ _ _ _ _ _ _ I E1 E2 E3) as I'.
      eapply (cdel_ok _ _ _ k) in I'; [|cbn; updc; auto; congruence].
      apply (inv_ext _ _ _ _ _ I'); ext.
  - objc I x.
    destruct (ctx_cases _ _ _ k I) as [[E1 E3]|[[E1 E3]|(i & p & c & E1 & E3 & E4 & E5)]];
      rewrite E1; rewrite ?E3, ?E5; rd; auto.
    unfold cimp_get, cbox_get. rewrite E3. rd. rewrite E4. rd.
    pose proof (call_new_ok w0 m st x (new_indep So Some c (f_zero So)) I Hn (mk_new_indep _ _) E) as Q.
    unfold xbind in Q. destruct (rust _ m) as [[a m']|e]; exact Q.
  - destruct (ctx_cases _ _ _ k I) as [[E1 E3]|[[E1 E3]|(i & p & c & E1 & E3 & E4 & E5)]];
      rewrite E1; rewrite ?E3, ?E5; rd; auto.
    unfold cimp_get, cbox_get. rewrite E3. rd. objc I x. rewrite E4. rd. rewrite E2.
    apply (call_ok w0 m st (set_dep Some c v) I Hn (mk_set_dep _ _)).
Qed.

(** ** Whole programs *)
Lemma run_ok w0 p : ids_fresh w0 -> Forall not_self_copy p -> forall m st, inv w0 m st ->
  w_next w0 <= w_next (m_w m) ->
  agree w0 (cxx So p m) (value_run So plus st p).
Proof.
  intros F0 H. induction H as [|s p Hs Hp IH]; intros m st I Hn.
  - cbn. auto.
  - pose proof (step_ok w0 m st s F0 I Hn Hs) as A. cbn. unfold xbind.
    destruct (step So s m) as [[u m']|e], (value_step So plus st s) as [st'|e']; cbn in A; try contradiction.
    + apply IH; apply A.
    + cbn. auto.
Qed.

Lemma run_agree_at a1 a2 a3 a4 w p : sound a1 -> sound a2 -> sound a3 -> sound a4 ->
  ids_fresh w -> Forall not_self_copy p ->
  agree w (cxx So p (mach0_at a1 a2 a3 a4 w)) (value_run So plus (store0 w) p).
Proof. intros. apply run_ok; auto. apply inv0_at; auto. Qed.
Lemma run_agree w p : ids_fresh w -> Forall not_self_copy p ->
  agree w (cxx So p (mach0 w)) (value_run So plus (store0 w) p).
Proof. intros F H. apply run_ok; auto. apply inv0; auto. Qed.

Lemma inv_shows w0 m st : inv w0 m st -> shows m st.
Proof.
  intros I. split; [apply I|]. split.
  - intros x. unfold value_of. destruct (obj_cases _ _ _ x I) as [[E1 E2]|(i & p & v & E1 & E2 & E3 & E4)];
      rewrite E1; auto. rewrite E2, E3; auto.
  - intros k. unfold context_of. destruct (ctx_cases _ _ _ k I) as [[E1 E2]|[[E1 E2]|(i & p & c & E1 & E2 & E3 & E4)]];
      rewrite E1; auto. rewrite E2, E3; auto.
Qed.

Lemma value_step_no_uaf left st s : value_step So left st s <> Err UseAfterFree.
Proof.
  destruct s; cbn; unfold fresh_val, fresh_ctx, the_val, the_ctx, usable, release, call;
    repeat (match goal with
            | |- context [match ?x with _ => _ end] => destruct x
            end; cbn); try discriminate.
Qed.

Lemma value_run_no_uaf left p : forall st, value_run So left st p <> Err UseAfterFree.
Proof.
  induction p as [|s p IH]; intros st; cbn; [discriminate|].
  pose proof (value_step_no_uaf left st s). destruct (value_step So left st s) as [st'|e]; cbn; auto.
Qed.

Theorem never_touches_freed w p : ids_fresh w -> Forall not_self_copy p ->
  cxx So p (mach0 w) <> Err UseAfterFree.
Proof.
  intros F H E. pose proof (run_agree w p F H) as A. rewrite E in A. cbn in A.
  pose proof (value_run_no_uaf plus p (store0 w)).
  destruct (value_run So plus (store0 w) p); [contradiction|]. subst. auto.
Qed.

Lemma inv_no_leak w m st : inv w m st ->
  (forall x, m_obj m x = None) -> (forall k, m_cobj m k = None) ->
  (forall a, h_at (m_box m) a = None) /\ (forall a, h_at (m_imp m) a = None) /\
  (forall a, h_at (m_cbox m) a = None) /\ (forall a, h_at (m_cimp m) a = None) /\
  (forall c, w_ctx (m_w m) c = None <-> w_ctx w c = None).
Proof.
  intros A Ho Hc.
  destruct A as [_ [D1 D2 D3] [K1 K2 K3 K4 K5 K6 K7 K8 K9]].
  assert (forall a, h_at (m_imp m) a = None) as Z2.
  { intros a. destruct (h_at (m_imp m) a) eqn:Q; auto.
    destruct (rep_own1 _ _ _ _ D3 _ _ Q) as [x Hx]. congruence. }
  assert (forall a, h_at (m_cimp m) a = None) as Z4.
  { intros a. destruct (h_at (m_cimp m) a) eqn:Q; auto.
    destruct (rep_own1 _ _ _ _ K3 _ _ Q) as [x Hx]. unfold join in Hx. rewrite Hc in Hx. discriminate. }
  assert (forall a, h_at (m_cbox m) a = None) as Z3.
  { intros a. destruct (h_at (m_cbox m) a) eqn:Q; auto.
    destruct (rep_own2 _ _ _ _ K3 _ _ Q) as [x Hx]. congruence. }
  repeat split; auto.
  - intros a. destruct (h_at (m_box m) a) eqn:Q; auto.
    destruct (rep_own2 _ _ _ _ D3 _ _ Q) as [x Hx]. congruence.
  - intros Q. destruct (w_ctx w c) eqn:W; auto. exfalso. eapply K9; eauto. congruence.
  - intros Q. destruct (w_ctx (m_w m) c) eqn:W; auto. exfalso.
    destruct (K8 c) as [a Ha]; [unfold mine; rewrite Q; congruence|]. rewrite Z3 in Ha. discriminate.
Qed.

Theorem no_leak w p m : ids_fresh w -> Forall not_self_copy p ->
  cxx So p (mach0 w) = Done (tt, m) ->
  (forall x, m_obj m x = None) -> (forall k, m_cobj m k = None) ->
  (forall a, h_at (m_box m) a = None) /\ (forall a, h_at (m_imp m) a = None) /\
  (forall a, h_at (m_cbox m) a = None) /\ (forall a, h_at (m_cimp m) a = None) /\
  (forall c, w_ctx (m_w m) c = None <-> w_ctx w c = None).
Proof.
  intros F H E Ho Hc. pose proof (run_agree w p F H) as A. rewrite E in A. cbn in A.
  destruct (value_run So plus (store0 w) p) as [st|]; [|contradiction].
  destruct A as [I _]. eapply inv_no_leak; eauto.
Qed.

Lemma left_agrees left st s : not_scalar_left s -> (forall o, o = CoAdd -> left o = CoAdd) ->
  value_step So left st s = value_step So plus st s.
Proof.
  intros H L. destruct s; cbn in *; auto. destruct o; try contradiction. rewrite (L CoAdd); auto.
Qed.

Lemma left_agrees_run left p : Forall not_scalar_left p -> (forall o, o = CoAdd -> left o = CoAdd) ->
  forall st, value_run So left st p = value_run So plus st p.
Proof.
  intros H L. induction H as [|s p Hs Hp IH]; intros st; cbn; auto.
  rewrite left_agrees by auto. destruct (value_step So plus st s); cbn; auto.
Qed.

Theorem value_semantics w p : ids_fresh w -> Forall not_self_copy p -> Forall not_scalar_left p ->
  match cxx So p (mach0 w), value_run So (fun o => o) (store0 w) p with
  | Done (_, m), Done st => shows m st
  | Err e, Err e' => e = e'
  | _, _ => False
  end.
Proof.
  intros F H1 H2. rewrite left_agrees_run by auto.
  pose proof (run_agree w p F H1) as A. unfold agree in A.
  destruct (cxx So p (mach0 w)) as [[u m]|], (value_run So plus (store0 w) p); try contradiction; auto.
  eapply inv_shows; apply A.
Qed.

(** With scalar-on-the-left arithmetic included: it adds, whatever the operator. *)
Theorem scalar_left_adds w p : ids_fresh w -> Forall not_self_copy p ->
  match cxx So p (mach0 w), value_run So (fun _ => CoAdd) (store0 w) p with
  | Done (_, m), Done st => shows m st
  | Err e, Err e' => e = e'
  | _, _ => False
  end.
Proof.
  intros F H1. pose proof (run_agree w p F H1) as A. unfold agree, plus in A.
  destruct (cxx So p (mach0 w)) as [[u m]|], (value_run So (fun _ => CoAdd) (store0 w) p); try contradiction; auto.
  eapply inv_shows; apply A.
Qed.

(** Copying an object onto itself is always an error. *)
Theorem self_copy_faults w p x m : ids_fresh w -> Forall not_self_copy p ->
  cxx So p (mach0 w) = Done (tt, m) -> m_obj m x <> None ->
  cxx So (p ++ [SCopyAssign x x]) (mach0 w) = Err UseAfterFree.
Proof.
  intros F H E Hx. pose proof (run_agree w p F H) as A. rewrite E in A. cbn in A.
  destruct (value_run So plus (store0 w) p) as [st|]; [|contradiction]. destruct A as [I _].
  assert (forall p q a b, cxx So p a = Done (tt, b) -> cxx So (p ++ q) a = cxx So q b) as App.
  { clear. induction p as [|s p IH]; intros q a b; cbn.
    - intros [= <-]; auto.
    - unfold xbind. destruct (step So s a) as [[u a']|]; [|discriminate]. apply IH. }
  rewrite (App _ _ _ _ E). cbn. unfold xbind. unfold adouble_copy_assign, xbind, obj_get.
  destruct (obj_cases _ _ _ x I) as [[E1 E2]|(i & q & v & E1 & E2 & E3 & E4)]; [congruence|].
  rewrite E1. unfold imp_get. rewrite E2. unfold adv_adouble_free, box_free. rewrite E3. cbn.
  rewrite E1. unfold imp_get. cbn. rewrite E2. unfold adv_adouble_copy, xbind, box_get. cbn.
  unfold upd. rewrite Nat.eqb_refl. auto.
Qed.

End Facts.
