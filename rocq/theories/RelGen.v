(** The generalized Jacobian in two arithmetics. *)
From Coq Require Import List Arith ZArith NArith Bool Lia.
From Verif Require Import Base Float Operation Tape AContext Methods Function Spec TapeFacts FopsRel Matrix MatrixFacts AbsNormal AbsNormalFacts
  GenJac DriverSpec DriverPanics GenBallSpec RelDrivers.
Import ListNotations.

(** ** Numbers that [==] identifies *)
Section Lin.
Context {F : Type} (Fo : Fops F) (E : F -> F -> Prop).
Record eq_like : Prop := {
  el_refl : forall a, E a a;
  el_trans : forall a b c, E a b -> E b c -> E a c;
  el_sym : forall a b, E a b -> E b a;
  el_add : forall a a' b b', E a a' -> E b b' -> E (f_add Fo a b) (f_add Fo a' b');
  el_mul : forall a a' c, E a a' -> E (f_mul Fo a c) (f_mul Fo a' c);
  el_div : forall a a' c, E a a' -> E (f_div Fo a c) (f_div Fo a' c);
  el_neg : forall a a', E a a' -> E (f_neg Fo a) (f_neg Fo a');
  el_abs : forall a a', E a a' -> f_abs Fo a = f_abs Fo a';
  el_eqb : forall a b, f_eqb Fo a b = true -> E a b
}.
Hypothesis HE : eq_like.
Notation Es := (Forall2 E).

Lemma E_refls l : Es l l.
Proof. induction l; constructor; auto. apply (el_refl HE). Qed.
Lemma E_add_at l l' i a a' : Es l l' -> E a a' -> rrel Es (add_at Fo l i a) (add_at Fo l' i a').
Proof.
  intros HL Ha. unfold add_at. eapply rrel_bind; [apply rel_get_g, HL|]. intros b b' Hb. apply rel_set_g; auto. apply (el_add HE); auto.
Qed.
Ltac ee := repeat first [assumption | apply (el_mul HE) | apply (el_div HE) | apply (el_neg HE)].
Ltac ev :=
  lazymatch goal with
  | |- rrel _ (bind (get ?v _) _) (bind (get ?v _) _) => apply rrel_eq; intros ?; ev
  | |- rrel _ (bind (get _ _) _) (bind (get _ _) _) => eapply rrel_bind; [apply rel_get_g; eassumption|]; intros ? ? ?; ev
  | |- rrel _ (bind (unwrap _) _) _ => apply rrel_eq; intros ?; ev
  | |- rrel _ (bind (first_order_value _ _ _ _ _ _) _) _ => apply rrel_eq; intros ?; ev
  | |- rrel _ (bind (add_at _ _ _ _) _) _ => eapply rrel_bind; [apply E_add_at; [eassumption|ee]|]; intros ? ? ?; ev
  | |- rrel _ (add_at _ _ _ _) _ => apply E_add_at; [eassumption|ee]
  | _ => idtac
  end.
Lemma E_op_reverse o v d d' : Es d d' -> rrel Es (op_first_order_reverse Fo o v d) (op_first_order_reverse Fo o v d').
Proof.
  intros HD. unfold op_first_order_reverse. destruct (opcode o) eqn:Eo; try (exact HD); try reflexivity; ev.
Qed.
Lemma E_tape_reverse (t : tape F) y y' : Es y y' -> rrel Es (tape_reverse Fo t y) (tape_reverse Fo t y').
Proof.
  intros HY. unfold tape_reverse. eapply rrel_bind; [apply rel_scatter; [exact HY|apply E_refls]|]. intros v v' HV.
  eapply rrel_bind with (Q := Es).
  - unfold reverse_sweep. apply (rel_foldM Es eq); auto.
    + clear. induction (rev (t_ops t)); constructor; auto.
    + intros a b o ? Hab <-. apply E_op_reverse, Hab.
  - intros w w' Hw. apply rel_gather. exact Hw.
Qed.

Context (red : list (list (nat * list F)) -> list (nat * list F)) (HR : rayon red).
Notation mE := (mrel E).
Lemma mE_refl A : mE A A.
Proof. constructor; auto. induction (m_dat A); constructor; auto. apply E_refls. Qed.
Lemma E_mul_left (t : tape F) A B : mE A B -> rrel mE (mul_left Fo red t A) (mul_left Fo red t B).
Proof.
  intros HA. pose proof HA as [Er Ec Ed]. unfold mul_left. rewrite Er, Ec. apply rrel_eq. intros _.
  eapply rrel_bind.
  - apply (rel_mapM (Forall2 (fun p q => fst p = fst q /\ Es (snd p) (snd q)))). intros j _.
    eapply rrel_bind; [apply (rel_mapM E); intros; apply rel_m_get, HA|]. intros dx dx' Hdx.
    eapply rrel_bind; [apply E_tape_reverse; eauto|]. intros dy dy' Hdy. cbn. repeat constructor; auto.
  - intros c c' HC. rewrite !(rayon_concat red _ HR).
    eapply rel_foldM; [apply rel_concat, HC| |apply mE_refl].
    intros M M' p q HM [-> Hp]. apply rel_fill_row; auto.
Qed.
Lemma E_scale A B s : mE A B -> mE (scale_cols Fo A s) (scale_cols Fo B s).
Proof.
  intros [A1 A2 A3]. constructor; cbn; auto. eapply rel_map_g; [exact A3|]. intros r r' Hr. unfold v_zip.
  clear - HE Hr. revert s; induction Hr; intros [|c s]; cbn; constructor; auto. cbn. apply (el_mul HE). auto.
Qed.
Lemma E_m_add A A' B : mE A A' -> rrel mE (m_add2 Fo A B) (m_add2 Fo A' B).
Proof.
  intros [A1 A2 A3]. unfold m_add2. rewrite A1, A2. destruct (_ && _); cbn; auto.
  constructor; cbn; auto. eapply rel_map_g; [apply rel_combine; [exact A3|apply mE_refl]|]. cbn. intros p q [P1 P2].
  apply rel_zip; auto. intros; apply (el_add HE); auto.
Qed.
Definition u_step lt sg base u := (u1 <- mul_left Fo red lt u ;; m_add2 Fo (scale_cols Fo u1 sg) base).
Lemma E_step lt sg base u v : mE u v -> rrel mE (u_step lt sg base u) (u_step lt sg base v).
Proof. intros H. eapply rrel_bind; [apply E_mul_left, H|]. intros. apply E_m_add, E_scale. auto. Qed.
Lemma u_iter_step lt sg base k u : u_iter Fo red lt sg base (S k) u = (u1 <- u_step lt sg base u ;; u_iter Fo red lt sg base k u1).
Proof. unfold u_step. cbn [u_iter]. destruct (mul_left Fo red lt u); reflexivity. Qed.
Lemma u_loop_step lt sg base k u : u_loop Fo red lt sg base (S k) u =
  (u1 <- u_step lt sg base u ;; if m_eqb Fo u1 u then Ok u1 else u_loop Fo red lt sg base k u1).
Proof. unfold u_step. cbn [u_loop]. destruct (mul_left Fo red lt u); reflexivity. Qed.
Lemma E_trans_l : forall l1 l2, Es l1 l2 -> forall l3, Es l2 l3 -> Es l1 l3.
Proof. induction 1; intros l3 H3; inversion H3; subst; constructor; eauto. eapply (el_trans HE); eauto. Qed.
Lemma mE_trans A B C : mE A B -> mE B C -> mE A C.
Proof.
  intros [A1 A2 A3] [B1 B2 B3]. constructor; try congruence. revert B3. generalize (m_dat C). clear - A3 HE.
  induction A3; intros l3 H3; inversion H3; subst; constructor; eauto. eapply E_trans_l; eauto.
Qed.
Lemma rrel_fixed {A} (P : A -> A -> Prop) m a : rrel P m (Ok a) -> exists b, m = Ok b /\ P b a.
Proof. destruct m; cbn; [eauto|contradiction]. Qed.

Lemma u_fixed lt sg base u u1 : u_step lt sg base u = Ok u1 -> mE u1 u ->
  forall k v, mE v u1 -> rrel mE (Ok v) (u_iter Fo red lt sg base k v).
Proof.
  intros Es1 H1. induction k as [|k IH]; intros v Hv; [apply mE_refl|]. rewrite u_iter_step.
  pose proof (E_step lt sg base v u (mE_trans _ _ _ Hv H1)) as S. rewrite Es1 in S. apply rrel_fixed in S as (v' & -> & Hv').
  cbn [bind]. specialize (IH v' Hv'). destruct (u_iter Fo red lt sg base k v') as [v2|p]; cbn in *; [|auto].
  eapply mE_trans; [|exact IH]. eapply mE_trans; [exact Hv|].
  destruct Hv' as [a b c]. constructor; auto. clear - c HE. induction c; constructor; auto.
  clear - H HE. induction H; constructor; auto. apply (el_sym HE); auto.
Qed.
Lemma v_eqb_E x : forall y, v_eqb Fo x y = true -> Es x y.
Proof.
  unfold v_eqb. induction x as [|a x IH]; intros [|b y] H; cbn in *; try discriminate H; constructor.
  - apply andb_prop in H as [_ H]. apply andb_prop in H as [H _]. apply (el_eqb HE), H.
  - apply IH. apply andb_prop in H as [H1 H]. apply andb_prop in H as [_ H]. rewrite H1, H. reflexivity.
Qed.
Lemma m_eqb_E A B : wf_mat A -> wf_mat B -> m_eqb Fo A B = true -> mE A B.
Proof.
  intros [LA _] [LB _] H. unfold m_eqb in H. apply andb_prop in H as [H H3]. apply andb_prop in H as [H1 H2].
  apply Nat.eqb_eq in H1, H2. constructor; auto. rewrite H1, <- LB in LA. revert LA H3. generalize (m_dat B). clear - HE.
  induction (m_dat A) as [|r l IH]; intros [|r' l'] L H; cbn in *; try discriminate L; constructor.
  - apply andb_prop in H as [H _]. apply v_eqb_E, H.
  - apply andb_prop in H as [_ H]. apply IH; auto.
Qed.

(** The early exit changes nothing [==] can see. *)
Lemma u_loop_iter lt sg base r s : wf_tape lt -> (forall o, In o (t_ops lt) -> opcode o <> Abs) ->
  num_indeps lt = s -> num_deps lt = s -> length sg = s -> wf_mat base -> m_rows base = r -> m_cols base = s ->
  forall k u, wf_mat u -> m_rows u = r -> m_cols u = s ->
  rrel mE (u_loop Fo red lt sg base k u) (u_iter Fo red lt sg base k u).
Proof.
  intros W NA E1 E2 E3 WB RB CB. induction k as [|k IH]; intros u Wu Ru Cu; [apply mE_refl|].
  rewrite u_loop_step, u_iter_step.
  assert (exists u2, u_step lt sg base u = Ok u2 /\ wf_mat u2 /\ m_rows u2 = r /\ m_cols u2 = s) as (u2 & S2 & W2 & R2 & C2).
  { unfold u_step. destruct (mul_left_total Fo red HR lt u W NA Wu) as (u1 & -> & W1 & R1 & C1); [lia|]. cbn [bind].
    destruct (m_add2_total Fo (scale_cols Fo u1 sg) base) as (u2 & Ea & W2 & R2 & C2); auto;
      [apply scale_cols_total; auto; lia|cbn; lia|cbn; lia|]. cbn in R2, C2. exists u2. rewrite Ea. split; [auto|]. split; [auto|]. lia. }
  rewrite S2. cbn [bind]. destruct (m_eqb Fo u2 u) eqn:Eq; [|apply IH; auto].
  eapply u_fixed; [exact S2|apply m_eqb_E; auto|apply mE_refl].
Qed.

Lemma E_v_abs x y : Es x y -> v_abs Fo x = v_abs Fo y.
Proof. induction 1; cbn; [auto|]. f_equal; auto. apply (el_abs HE); auto. Qed.
(** The switching values: exactly the same. *)
Lemma dz_loop_iter lt dzt : forall k dz, dz_loop Fo red lt dzt k dz = dz_iter Fo red lt dzt k dz.
Proof.
  induction k as [|k IH]; intros dz; [reflexivity|]. cbn [dz_loop dz_iter].
  destruct (mul_right_vec Fo red lt (v_abs Fo dz)) as [p|?] eqn:Ep; cbn [bind]; [|auto].
  destruct (v_add Fo dzt p) as [dz'|?] eqn:Ed; cbn [bind]; [|auto].
  destruct (v_eqb Fo dz' dz) eqn:Eq; [|apply IH]. apply v_eqb_E, E_v_abs in Eq.
  clear IH. induction k as [|k IH]; cbn [dz_iter]; [reflexivity|]. rewrite Eq, Ep. cbn [bind]. rewrite Ed. cbn [bind]. exact IH.
Qed.

(** ** The driver without its early exits *)
Lemma E_zip x x' y y' : Es x x' -> Es y y' -> Es (v_zip (f_add Fo) x y) (v_zip (f_add Fo) x' y').
Proof.
  intros HX. revert y y'; induction HX; intros z z' HZ; unfold v_zip; cbn; [constructor|]. destruct HZ; cbn; constructor.
  - apply (el_add HE); auto.
  - apply IHHX; auto.
Qed.
Lemma E_m_add2 A A' B B' : mE A A' -> mE B B' -> rrel mE (m_add2 Fo A B) (m_add2 Fo A' B').
Proof.
  intros [A1 A2 A3] [B1 B2 B3]. unfold m_add2. rewrite A1, A2, B1, B2. destruct (_ && _); cbn; auto.
  constructor; cbn; auto. eapply rel_map_g; [apply rel_combine; eassumption|]. cbn. intros p q [P1 P2]. apply E_zip; auto.
Qed.
Lemma E_v_add x x' y y' : Es x x' -> Es y y' -> rrel Es (v_add Fo x y) (v_add Fo x' y').
Proof.
  intros HX HY. unfold v_add. rewrite (F2_len _ _ _ HX), (F2_len _ _ _ HY). destruct (_ =? _); cbn; auto. apply E_zip; auto.
Qed.
Lemma E_dot x x' y : Es x x' -> E (fdot Fo x y) (fdot Fo x' y).
Proof.
  intros HX. revert y; induction HX; intros [|c z]; cbn; try apply (el_refl HE). apply (el_add HE); auto. apply (el_mul HE). auto.
Qed.
Lemma E_m_mulv A A' x : mE A A' -> rrel Es (m_mulv Fo A x) (m_mulv Fo A' x).
Proof.
  intros [A1 A2 A3]. unfold m_mulv. rewrite A2. destruct (_ =? _); cbn; auto.
  eapply rel_map_g; [exact A3|]. intros. apply E_dot; auto.
Qed.
Theorem no_exit_same t dx bits next : wf_tape t -> wf_next next -> next_fits (num_deps t) next ->
  rrel (fun G G' => mE (g_hom G) (g_hom G') /\ Es (g_inh G) (g_inh G') /\ g_mult G = g_mult G')
    (generalized_jacobian_tape Fo red t dx bits next) (gj_no_exit Fo red t dx bits next).
Proof.
  intros W WN NF. unfold generalized_jacobian_tape, gj_no_exit.
  destruct (Nat.eqb_spec (length dx) (num_indeps t)) as [LX|]; [|reflexivity]. cbn [assert bind].
  destruct (an_new_ok t W) as (args & EA & EN). rewrite EN. cbn [bind].
  set (a := mkAN _ _ _ _ _ _) in EN |- *.
  destruct (sub_tapes t a args EN EA) as (Ez & El & Ej & Ey & _).
  pose proof (sub_l t W args EA) as Sl. rewrite <- El in Sl. pose proof (sub_y t W) as Sy. rewrite <- Ey in Sy.
  pose proof (sub_of_wf t W _ Sl) as Wl. pose proof (sub_of_ops t _ Sl) as Nl.
  pose proof (sub_of_wf t W _ Sy) as Wy. pose proof (sub_of_ops t _ Sy) as Ny.
  assert (length args = num_abs t) as LA by (apply mapM_ok_length in EA; auto). pose proof (abs_ids_length t) as LI.
  assert (num_indeps (l_tape a) = num_abs t /\ num_deps (l_tape a) = num_abs t) as [Il Dl] by (rewrite El; split; [exact LI|exact LA]).
  assert (num_indeps (y_tape a) = num_abs t /\ num_deps (y_tape a) = num_deps t) as [Iy Dy] by (rewrite Ey; split; [exact LI|reflexivity]).
  destruct (an_z a) as [z|] eqn:Ezz; [|reflexivity].
  assert (length z = num_abs t) as Lz.
  { unfold an_z in Ezz. subst a. cbn in Ezz. rewrite EA in Ezz. cbn in Ezz. apply gather_length in Ezz. lia. }
  clearbody a. cbn [bind].
  apply rrel_eq. intros lz. destruct (v_sub Fo z lz) as [av|] eqn:Eav; [|reflexivity]. cbn [bind].
  apply rrel_eq. intros yz. apply rrel_eq. intros zd. destruct (v_add Fo av zd) as [dt|] eqn:Edt; [|reflexivity]. cbn [bind].
  assert (length dt = num_abs t) as Ldt.
  { unfold v_add in Edt. destruct (Nat.eqb_spec (length av) (length zd)) as [L1|]; [|discriminate Edt]. injection Edt as <-.
    rewrite v_zip_len by auto. unfold v_sub in Eav. destruct (Nat.eqb_spec (length z) (length lz)) as [L2|]; [|discriminate Eav].
    injection Eav as <-. rewrite v_zip_len by auto. lia. }
  rewrite dz_loop_iter.
  destruct (dz_loop_total Fo red HR (l_tape a) dt (num_abs t) Wl Il Dl Ldt (num_abs t) dt Ldt) as (dz & Edz & Ldz).
  rewrite dz_loop_iter in Edz. rewrite Edz. cbn [bind].
  pose proof (signs_loop_total Fo bits dz 0 0) as HL. destruct (signs_loop Fo bits 0 0 dz) as [sg q].
  destruct (HL _ _ eq_refl) as (Lsg & _). rewrite Ldz in Lsg. clear HL.
  assert (exists g1 i1 m1, match next with
      | Some g => (g_hom g, g_inh g, q + g_mult g)
      | None => (m_id Fo (num_deps t), repeat (f_zero Fo) (num_deps t), q) end = (g1, i1, m1) /\ wf_mat g1 /\ m_cols g1 = num_deps t)
    as (g1 & i1 & m1 & -> & Wg1 & Cg).
  { destruct next as [h1|]; eexists _, _, _; (split; [reflexivity|]).
    - cbn in NF, WN. destruct NF. auto.
    - split; [apply m_tab_wf|reflexivity]. }
  destruct (mul_left_total Fo red HR (y_tape a) g1 Wy Ny Wg1) as (ys & -> & Wys & Rys & Cys); [lia|]. cbn [bind].
  eapply rrel_bind.
  { eapply u_loop_iter with (s := num_abs t); eauto; try (apply scale_cols_total; auto; lia); cbn; lia. }
  intros u u' Hu. apply rrel_eq. intros gj.
  eapply rrel_bind; [apply E_mul_left, Hu|]. intros uz uz' Huz.
  eapply rrel_bind; [apply E_m_add2; [apply mE_refl|eauto]|]. intros hom hom' Hh.
  apply rrel_eq. intros g2b. apply rrel_eq. intros j1.
  eapply rrel_bind; [apply E_m_mulv, Hu|]. intros ua ua' Hua.
  eapply rrel_bind; [apply E_v_add; [apply E_refls|eauto]|]. intros inh inh' Hi. cbn. auto.
Qed.
End Lin.

(** ** Two arithmetics *)
Lemma rrel_bind_eq {A B A' B'} (Q : A -> B -> Prop) (Q' : A' -> B' -> Prop) m1 m2 k1 k2 :
  rrel Q m1 m2 -> (forall a b, m1 = Ok a -> m2 = Ok b -> Q a b -> rrel Q' (k1 a) (k2 b)) -> rrel Q' (bind m1 k1) (bind m2 k2).
Proof. intros H K. destruct m1, m2; cbn in *; try contradiction; auto. Qed.

Section Two.
Context {F1 F2 : Type} (O1 : Fops F1) (O2 : Fops F2) (Q : F1 -> F2 -> Prop) (E1 : F1 -> F1 -> Prop) (E2 : F2 -> F2 -> Prop).
Notation Qs := (Forall2 Q).
Notation mQ := (mrel Q).
Hypothesis H : ops_related O1 O2 Q.
Hypothesis HE1 : eq_like O1 E1.
Hypothesis HE2 : eq_like O2 E2.
Hypothesis C : forall a a' b b', E1 a a' -> Q a' b' -> E2 b' b -> Q a b.
Context (red1 : list (list (nat * list F1)) -> list (nat * list F1)) (red2 : list (list (nat * list F2)) -> list (nat * list F2)).
Hypothesis R1 : rayon red1.
Hypothesis R2 : rayon red2.

Lemma rel_dz_iter l1 l2 d1 d2 : tapes_related Q l1 l2 -> Qs d1 d2 -> forall k x y, Qs x y ->
  rrel Qs (dz_iter O1 red1 l1 d1 k x) (dz_iter O2 red2 l2 d2 k y).
Proof.
  intros HL HD. induction k as [|k IH]; intros x y HX; cbn [dz_iter]; [exact HX|].
  eapply rrel_bind; [apply (rel_mul_right_vec _ _ _ H); auto; apply (rel_v_abs _ _ _ H), HX|]. intros p q Hp.
  eapply rrel_bind; [apply (rel_v_add _ _ _ H); eauto|]. intros. apply IH. auto.
Qed.
Lemma rel_u_iter l1 l2 s1 s2 b1 b2 : tapes_related Q l1 l2 -> Qs s1 s2 -> mQ b1 b2 -> forall k u v, mQ u v ->
  rrel mQ (u_iter O1 red1 l1 s1 b1 k u) (u_iter O2 red2 l2 s2 b2 k v).
Proof.
  intros HL HS HB. induction k as [|k IH]; intros x y HX; cbn [u_iter]; [exact HX|].
  eapply rrel_bind; [apply (rel_mul_left _ _ _ H); eauto|]. intros p q Hp.
  eapply rrel_bind; [apply (rel_m_add _ _ _ H); [apply (rel_scale _ _ _ H); eauto|eauto]|]. intros. apply IH. auto.
Qed.
Lemma Qs_compat x x' : Forall2 E1 x x' -> forall y', Qs x' y' -> forall y, Forall2 E2 y' y -> Qs x y.
Proof. induction 1; intros y' HK y0 HJ; inversion HK; subst; inversion HJ; subst; constructor; eauto. Qed.
Lemma mQ_compat A A' B B' : mrel E1 A A' -> mQ A' B' -> mrel E2 B' B -> mQ A B.
Proof.
  intros [A1 A2 A3] [M1 M2 M3] [B1 B2 B3]. constructor; try congruence.
  revert B3. generalize (m_dat B). revert M3. generalize (m_dat B'). revert A3. generalize (m_dat A'). generalize (m_dat A).
  induction 1 as [|r r' l l' Hr HL IH]; intros k HK j HJ; inversion HK; subst; inversion HJ; subst; constructor; eauto using Qs_compat.
Qed.
Lemma rel_u_loop l1 l2 s1 s2 b1 b2 r s : tapes_related Q l1 l2 -> Qs s1 s2 -> mQ b1 b2 ->
  wf_tape l1 -> wf_tape l2 -> (forall o, In o (t_ops l1) -> opcode o <> Abs) ->
  num_indeps l1 = s -> num_deps l1 = s -> length s1 = s ->
  wf_mat b1 -> wf_mat b2 -> m_rows b1 = r -> m_cols b1 = s -> forall k,
  rrel mQ (u_loop O1 red1 l1 s1 b1 k b1) (u_loop O2 red2 l2 s2 b2 k b2).
Proof.
  intros HL HS HB W1 W2 NA I1 D1 L1 B1 B2 Rb Cb k.
  pose proof HL as [T1 T2 T3 _]. pose proof HB as [M1 M2 _].
  pose proof (u_loop_iter O1 E1 HE1 red1 R1 l1 s1 b1 r s W1 NA I1 D1 L1 B1 Rb Cb k b1 B1 Rb Cb) as X1.
  pose proof (u_loop_iter O2 E2 HE2 red2 R2 l2 s2 b2 r s W2) as X2.
  specialize (X2 ltac:(rewrite <- T3; exact NA) ltac:(unfold num_indeps in *; congruence) ltac:(unfold num_deps in *; congruence)
    ltac:(rewrite <- (F2_len _ _ _ HS); auto) B2 ltac:(congruence) ltac:(congruence) k b2 B2 ltac:(congruence) ltac:(congruence)).
  pose proof (rel_u_iter l1 l2 s1 s2 b1 b2 HL HS HB k b1 b2 HB) as X.
  destruct (u_loop O1 red1 l1 s1 b1 k b1) as [u1|], (u_iter O1 red1 l1 s1 b1 k b1) as [v1|],
    (u_iter O2 red2 l2 s2 b2 k b2) as [v2|], (u_loop O2 red2 l2 s2 b2 k b2) as [u2|]; cbn in *; try contradiction; try congruence.
  eapply mQ_compat; eauto. destruct X2 as [a b c]. constructor; auto. clear - c HE2. induction c; constructor; auto.
  clear - H HE2. induction H; constructor; auto. apply (el_sym _ _ HE2); auto.
Qed.

(** The comparisons with zero agree. *)
Definition same_sign (a : F1) (b : F2) : Prop :=
  f_ltb O1 a (f_zero O1) = f_ltb O2 b (f_zero O2) /\ f_ltb O1 (f_zero O1) a = f_ltb O2 (f_zero O2) b.
Lemma rel_signs bits x y : Forall2 same_sign x y -> forall k q, let '(s1, m1) := signs_loop O1 bits k q x in
  let '(s2, m2) := signs_loop O2 bits k q y in Qs s1 s2 /\ m1 = m2.
Proof.
  pose proof (q_one _ _ _ H) as Q1. pose proof (q_neg _ _ _ H _ _ Q1) as Qn.
  induction 1 as [|a b x y [S1 S2] HS IH]; intros k q; cbn [signs_loop]; [auto|]. rewrite S1, S2.
  destruct (f_ltb O2 b (f_zero O2)); [|destruct (f_ltb O2 (f_zero O2) b)].
  - specialize (IH k q). destruct (signs_loop O1 bits k q x), (signs_loop O2 bits k q y). destruct IH. auto.
  - specialize (IH k q). destruct (signs_loop O1 bits k q x), (signs_loop O2 bits k q y). destruct IH. auto.
  - destruct (bit_next bits k) as [c k']. specialize (IH k' (q + 1)).
    destruct (signs_loop O1 bits k' (q + 1) x), (signs_loop O2 bits k' (q + 1) y). destruct IH. split; [|auto]. constructor; [|auto].
    destruct c; auto.
Qed.

Lemma rel_dz_loop l1 l2 d1 d2 : tapes_related Q l1 l2 -> Qs d1 d2 -> forall k x y, Qs x y ->
  rrel Qs (dz_loop O1 red1 l1 d1 k x) (dz_loop O2 red2 l2 d2 k y).
Proof. intros. rewrite (dz_loop_iter O1 E1 HE1), (dz_loop_iter O2 E2 HE2). apply rel_dz_iter; auto. Qed.

Theorem rel_switching_values t1 t2 dx1 dx2 : tapes_related Q t1 t2 -> Qs dx1 dx2 ->
  rrel Qs (switching_values O1 red1 t1 dx1) (switching_values O2 red2 t2 dx2).
Proof.
  intros HT HX. pose proof HT as [T1 T2 T3 TV]. unfold switching_values. eapply rrel_bind; [apply rel_an_new, HT|]. intros a b HA.
  pose proof (rel_sub _ (@firstn nat) (@firstn nat) _ _ HA) as Hz. pose proof (rel_sub _ (@skipn nat) (@firstn nat) _ _ HA) as Hl.
  eapply rrel_bind; [apply rel_an_z, HA|]. intros z z' Hz'.
  eapply rrel_bind; [apply (rel_mul_right_vec _ _ _ H); eauto; apply (rel_v_abs _ _ _ H), Hz'|]. intros lz lz' Hlz.
  eapply rrel_bind; [apply (rel_v_sub _ _ _ H); eauto|]. intros av av' Ha.
  eapply rrel_bind; [apply (rel_mul_right_vec _ _ _ H); eauto|]. intros zd zd' Hzd.
  eapply rrel_bind; [apply (rel_v_add _ _ _ H); eauto|]. intros dt dt' Hdt.
  unfold num_abs. rewrite T3. apply rel_dz_loop; auto.
Qed.

Record g_rel (G : gjac F1) (G' : gjac F2) : Prop := mkGrel {
  gr_hom : mQ (g_hom G) (g_hom G'); gr_inh : Qs (g_inh G) (g_inh G'); gr_mult : g_mult G = g_mult G'
}.
Definition next_rel (n1 : option (gjac F1)) (n2 : option (gjac F2)) : Prop :=
  match n1, n2 with Some g1, Some g2 => g_rel g1 g2 | None, None => True | _, _ => False end.

Theorem rel_gj t1 t2 dx1 dx2 bits n1 n2 : tapes_related Q t1 t2 -> wf_tape t1 -> wf_tape t2 -> Qs dx1 dx2 ->
  next_rel n1 n2 -> wf_next n1 -> wf_next n2 -> next_fits (num_deps t1) n1 ->
  (forall d1 d2, switching_values O1 red1 t1 dx1 = Ok d1 -> switching_values O2 red2 t2 dx2 = Ok d2 -> Forall2 same_sign d1 d2) ->
  rrel g_rel (generalized_jacobian_tape O1 red1 t1 dx1 bits n1) (generalized_jacobian_tape O2 red2 t2 dx2 bits n2).
Proof.
  intros HT W1 W2 HX HN WN1 WN2 NF HD. pose proof HT as [T1 T2 T3 TV].
  assert (num_indeps t2 = num_indeps t1 /\ num_deps t2 = num_deps t1 /\ num_abs t2 = num_abs t1) as (NI & ND & NA).
  { unfold num_indeps, num_deps, num_abs. now rewrite T1, T2, T3. }
  unfold generalized_jacobian_tape. rewrite NI, ND, NA, (F2_len _ _ _ HX).
  destruct (Nat.eqb_spec (length dx2) (num_indeps t1)) as [LX|]; [|reflexivity]. cbn [assert bind].
  unfold switching_values in HD. rewrite NA in HD.
  destruct (an_new_ok t1 W1) as (args & EA & EN). destruct (an_new_ok t2 W2) as (args2 & EA2 & EN2).
  pose proof (rel_an_new Q t1 t2 HT) as HA. rewrite EN, EN2 in *. cbn [rrel bind] in *.
  set (a := mkAN _ _ _ _ _ _) in EN, HA, HD |- *. set (b := mkAN _ _ _ _ _ _) in EN2, HA, HD |- *.
  assert (args2 = args) as -> by (unfold abs_args in *; rewrite T3 in EA; congruence).
  pose proof (rel_sub _ (@firstn nat) (@firstn nat) _ _ HA) as Hz. pose proof (rel_sub _ (@skipn nat) (@firstn nat) _ _ HA) as Hl.
  pose proof (rel_sub _ (@firstn nat) (@skipn nat) _ _ HA) as Hj. pose proof (rel_sub _ (@skipn nat) (@skipn nat) _ _ HA) as Hy.
  fold (@z_tape F1) (@l_tape F1) (@j_tape F1) (@y_tape F1) (@z_tape F2) (@l_tape F2) (@j_tape F2) (@y_tape F2) in Hz, Hl, Hj, Hy.
  destruct (sub_tapes t1 a args EN EA) as (Ez & El & Ej & Ey & _). destruct (sub_tapes t2 b args EN2 EA2) as (Ez2 & El2 & Ej2 & Ey2 & _).
  pose proof (sub_l t1 W1 args EA) as Sl. rewrite <- El in Sl. pose proof (sub_l t2 W2 args EA2) as Sl2. rewrite <- El2 in Sl2.
  pose proof (sub_y t1 W1) as Sy. rewrite <- Ey in Sy. pose proof (sub_y t2 W2) as Sy2. rewrite <- Ey2 in Sy2.
  pose proof (sub_of_wf t1 W1 _ Sl) as Wl. pose proof (sub_of_wf t2 W2 _ Sl2) as Wl2. pose proof (sub_of_ops t1 _ Sl) as Nl.
  pose proof (sub_of_wf t1 W1 _ Sy) as Wy. pose proof (sub_of_wf t2 W2 _ Sy2) as Wy2. pose proof (sub_of_ops t1 _ Sy) as Ny.
  pose proof (sub_of_ops t2 _ Sy2) as Ny2.
  assert (length args = num_abs t1) as LA by (apply mapM_ok_length in EA; auto).
  pose proof (abs_ids_length t1) as LI.
  assert (num_indeps (l_tape a) = num_abs t1 /\ num_deps (l_tape a) = num_abs t1) as [Il Dl] by (rewrite El; split; [exact LI|exact LA]).
  assert (num_indeps (y_tape a) = num_abs t1 /\ num_deps (y_tape a) = num_deps t1) as [Iy Dy] by (rewrite Ey; split; [exact LI|reflexivity]).
  assert (num_indeps (y_tape b) = num_abs t1 /\ num_deps (y_tape b) = num_deps t1) as [Iy2 Dy2].
  { destruct Hy as [h1 h2 _ _]. unfold num_indeps, num_deps in *. rewrite <- h1, <- h2. auto. }
  clearbody a b.
  eapply rrel_bind_eq; [apply rel_an_z, HA|]. intros z z' Ezz Ezz' Hz'. rewrite Ezz, Ezz' in HD. cbn [bind] in HD.
  eapply rrel_bind_eq; [apply (rel_mul_right_vec _ _ _ H); eauto; apply (rel_v_abs _ _ _ H), Hz'|]. intros lz lz' Elz Elz' Hlz.
  rewrite Elz, Elz' in HD. cbn [bind] in HD.
  eapply rrel_bind_eq; [apply (rel_v_sub _ _ _ H); eauto|]. intros av av' Eav Eav' Ha. rewrite Eav, Eav' in HD. cbn [bind] in HD.
  eapply rrel_bind; [apply (rel_mul_right_vec _ _ _ H); eauto; apply (rel_v_abs _ _ _ H), Hz'|]. intros yz yz' Hyz.
  eapply rrel_bind_eq; [apply (rel_mul_right_vec _ _ _ H); eauto|]. intros zd zd' Ezd Ezd' Hzd. rewrite Ezd, Ezd' in HD. cbn [bind] in HD.
  eapply rrel_bind_eq; [apply (rel_v_add _ _ _ H); eauto|]. intros dt dt' Edt Edt' Hdt. rewrite Edt, Edt' in HD. cbn [bind] in HD.
  eapply rrel_bind_eq; [apply rel_dz_loop; eauto|]. intros dz dz' Edz Edz' Hdz. specialize (HD dz dz' Edz Edz').
  assert (length dz = num_abs t1) as Ldz.
  { assert (length dt = num_abs t1) as Ldt.
    { unfold v_add in Edt. destruct (Nat.eqb_spec (length av) (length zd)) as [Lz|]; [|discriminate Edt]. injection Edt as <-.
      rewrite v_zip_len by auto. unfold v_sub in Eav. destruct (Nat.eqb_spec (length z) (length lz)) as [Lz2|]; [|discriminate Eav].
      injection Eav as <-. rewrite v_zip_len by auto. unfold an_z in Ezz. unfold an_new in EN. rewrite EA in EN. injection EN as <-.
      cbn in Ezz. rewrite EA in Ezz. cbn in Ezz. apply gather_length in Ezz. lia. }
    destruct (dz_loop_total O1 red1 R1 (l_tape a) dt (num_abs t1) Wl Il Dl Ldt (num_abs t1) dt Ldt) as (d' & Ed' & Ld'). congruence. }
  pose proof (rel_signs bits dz dz' HD 0 0) as HS. pose proof (signs_loop_total O1 bits dz 0 0) as HL.
  destruct (signs_loop O1 bits 0 0 dz) as [sg q], (signs_loop O2 bits 0 0 dz') as [sg' q']. destruct HS as [HS <-].
  destruct (HL _ _ eq_refl) as (Lsg & _). rewrite Ldz in Lsg. clear HL.
  assert (exists g1 i1 m1 g2 i2, match n1 with
      | Some g => (g_hom g, g_inh g, q + g_mult g)
      | None => (m_id O1 (num_deps t1), repeat (f_zero O1) (num_deps t1), q) end = (g1, i1, m1) /\
    match n2 with
      | Some g => (g_hom g, g_inh g, q + g_mult g)
      | None => (m_id O2 (num_deps t1), repeat (f_zero O2) (num_deps t1), q) end = (g2, i2, m1) /\
    mQ g1 g2 /\ Qs i1 i2 /\ wf_mat g1 /\ wf_mat g2 /\ m_cols g1 = num_deps t1) as (g1 & i1 & m1 & g2 & i2 & -> & -> & HG & HI & Wg1 & Wg2 & Cg).
  { destruct n1 as [h1|], n2 as [h2|]; cbn in HN; try contradiction.
    - destruct HN as [G1 G2 G3]. rewrite <- G3. eexists _, _, _, _, _. split; [reflexivity|]. split; [reflexivity|].
      cbn in NF. destruct NF. auto 8.
    - eexists _, _, _, _, _. split; [reflexivity|]. split; [reflexivity|]. split; [apply (rel_m_id _ _ _ H)|].
      split; [apply rel_repeat_g, (q_zero _ _ _ H)|]. split; [apply m_tab_wf|]. split; [apply m_tab_wf|]. reflexivity. }
  pose proof HG as [Gr Gc _].
  destruct (mul_left_total O1 red1 R1 (y_tape a) g1 Wy Ny Wg1) as (ys & Eys & Wys & Rys & Cys); [lia|].
  destruct (mul_left_total O2 red2 R2 (y_tape b) g2 Wy2 Ny2 Wg2) as (ys2 & Eys2 & Wys2 & Rys2 & Cys2); [lia|].
  pose proof (rel_mul_left _ _ _ H red1 red2 R1 R2 _ _ _ _ Hy HG) as Hys. rewrite Eys, Eys2 in *. cbn [rrel bind] in *.
  assert (mQ (scale_cols O1 ys sg) (scale_cols O2 ys2 sg')) as HB by (apply (rel_scale _ _ _ H); auto).
  eapply rrel_bind.
  { eapply rel_u_loop with (s := num_abs t1); eauto.
    - apply scale_cols_total; auto. lia.
    - apply scale_cols_total; auto. rewrite <- (F2_len _ _ _ HS). lia.
    - cbn. lia. }
  intros u u' Hu.
  eapply rrel_bind; [apply (rel_mul_left _ _ _ H); eauto|]. intros gj gj' Hgj.
  eapply rrel_bind; [apply (rel_mul_left _ _ _ H); eauto|]. intros uz uz' Huz.
  eapply rrel_bind; [apply (rel_m_add _ _ _ H); eauto|]. intros hom hom' Hh.
  eapply rrel_bind; [apply (rel_m_mulv _ _ _ H); eauto; apply (rel_v_neg _ _ _ H), Hyz|]. intros gb gb' Hgb.
  eapply rrel_bind; [apply (rel_v_add _ _ _ H); eauto|]. intros j1 j1' Hj1.
  eapply rrel_bind; [apply (rel_m_mulv _ _ _ H); eauto|]. intros ua ua' Hua.
  eapply rrel_bind; [apply (rel_v_add _ _ _ H); eauto|]. intros inh inh' Hinh.
  cbn. constructor; auto.
Qed.
End Two.
