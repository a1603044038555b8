(** Joint recordings: whatever the interleaving, a replay evaluates what every thread has computed. *)
From Coq Require Import List Arith ZArith Bool Lia Sorted.
From Verif Require Import Base Float Operation Tape AContext AContextFacts Spec TapeFacts RecordFacts Ffi FfiFacts
  Concurrent ConcSpec ConcFacts ConcInv ConcMain JointSpec.
Import ListNotations.

Section Joint.
Context {S F : Type} (So : Fops S) (tof : S -> option F).
Notation code := (code S F). Notation sys := (sys S F).
Notation good := (good So tof). Notation inv := (inv So tof).
Notation contents := (contents (F:=F)).
Implicit Types (A : contents) (g : sys).

(** ** Partial correctness of calls *)
Fixpoint wp (Q : contents -> ret S F -> Prop) A (c : code) : Prop :=
  match c with
  | Ret o => Q A o
  | Fetch k => forall c, wp Q A (k c)
  | Alloc c k => forall A' a, asub A A' -> wp Q A' (k a)
  | MLock k | MInsert _ _ k | MRemove _ k | MUnlock k | Unlock _ _ k => wp Q A k
  | MGet c k => wp Q A (k None) /\
      forall A' a i, asub A A' -> good A' -> A' a = Some (c, i) -> wp Q A' (k (Some a))
  | Upgrade _ k | Decr _ k | Lock _ k => forall b, wp Q A (k b)
  | Access a f k => forall A' c i, asub A A' -> good A' -> A' a = Some (c, i) ->
      wp Q (upd A' a (Some (c, f c i))) (k c i)
  end.
Definition mono (Q : contents -> ret S F -> Prop) : Prop := forall A A' o, asub A A' -> Q A o -> Q A' o.

Lemma wp_mono Q c : mono Q -> forall A A', asub A A' -> wp Q A c -> wp Q A' c.
Proof.
  intros HM. induction c as [o|k IH|c k IH|k IH|c a k IH|c k IH|a k IH|k IH|a k IH|a k IH|a k IH|a f k IH|a p k IH];
    intros A A' Hs H; cbn [wp] in *.
  - eapply HM; eauto.
  - intros c. eapply IH; eauto.
  - intros B a HB. apply H. eapply asub_trans; eauto.
  - eapply IH; eauto.
  - eapply IH; eauto.
  - destruct H as [H1 H2]. split; [eapply IH; eauto|]. intros B a i HB HG HA. eapply H2; eauto. eapply asub_trans; eauto.
  - eapply IH; eauto.
  - eapply IH; eauto.
  - intros b. eapply IH; eauto.
  - intros b. eapply IH; eauto.
  - intros b. eapply IH; eauto.
  - intros B d i HB HG HA. apply H; auto. eapply asub_trans; eauto.
  - eapply IH; eauto.
Qed.

Lemma wp_step Q g i c g' : mono Q -> inv g -> t_code (g_thr g i) = Some c -> wp Q (core g) c ->
  micro g i = Some g' -> t_code (g_thr g' i) = None \/ exists c', t_code (g_thr g' i) = Some c' /\ wp Q (core g') c'.
Proof.
  intros HM I Hc HW E. assert (asub (core g) (core g')) as HS.
  { apply (step_grows So tof g i Go); [exact I|]. rewrite (step_go So tof g i c I Hc). exact E. }
  pose proof I as (rho & eta & IV). pose proof (iv_good _ _ _ _ _ IV) as HG.
  unfold micro in E. rewrite Hc in E.
  destruct c as [ro|k|c k|k|c a k|c k|a k|k|a k|a k|a k|a f k|a p k]; cbn [wp] in HW.
  - injection E as <-. left. cbn. now rewrite upd_eq.
  - injection E as <-. right. cbn. rewrite upd_eq. cbn. eexists. split; [reflexivity|]. eapply wp_mono; eauto.
  - injection E as <-. right. cbn. rewrite upd_eq. cbn. eexists. split; [reflexivity|]. apply HW, HS.
  - destruct (g_mlock g); [discriminate|]. injection E as <-. right. cbn. rewrite upd_eq. cbn. eexists. split; [reflexivity|]. eapply wp_mono; eauto.
  - injection E as <-. right. cbn. rewrite upd_eq. cbn. eexists. split; [reflexivity|]. eapply wp_mono; eauto.
  - injection E as <-. right. cbn. rewrite upd_eq. cbn. eexists. split; [reflexivity|].
    destruct (g_map g c) as [a|] eqn:Em; [|eapply wp_mono; [exact HM|exact HS|]; apply HW].
    destruct (entries_exact _ _ _ _ _ I Em) as (r & E1 & E2 & _).
    eapply wp_mono; [exact HM|exact HS|]. eapply (proj2 HW); [apply asub_refl|exact HG|]. subst c. eapply core_arc; eauto.
  - destruct (g_arc g a); [|discriminate]. injection E as <-. right. cbn. rewrite upd_eq. cbn. eexists. split; [reflexivity|]. eapply wp_mono; eauto.
  - injection E as <-. right. cbn. rewrite upd_eq. cbn. eexists. split; [reflexivity|]. eapply wp_mono; eauto.
  - destruct (owned g a); injection E as <-; right; cbn; rewrite upd_eq; cbn; eexists; (split; [reflexivity|]); eapply wp_mono; eauto.
  - injection E as <-. right. cbn. rewrite upd_eq. cbn. eexists. split; [reflexivity|]. eapply wp_mono; eauto.
  - destruct (g_arc g a) as [r|] eqn:Ea; [|discriminate]. destruct (a_lock r); [discriminate|].
    injection E as <-. right. cbn. rewrite upd_eq. cbn. eexists. split; [reflexivity|]. eapply wp_mono; eauto.
  - destruct (g_arc g a) as [r|] eqn:Ea; [|discriminate]. injection E as <-. right. cbn. rewrite upd_eq. cbn.
    eexists. split; [reflexivity|].
    specialize (HW (core g) (a_cid r) (a_inner r) (asub_refl _) HG (core_arc _ _ _ Ea)).
    eapply wp_mono; [exact HM| |exact HW]. intros b d j Hb. exists j. split; [|apply ext_refl].
    rewrite <- Hb. unfold core, upd. cbn. unfold upd. destruct (b =? a); reflexivity.
  - destruct (g_arc g a) as [r|] eqn:Ea; [|discriminate]. injection E as <-. right. cbn. rewrite upd_eq. cbn.
    eexists. split; [reflexivity|]. eapply wp_mono; eauto.
Qed.

Lemma wp_play Q i s : mono Q -> forall g g', inv g -> i < g_n g -> carries_on i s -> play So tof g s = Some g' ->
  (t_code (g_thr g i) = None \/ exists c, t_code (g_thr g i) = Some c /\ wp Q (core g) c) ->
  (t_code (g_thr g' i) = None \/ exists c, t_code (g_thr g' i) = Some c /\ wp Q (core g') c).
Proof.
  intros HM. induction s as [|[j m] s IH]; cbn; intros g g' I Hi C P H.
  - injection P as <-. exact H.
  - destruct (step So tof g j m) as [g1|] eqn:E; [|discriminate]. inversion C as [|? ? [C1 C2] C3]; subst. cbn in *.
    apply (IH g1); auto.
    + eapply inv_step; eauto.
    + apply n_mono in E. lia.
    + destruct (Nat.eq_dec j i) as [->|N].
      * rewrite C1 in E by auto. unfold step in E. apply Nat.ltb_lt in Hi. rewrite Hi in E.
        destruct H as [H|(c & H & HW)].
        -- unfold micro in E. rewrite H in E. discriminate.
        -- eapply wp_step; eauto.
      * rewrite (step_other _ _ _ _ _ _ _ E N C2 Hi). destruct H as [H|(c & H & HW)]; [auto|]. right.
        exists c. split; [exact H|]. eapply wp_mono; [exact HM|eapply step_grows; eauto|exact HW].
Qed.

Lemma reach_inv g : reachable So tof g -> inv g.
Proof. intros R. exact (reachable_inv So tof g R). Qed.

(** A call from its beginning to its return. *)
Lemma call_returns Q g i m r g' c : mono Q -> returns So tof g i m r g' ->
  (forall g1, step So tof g i m = Some g1 -> begin g i c = Some g1) -> wp Q (core g) c -> Q (core g') r.
Proof.
  intros HM (R & g1 & s & E & C & P & HR) HB HW.
  pose proof (reach_inv _ R) as I. specialize (HB _ E). pose proof (inv_step _ _ _ _ _ _ E I) as I1.
  assert (i < g_n g) as Hi by (unfold step in E; destruct (Nat.ltb_spec i (g_n g)); [auto|discriminate]).
  unfold begin in HB. destruct (t_code (g_thr g i)); [discriminate|]. injection HB as <-.
  destruct (wp_play Q i s HM _ _ I1 Hi C P) as [H|(c' & H & HQ)].
  - right. exists c. cbn. rewrite upd_eq. split; [reflexivity|exact HW].
  - congruence.
  - rewrite HR in H. injection H as <-. exact HQ.
Qed.

Lemma returns_later g i m r g' : returns So tof g i m r g' -> inv g /\ inv g' /\ asub (core g) (core g').
Proof.
  intros (R & g1 & s & E & C & P & HR). pose proof (reach_inv _ R) as I.
  split; [exact I|]. pose proof (inv_step _ _ _ _ _ _ E I) as I1. split; [eapply inv_play; eauto|].
  assert (forall s g, inv g -> play So tof g s = Some g' -> asub (core g) (core g')) as HP.
  { clear. induction s as [|[j m] s IH]; cbn; intros g I P.
    - injection P as <-. apply asub_refl.
    - destruct (step So tof g j m) as [g1|] eqn:E; [|discriminate].
      eapply asub_trans; [eapply step_grows; eauto|]. apply IH; auto. eapply inv_step; eauto. }
  eapply asub_trans; [eapply step_grows; eauto|]. eauto.
Qed.
Lemma later_grows g g' : later So tof g g' -> inv g /\ inv g' /\ asub (core g) (core g').
Proof.
  intros [R [s P]]. pose proof (reach_inv _ R) as I. clear R. split; [exact I|]. split; [eapply inv_play; eauto|]. revert g I P.
  induction s as [|[j m] s IH]; cbn; intros g I P.
  - injection P as <-. apply asub_refl.
  - destruct (step So tof g j m) as [g1|] eqn:E; [|discriminate].
    eapply asub_trans; [eapply step_grows; eauto|]. apply IH; auto. eapply inv_step; eauto.
Qed.

(** ** What the recording says about an id *)
Inductive denotes (i : inner F) : nat -> expr S -> Prop :=
| dn_indep k : In k (i_indeps i) -> denotes i k (EIndep k)
| dn_const k s : In (mkOp Const k None None) (i_ops i) -> val_is tof (i_vals i) k s -> denotes i k (EConst s)
| dn_op1 oc k k1 e : unary_oc oc = true -> In (mkOp oc k (Some k1) None) (i_ops i) -> denotes i k1 e ->
    denotes i k (EOp1 oc e)
| dn_op2 oc k k1 k2 e1 e2 : binary_oc oc = true -> In (mkOp oc k (Some k1) (Some k2)) (i_ops i) ->
    denotes i k1 e1 -> denotes i k2 e2 -> denotes i k (EOp2 oc e1 e2).

Lemma ext_in_indeps (i i' : inner F) k : ext i i' -> In k (i_indeps i) -> In k (i_indeps i').
Proof. intros ((l & ->) & _) H. apply in_or_app; auto. Qed.
Lemma ext_in_ops (i i' : inner F) o : ext i i' -> In o (i_ops i) -> In o (i_ops i').
Proof. intros (_ & _ & (l & ->) & _) H. apply in_or_app; auto. Qed.
Lemma denotes_ext i i' k e : ext i i' -> denotes i k e -> denotes i' k e.
Proof. intros X. induction 1; econstructor; eauto using ext_in_indeps, ext_in_ops, val_is_ext. Qed.

(** Context [a], number [c], has id [k] for [e]. *)
Definition at_id A (a c k : nat) (e : expr S) : Prop := exists i, A a = Some (c, i) /\ denotes i k e.
Definition known A (z : AF S) (e : expr S) : Prop :=
  match af_ctx z with
  | None => e = EConst (af_v z)
  | Some (c, k) => exists a, at_id A a c k e
  end.
Lemma at_id_mono A A' a c k e : asub A A' -> at_id A a c k e -> at_id A' a c k e.
Proof. intros Hs (i & E & D). destruct (Hs _ _ _ E) as (i' & E' & X). exists i'. eauto using denotes_ext. Qed.
Lemma known_mono A A' z e : asub A A' -> known A z e -> known A' z e.
Proof.
  intros Hs. unfold known. destruct (af_ctx z) as [[c k]|]; [|auto]. intros (a & H). exists a. eapply at_id_mono; eauto.
Qed.

(** The result [z] of a call, if it is recorded, is [e]. *)
Definition results (e : nat -> expr S) A (o : ret S F) : Prop :=
  match o with
  | RVar z => match af_ctx z with Some (c, k) => exists a, at_id A a c k (e k) | None => True end
  | _ => True
  end.
Lemma results_mono e : mono (results e).
Proof.
  intros A A' o Hs. destruct o as [|z| |]; cbn; auto. destruct (af_ctx z) as [[c k]|]; auto.
  intros (a & H). exists a. eapply at_id_mono; eauto.
Qed.

Lemma wp_crit {B} Q A a (body : nat -> inner F -> res (B * inner F)) (k : res B -> code) : mono Q ->
  (forall A' c i, asub A A' -> good A' -> A' a = Some (c, i) ->
     match body c i with
     | Ok (b, i') => wp Q (upd A' a (Some (c, i'))) (k (Ok b))
     | Panic p => wp Q A' (k (Panic p))
     end) ->
  wp Q A (k (Panic PUnwrap)) -> wp Q A (crit a body k).
Proof.
  intros HM Hb Hp. unfold crit. cbn [wp]. intros [|]; cbn [wp]; [exact Hp|].
  intros A' c i Hs Hg Ha. specialize (Hb _ _ _ Hs Hg Ha). destruct (body c i) as [[b i']|p]; cbn [wp]; [exact Hb|].
  eapply wp_mono; [exact HM| |exact Hb]. apply asub_upd with (i := i); auto. apply ext_refl.
Qed.
Lemma wp_drop Q A a k : wp Q A k -> wp Q A (c_drop a k).
Proof. intros H. unfold c_drop. cbn [wp]. intros [|]; cbn [wp]; exact H. Qed.
Lemma wp_from_cid Q A c (k : option nat -> code) : mono Q -> wp Q A (k None) ->
  (forall A' a i, asub A A' -> good A' -> A' a = Some (c, i) -> wp Q A' (k (Some a))) -> wp Q A (c_from_cid c k).
Proof.
  intros HM H1 H2. unfold c_from_cid. cbn [wp]. split; [exact H1|]. intros A' a i Hs Hg Ha.
  cbn [wp]. intros [|]; cbn [wp]; [eapply H2; eauto|eapply wp_mono; eauto].
Qed.

Lemma wp_ensure Q A a c x e (k : res nat -> code) : mono Q -> (exists i, A a = Some (c, i)) ->
  match af_ctx x with None => e = EConst (af_v x) | Some (_, v) => at_id A a c v e end ->
  (forall A' v, asub A A' -> at_id A' a c v e -> wp Q A' (k (Ok v))) ->
  (forall A' p, asub A A' -> wp Q A' (k (Panic p))) ->
  wp Q A (c_ensure tof a x k).
Proof.
  intros HM [i0 Ha] HK Hk Hp. unfold c_ensure in *. destruct (af_ctx x) as [[c' v]|] eqn:Ec.
  - apply Hk; [apply asub_refl|exact HK].
  - subst e. apply wp_crit; [exact HM| |apply Hp, asub_refl]. intros A' d i Hs Hg Ha'. unfold body_record.
    destruct (tof (af_v x)) as [fv|] eqn:Ef; cbn; [|apply Hp; auto].
    change (mkInner (i_indeps i) (i_deps i) (i_ops i ++ [mkOp Const (length (i_vals i)) None None]) (i_vals i ++ [fv]))
      with (push_op i Const None None fv).
    apply Hk.
    + eapply asub_trans; [exact Hs|]. eapply asub_upd; eauto. apply ext_push_op.
    + assert (d = c) as -> by (destruct (Hs _ _ _ Ha) as (j & E & _); congruence).
      exists (push_op i Const None None fv). split; [unfold upd; rewrite Nat.eqb_refl; auto|].
      apply dn_const; [cbn; apply in_or_app; right; left; reflexivity|]. apply val_new; auto.
Qed.

Definition of_op (oc : OpCode) (ex : expr S) (ey : option (expr S)) : expr S :=
  match ey with None => EOp1 oc ex | Some ey => EOp2 oc ex ey end.

Lemma wp_last Q A oc v dv c a k1 k2 ex ey : Q = results (fun _ => of_op oc ex ey) ->
  match ey with None => unary_oc oc = true | Some _ => binary_oc oc = true end ->
  at_id A a c k1 ex -> match ey, k2 with None, None => True | Some ey, Some k2 => at_id A a c k2 ey | _, _ => False end ->
  wp Q A (crit a (body_record tof oc v (Some k1) k2) (fun r =>
       match r with
       | Panic p => c_drop a (Ret (RPanic p))
       | Ok vid => c_drop a (Ret (RVar (mkAF v dv (Some (c, vid)))))
       end)).
Proof.
  intros -> Har K1 K2. apply wp_crit; [apply results_mono| |apply wp_drop; cbn; auto].
  intros A' d i Hs Hg Ha. unfold body_record.
  destruct (tof v) as [fv|] eqn:Ef; cbn [unwrap bind]; [|apply wp_drop; cbn; auto].
  change (mkInner (i_indeps i) (i_deps i) (i_ops i ++ [mkOp oc (length (i_vals i)) (Some k1) k2]) (i_vals i ++ [fv]))
    with (push_op i oc (Some k1) k2 fv).
  apply wp_drop. cbn. assert (d = c) as ->.
  { destruct K1 as (j & E & _). destruct (Hs _ _ _ E) as (j' & E' & _). congruence. }
  assert (forall k e, at_id A a c k e -> denotes (push_op i oc (Some k1) k2 fv) k e) as HD.
  { intros k e K. apply (at_id_mono _ _ _ _ _ _ Hs) in K as (j & E & D). rewrite Ha in E. injection E as <-.
    eapply denotes_ext; [apply ext_push_op|exact D]. }
  exists a, (push_op i oc (Some k1) k2 fv). split; [unfold upd; rewrite Nat.eqb_refl; auto|].
  destruct ey as [ey|], k2 as [k2|]; try contradiction; cbn [of_op].
  - eapply dn_op2; [exact Har|cbn; apply in_or_app; right; left; reflexivity|auto|auto].
  - eapply dn_op1; [exact Har|cbn; apply in_or_app; right; left; reflexivity|auto].
Qed.

Lemma known_at A A' a c i x e : asub A A' -> good A' -> A' a = Some (c, i) -> known A x e ->
  (forall c' v, af_ctx x = Some (c', v) -> c' = c) ->
  match af_ctx x with None => e = EConst (af_v x) | Some (_, v) => at_id A' a c v e end.
Proof.
  intros Hs Hg Ha HK Hc. apply (known_mono _ _ _ _ Hs) in HK. unfold known in HK.
  destruct (af_ctx x) as [[c' v]|]; [|exact HK]. specialize (Hc _ _ eq_refl). subst c'.
  destruct HK as (b & j & E & D). assert (b = a) as -> by (eapply (proj1 Hg); eauto). exists j. auto.
Qed.

Lemma wp_from_op A oc x y ex ey :
  match y, ey with
  | None, None => unary_oc oc = true
  | Some y, Some ey => binary_oc oc = true /\ known A y ey
  | _, _ => False
  end -> known A x ex -> wp (results (fun _ => of_op oc ex ey)) A (c_from_op So tof oc x y).
Proof.
  intros Hy Hx. unfold c_from_op. set (Q := results _). assert (mono Q) as HM by apply results_mono.
  destruct (zero_order_value So oc (af_v x) (option_map af_v y)) as [v|p]; [|exact Logic.I].
  destruct (first_order_value So oc (af_v x) (option_map af_v y) (af_dv x) (option_map af_dv y)) as [dv|p];
    [|exact Logic.I].
  destruct (pick_cid x y) as [[c|]|p] eqn:Ep; [|exact Logic.I|exact Logic.I].
  apply pick_some in Ep as [P1 P2].
  apply wp_from_cid; [exact HM|exact Logic.I|]. intros A1 a i Hs Hg Ha.
  apply wp_ensure with (c := c) (e := ex); [exact HM|eauto|eapply known_at; eauto| |].
  2:{ intros A2 p _. apply wp_drop. exact Logic.I. }
  intros A2 i1 Hs2 K1. destruct y as [y|], ey as [ey|]; try contradiction.
  - destruct Hy as [Hb Hy]. apply wp_ensure with (c := c) (e := ey); [exact HM| | | |].
    + destruct (Hs2 _ _ _ Ha) as (j & E & _). eauto.
    + assert (forall c' v0, af_ctx y = Some (c', v0) -> c' = c) as P2' by eauto.
      pose proof (known_at _ _ _ _ _ _ _ Hs Hg Ha Hy P2') as K. destruct (af_ctx y) as [[c' w]|]; [|exact K].
      eapply at_id_mono; eauto.
    + intros A3 i2 Hs3 K2. eapply wp_last; [reflexivity|exact Hb|eapply at_id_mono; eauto|exact K2].
    + intros A3 p _. apply wp_drop. exact Logic.I.
  - eapply wp_last; [reflexivity|exact Hy|exact K1|exact Logic.I].
Qed.

Lemma wp_indep A a x : wp (results (fun k => EIndep k)) A (c_set_indep tof a x).
Proof.
  unfold c_set_indep. apply wp_crit; [apply results_mono| |exact Logic.I]. intros A' c i Hs Hg Ha. unfold body_indep.
  destruct (tof (af_v x)) as [fv|]; cbn; [|exact Logic.I].
  exists a. eexists. split; [unfold upd; rewrite Nat.eqb_refl; reflexivity|]. apply dn_indep. cbn.
  apply in_or_app. right. left. reflexivity.
Qed.

(** The context has [e] among its dependents. *)
Definition an_output (a c : nat) (e : expr S) A : Prop :=
  exists i k, A a = Some (c, i) /\ In k (i_deps i) /\ denotes i k e.
Lemma an_output_mono a c e A A' : asub A A' -> an_output a c e A -> an_output a c e A'.
Proof.
  intros Hs (i & k & E & K & D). destruct (Hs _ _ _ E) as (i' & E' & X). exists i', k.
  split; [exact E'|]. split; [|eauto using denotes_ext]. destruct X as (_ & (l & ->) & _). apply in_or_app; auto.
Qed.
Definition designates a c e A (o : ret S F) : Prop := o = RUnit -> an_output a c e A.
Lemma designates_mono a c e : mono (designates a c e).
Proof. intros A A' o Hs H E. eapply an_output_mono; eauto. Qed.

Lemma wp_dep A a c x e : (exists i, A a = Some (c, i)) -> known A x e ->
  wp (designates a c e) A (c_set_dep tof a x).
Proof.
  intros [i0 H0] HK. unfold c_set_dep. apply wp_crit; [apply designates_mono| |intros E; discriminate E].
  intros A' d i Hs Hg Ha. assert (d = c) as -> by (destruct (Hs _ _ _ H0) as (j & E & _); congruence).
  unfold body_dep, known in *. destruct (af_ctx x) as [[c' v]|] eqn:Ec.
  - destruct (Nat.eqb_spec c' c) as [->|N]; cbn; [|intros E; discriminate E]. intros _.
    destruct HK as (b & K). apply (at_id_mono _ _ _ _ _ _ Hs) in K as (j & E & D).
    assert (b = a) as -> by (eapply (proj1 Hg); eauto). rewrite Ha in E. injection E as <-.
    eexists. exists v. split; [unfold upd; rewrite Nat.eqb_refl; reflexivity|]. cbn.
    split; [apply in_or_app; right; left; reflexivity|]. eapply denotes_ext; [|exact D].
    repeat split; cbn; [exists []; now rewrite app_nil_r|eexists; reflexivity|exists []; now rewrite app_nil_r|exists []; now rewrite app_nil_r].
  - subst e. destruct (tof (af_v x)) as [fv|] eqn:Ef; cbn; [|intros E; discriminate E]. intros _.
    eexists. exists (length (i_vals i)). split; [unfold upd; rewrite Nat.eqb_refl; reflexivity|]. cbn.
    split; [apply in_or_app; right; left; reflexivity|]. apply dn_const; cbn.
    + apply in_or_app; right; left; reflexivity.
    + apply val_new; auto.
Qed.

Definition inner_of (t : tape F) : inner F := mkInner (t_indeps t) (t_deps t) (t_ops t) (t_vals t).
Definition tapes i0 A (o : ret S F) : Prop := forall t, o = RTape t -> wf_tape t /\ ext i0 (inner_of t).
Lemma wp_tape A a c i0 : A a = Some (c, i0) -> wp (tapes i0) A (c_tape a).
Proof.
  intros H0. assert (mono (tapes i0)) as HM by (intros ? ? ? _ H; exact H). unfold c_tape.
  assert (forall A B (get : inner F -> B) (k : res B -> code),
    (forall A' c i, asub A A' -> good A' -> A' a = Some (c, i) -> wp (tapes i0) A' (k (Ok (get i)))) ->
    (forall p, k (Panic p) = Ret (RPanic p)) -> wp (tapes i0) A (crit a (body_get get) k)) as HG.
  { intros B T get k Hk Hp. apply wp_crit; [exact HM| |rewrite Hp; intros t E; discriminate E].
    intros A' d i Hs Hg Ha. cbn. eapply wp_mono; [exact HM| |eapply Hk; eauto].
    eapply asub_upd; [exact Ha|apply ext_refl]. }
  apply HG; [|reflexivity]. intros A1 c1 i1 S1 G1 H1.
  apply HG; [|reflexivity]. intros A2 c2 i2 S2 G2 H2.
  apply HG; [|reflexivity]. intros A3 c3 i3 S3 G3 H3.
  apply HG; [|reflexivity]. intros A4 c4 i4 S4 G4 H4.
  cbn [wp]. intros t E. injection E as <-.
  pose proof (asub_ext _ _ _ _ _ _ S1 H0 _ H1) as X01.
  pose proof (asub_ext _ _ _ _ _ _ S2 H1 _ H2) as X12.
  pose proof (asub_ext _ _ _ _ _ _ S3 H2 _ H3) as X23.
  pose proof (asub_ext _ _ _ _ _ _ S4 H3 _ H4) as X34.
  split; [eapply (torn_wf So tof); eauto; [eapply G1|eapply G2|eapply G3|eapply G4]; eauto|].
  pose proof (ext_trans _ _ _ X01 X12) as X02. pose proof (ext_trans _ _ _ X02 X23) as X03.
  pose proof (ext_trans _ _ _ X03 X34) as X04.
  split; [apply X01|]. split; [apply X02|]. split; [apply X03|apply X04].
Qed.

(** ** What has been computed is on the recording *)
Lemma core_arc' g a c i : core g a = Some (c, i) -> exists r, g_arc g a = Some r /\ a_cid r = c /\ a_inner r = i.
Proof. unfold core. destruct (g_arc g a) as [r|]; [|discriminate]. intros E. injection E as <- <-. eauto. Qed.

Lemma returns_call g i m r g' : returns So tof g i m r g' -> exists g1, step So tof g i m = Some g1.
Proof. intros (_ & g1 & s & E & _). eauto. Qed.
Lemma if_some {B} (b : bool) (x : option B) y : (if b then x else None) = Some y -> b = true /\ x = Some y.
Proof. destruct b; [auto|discriminate]. Qed.

Lemma computed_known g z e : computed So tof g z e -> known (core g) z e.
Proof.
  induction 1 as [g v dv|g g' z e H IH HL|g z dv e H IH|g i a n z c k g' HR Ez|g i oc n x e z c k g' Hn H IH HR Ez
    |g i oc n1 n2 x1 x2 e1 e2 z c k g' Hn1 Hn2 H1 IH1 H2 IH2 HR Ez].
  - reflexivity.
  - eapply known_mono; [|exact IH]. apply later_grows in HL. apply HL.
  - exact IH.
  - destruct (returns_call _ _ _ _ _ HR) as (g1 & E). unfold step in E. apply if_some in E as [_ E].
    destruct (nth_error (g_vars g) n) as [x|] eqn:En; [|discriminate].
    pose proof (call_returns (results (fun k => EIndep k)) _ _ _ _ _ (c_set_indep tof a x) (results_mono _) HR) as HQ.
    cbn [results] in HQ. unfold known. rewrite Ez in *. apply HQ; [|apply wp_indep].
    intros g2 E2. unfold step in E2. apply if_some in E2 as [_ E2]. rewrite En in E2. apply if_some in E2 as [_ E2]. exact E2.
  - destruct (returns_call _ _ _ _ _ HR) as (g1 & E). unfold step in E. apply if_some in E as [_ E]. apply if_some in E as [Har E].
    pose proof (call_returns (results (fun _ => EOp1 oc e)) _ _ _ _ _ (c_from_op So tof oc x None) (results_mono _) HR) as HQ.
    cbn [results] in HQ. unfold known. rewrite Ez in *. apply HQ; [|apply (wp_from_op _ oc x None e None); auto].
    intros g2 E2. unfold step in E2. apply if_some in E2 as [_ E2]. apply if_some in E2 as [_ E2]. rewrite Hn in E2. exact E2.
  - destruct (returns_call _ _ _ _ _ HR) as (g1 & E). unfold step in E. apply if_some in E as [_ E]. apply if_some in E as [Har E].
    pose proof (call_returns (results (fun _ => EOp2 oc e1 e2)) _ _ _ _ _ (c_from_op So tof oc x1 (Some x2)) (results_mono _) HR) as HQ.
    cbn [results] in HQ. unfold known. rewrite Ez in *. apply HQ; [|apply (wp_from_op _ oc x1 (Some x2) e1 (Some e2)); auto].
    intros g2 E2. unfold step in E2. apply if_some in E2 as [_ E2]. apply if_some in E2 as [_ E2]. rewrite Hn1, Hn2 in E2. exact E2.
Qed.

(** ** Replays *)
Section Replay.
Context (Fo : Fops F).

Lemma unary_not oc : unary_oc oc = true -> oc <> Nop /\ oc <> Const.
Proof. destruct oc; cbn; intros; split; congruence. Qed.
Lemma binary_not oc : binary_oc oc = true -> oc <> Nop /\ oc <> Const.
Proof. destruct oc; cbn; intros; split; congruence. Qed.

Lemma replay_denotes t x arr : wf_tape t -> values_at Fo t x arr -> forall k e, denotes (inner_of t) k e ->
  exists v, nth_error arr k = Some v /\ has_value Fo tof (t_indeps t) x e v.
Proof.
  intros W V k e. induction 1 as [k H|k s H Hv|oc k k1 e Har H D IH|oc k k1 k2 e1 e2 Har H D1 IH1 D2 IH2].
  - cbn in H. apply In_nth_error in H as [p Hp]. destruct (va_seed _ _ _ _ V p k Hp) as (a & E1 & E2).
    exists a. split; [exact E2|]. eapply hv_indep; eauto.
  - cbn in H, Hv. destruct Hv as (v & Ev1 & Ev2). exists v. split; [|apply hv_const; auto].
    rewrite <- Ev2. apply (va_keep _ _ _ _ V).
    + apply nth_error_Some. congruence.
    + intros Hi. apply (wf_indep_def _ W _ Hi). apply in_def_ids. eexists. split; [exact H|]. repeat split; cbn; congruence.
    + intros o' Ho' Ev. destruct (opcode_eqb (opcode o') Nop) eqn:E; [apply opcode_eqb_eq in E; auto|].
      left. rewrite <- (sorted_inj _ (mkOp Const k None None) o' (wf_sorted _ W)); auto; cbn; try congruence.
      intros E2; apply opcode_eqb_eq in E2; congruence.
  - destruct IH as (a & Ea & Ha). pose proof (va_op _ _ _ _ V _ H) as Q. apply unary_not in Har as [N1 N2].
    unfold value_eq in Q. cbn [opcode arg1 arg2 vid] in Q.
    assert (exists i a r, Some k1 = Some i /\ nth_error arr i = Some a /\ nth_error arr k = Some r /\
      zero_order_value Fo oc a None = Ok r) as (i & a' & r & E1 & E2 & E3 & E4) by (destruct oc; congruence || exact Q).
    injection E1 as <-. exists r. split; [exact E3|]. eapply hv_op1; eauto. congruence.
  - destruct IH1 as (a & Ea & Ha), IH2 as (b & Eb & Hb). pose proof (va_op _ _ _ _ V _ H) as Q. apply binary_not in Har as [N1 N2].
    unfold value_eq in Q. cbn [opcode arg1 arg2 vid] in Q.
    assert (exists i a r, Some k1 = Some i /\ nth_error arr i = Some a /\ nth_error arr k = Some r /\
      exists b, nth_error arr k2 = Some b /\ zero_order_value Fo oc a (Some b) = Ok r)
      as (i & a' & r & E1 & E2 & E3 & b' & E4 & E5) by (destruct oc; congruence || exact Q).
    injection E1 as <-. exists r. split; [exact E3|]. eapply hv_op2; eauto. congruence.
Qed.

Theorem one_value ids x (e : expr S) v v' : NoDup ids ->
  has_value Fo tof ids x e v -> has_value Fo tof ids x e v' -> v = v'.
Proof.
  intros N H. revert v'. induction H as [p k v E1 E2|s v E|oc e a v H IH E|oc e1 e2 a b v H1 IH1 H2 IH2 E]; intros v' H'; inversion H'; subst.
  - assert (p = p0) as <- by (eapply NoDup_nth_error; eauto; [apply nth_error_Some; congruence|congruence]). congruence.
  - congruence.
  - assert (a = a0) as <- by auto. congruence.
  - assert (a = a0) as <- by auto. assert (b = b0) as <- by auto. congruence.
Qed.

Lemma replay_tangent t x dx arr darr : wf_tape t -> values_at Fo t x arr ->
  tangents_at Fo (mkTape (t_indeps t) (t_deps t) (t_ops t) arr) dx darr ->
  forall k e, denotes (inner_of t) k e ->
  exists v d, nth_error arr k = Some v /\ nth_error darr k = Some d /\ has_tangent Fo tof (t_indeps t) x dx e v d.
Proof.
  intros W V TT k e. induction 1 as [k H|k s H Hv|oc k k1 e Har H D IH|oc k k1 k2 e1 e2 Har H D1 IH1 D2 IH2].
  - cbn in H. apply In_nth_error in H as [p Hp]. destruct (va_seed _ _ _ _ V p k Hp) as (a & E1 & E2).
    destruct (ta_seed _ _ _ _ TT p k Hp) as (d & E3 & E4).
    exists a, d. split; [exact E2|]. split; [exact E4|]. eapply ht_indep; eauto.
  - destruct (replay_denotes t x arr W V k (EConst s)) as (v & Ev & HV); [apply dn_const; auto|].
    pose proof (ta_op _ _ _ _ TT _ H) as Q. cbn in Q. exists v, (f_zero Fo). split; [exact Ev|]. split; [exact Q|].
    inversion HV; subst. apply ht_const; auto.
  - destruct IH as (a & d & Ea & Ed & Ha). pose proof (va_op _ _ _ _ V _ H) as Q. pose proof (ta_op _ _ _ _ TT _ H) as P.
    apply unary_not in Har as [N1 N2].
    unfold value_eq in Q. unfold tangent_eq in P. cbn [opcode arg1 arg2 vid t_vals] in Q, P.
    assert (exists i a r, Some k1 = Some i /\ nth_error arr i = Some a /\ nth_error arr k = Some r /\
      zero_order_value Fo oc a None = Ok r) as (i & a' & r & E1 & E2 & E3 & E4) by (destruct oc; congruence || exact Q).
    assert (exists i a d r, Some k1 = Some i /\ nth_error arr i = Some a /\ nth_error darr i = Some d /\ nth_error darr k = Some r /\
      first_order_value Fo oc a None d None = Ok r) as (i' & a'' & d' & r' & F1 & F2 & F3 & F4 & F5) by (destruct oc; congruence || exact P).
    injection E1 as <-. injection F1 as <-. exists r, r'. split; [exact E3|]. split; [exact F4|].
    eapply ht_op1; eauto; congruence.
  - destruct IH1 as (a & da & Ea & Eda & Ha), IH2 as (b & db & Eb & Edb & Hb).
    pose proof (va_op _ _ _ _ V _ H) as Q. pose proof (ta_op _ _ _ _ TT _ H) as P. apply binary_not in Har as [N1 N2].
    unfold value_eq in Q. unfold tangent_eq in P. cbn [opcode arg1 arg2 vid t_vals] in Q, P.
    assert (exists i a r, Some k1 = Some i /\ nth_error arr i = Some a /\ nth_error arr k = Some r /\
      exists b, nth_error arr k2 = Some b /\ zero_order_value Fo oc a (Some b) = Ok r)
      as (i & a' & r & E1 & E2 & E3 & b' & E4 & E5) by (destruct oc; congruence || exact Q).
    assert (exists i a d r, Some k1 = Some i /\ nth_error arr i = Some a /\ nth_error darr i = Some d /\ nth_error darr k = Some r /\
      exists b e, nth_error arr k2 = Some b /\ nth_error darr k2 = Some e /\ first_order_value Fo oc a (Some b) d (Some e) = Ok r)
      as (i' & a'' & d' & r' & F1 & F2 & F3 & F4 & b'' & e' & F5 & F6 & F7) by (destruct oc; congruence || exact P).
    injection E1 as <-. injection F1 as <-. exists r, r'. split; [exact E3|]. split; [exact F4|].
    eapply ht_op2; eauto; congruence.
Qed.

Lemma tape_returned g i a r t g' : returns So tof g i (DoTape a) (RTape t) g' -> g_arc g a = Some r ->
  wf_tape t /\ ext (a_inner r) (inner_of t).
Proof.
  intros HR Ea. eapply (call_returns (tapes (a_inner r)) _ _ _ _ _ (c_tape a)); [intros ? ? ? _ H; exact H|exact HR| | |reflexivity].
  - intros g1 E. unfold step in E. apply if_some in E as [_ E]. apply if_some in E as [_ E]. exact E.
  - eapply wp_tape. apply core_arc; eauto.
Qed.

(** A tape taken after [z] has been computed as [e] on its context evaluates [e] for [z]. *)
Theorem joint_values g z e c k a j t g' x : computed So tof g z e -> af_ctx z = Some (c, k) -> number g a c ->
  returns So tof g j (DoTape a) (RTape t) g' -> length x = num_indeps t ->
  exists t' v, tape_zero_order Fo t x = Ok t' /\ nth_error (t_vals t') k = Some v /\
    has_value Fo tof (t_indeps t) x e v /\ NoDup (t_indeps t).
Proof.
  intros HC Ez (r & Ea & Ec) HT L. pose proof (computed_known _ _ _ HC) as HK. unfold known in HK. rewrite Ez in HK.
  destruct HK as (b & i & E & D). pose proof (proj1 (returns_later _ _ _ _ _ HT)) as I.
  apply core_arc' in E as (r' & Eb & Ec' & <-).
  assert (a = b) as <- by (eapply (ids_unique So tof g); eauto; congruence).
  assert (r' = r) as -> by congruence.
  destruct (tape_returned _ _ _ _ _ _ HT Ea) as [W X].
  destruct (zero_sweep_values Fo t x W L) as (t' & E0 & _ & _ & _ & V).
  destruct (replay_denotes _ _ _ W V _ _ (denotes_ext _ _ _ _ X D)) as (v & E1 & E2).
  exists t', v. repeat split; auto. apply W.
Qed.

(** If [z] has been designated an output, some component of the replay's outputs is [e], and that
    of the forward sweep its derivative. *)
Theorem joint_outputs g n z e i a g1 g2 j t g' x dx : nth_error (g_vars g) n = Some z -> computed So tof g z e ->
  returns So tof g i (DoDep a n) RUnit g1 -> later So tof g1 g2 ->
  returns So tof g2 j (DoTape a) (RTape t) g' -> length x = num_indeps t -> length dx = num_indeps t ->
  exists t' y dy q v d, tape_zero_order Fo t x = Ok t' /\ tape_y t' = Ok y /\ tape_forward Fo t' dx = Ok dy /\
    nth_error y q = Some v /\ nth_error dy q = Some d /\ has_tangent Fo tof (t_indeps t) x dx e v d.
Proof.
  intros Hn HC HD HL HT L Ld. pose proof (computed_known _ _ _ HC) as HK.
  pose proof (proj1 (returns_later _ _ _ _ _ HD)) as I.
  destruct (returns_call _ _ _ _ _ HD) as (g0 & E). unfold step in E. apply if_some in E as [_ E].
  rewrite Hn in E. apply if_some in E as [Hh E]. clear E.
  assert (exists r, g_arc g a = Some r) as [r Er].
  { destruct I as (rho & eta & IV). unfold has in Hh. apply existsb_exists in Hh as (b & Hb & Eb).
    apply Nat.eqb_eq in Eb. subst b. eapply (iv_refs _ _ _ _ _ IV); eauto. }
  assert (an_output a (a_cid r) e (core g1)) as HO.
  { eapply (call_returns (designates a (a_cid r) e) _ _ _ _ _ (c_set_dep tof a z)); [apply designates_mono|exact HD| | |reflexivity].
    - intros g3 E3. unfold step in E3. apply if_some in E3 as [_ E3]. rewrite Hn in E3. apply if_some in E3 as [_ E3]. exact E3.
    - apply wp_dep; [|exact HK]. eexists. apply core_arc; eauto. }
  pose proof (proj2 (proj2 (later_grows _ _ HL))) as HS.
  apply (an_output_mono _ _ _ _ _ HS) in HO as (i0 & k & E & K & D).
  apply core_arc' in E as (r' & Eb & _ & <-).
  destruct (tape_returned _ _ _ _ _ _ HT Eb) as [W X].
  destruct (zero_sweep_values Fo t x W L) as (t' & E0 & A1 & A2 & A3 & V).
  assert (t' = mkTape (t_indeps t) (t_deps t) (t_ops t) (t_vals t')) as Et' by (destruct t'; cbn in *; congruence).
  assert (wf_tape t') as W' by (rewrite Et'; apply wf_tape_vals; auto; apply (va_len _ _ _ _ V)).
  destruct (forward_tangents Fo t' dx W') as (darr & dy & HTan & Ef & Eg); [unfold num_indeps in *; congruence|].
  rewrite Et' in HTan.
  destruct (replay_tangent _ _ _ _ _ W V HTan _ _ (denotes_ext _ _ _ _ X D)) as (v & d & E1 & E1' & E2).
  assert (In k (t_deps t)) as Hk by (destruct X as (_ & (l & El) & _); cbn in El; rewrite El; apply in_or_app; auto).
  apply In_nth_error in Hk as [q Hq].
  destruct (gather_ok (t_deps t') (t_vals t')) as (y & Ey).
  { intros d' Hd. rewrite A2 in Hd. rewrite (va_len _ _ _ _ V). apply (wf_dep_range _ W). exact Hd. }
  exists t', y, dy, q, v, d. split; [exact E0|]. split; [exact Ey|]. split; [exact Ef|]. rewrite <- A2 in Hq.
  rewrite (gather_nth _ _ _ _ _ Ey Hq), (gather_nth _ _ _ _ _ Eg Hq). auto.
Qed.
End Replay.

End Joint.
