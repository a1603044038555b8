(** Which calls freeze a context, several threads. *)
From Coq Require Import List Arith ZArith Bool Lia.
From Verif Require Import Base Float Operation Tape AContext AContextFacts Spec TapeFacts Ffi FfiFacts
  Concurrent ConcSpec ConcFacts ConcInv ConcMain JointSpec JointFacts ConcPoison.
Import ListNotations.

Section PanicConc.
Context {S F : Type} (So : Fops S) (tof : S -> option F).
Notation code := (code S F). Notation sys := (sys S F). Notation thread := (thread S F).
Notation inv := (inv So tof).
Implicit Types (g : sys).
Context (c0 : nat).

(** If the code panics, context number [c0] is poisoned then; [A]: addresses known to be its,
    [P]: it is known to be poisoned. *)
Fixpoint pz (A : nat -> Prop) (P : Prop) (c : code) : Prop :=
  match c with
  | Ret o => P \/ forall p, o <> RPanic p
  | Fetch k => forall c, pz A P (k c)
  | Alloc _ k => forall a, pz A P (k a)
  | MLock k | MInsert _ _ k | MRemove _ k | MUnlock k => pz A P k
  | MGet c k => pz A P (k None) /\ forall a, pz (fun b => A b \/ c = c0 /\ b = a) P (k (Some a))
  | Upgrade _ k | Decr _ k => forall b, pz A P (k b)
  | Lock a k => pz A (P \/ A a) (k true) /\ pz A P (k false)
  | Access _ _ k => forall c i, pz A P (k c i)
  | Unlock a p k => pz A (P \/ p = true /\ A a) k
  end.

Definition bad g : Prop := exists a r, g_arc g a = Some r /\ a_cid r = c0 /\ a_poison r = true.
Definition knows g (A : nat -> Prop) (P : Prop) : Prop :=
  (forall a, A a -> exists r, g_arc g a = Some r /\ a_cid r = c0) /\ (P -> bad g).
Definition runs g i : Prop :=
  t_code (g_thr g i) = None \/ exists c A P, t_code (g_thr g i) = Some c /\ pz A P c /\ knows g A P.

Lemma arc_step g j m g' a r : inv g -> step So tof g j m = Some g' -> g_arc g a = Some r ->
  exists r', g_arc g' a = Some r' /\ a_cid r' = a_cid r.
Proof.
  intros I H Ha. destruct (match m with Go => true | _ => false end) eqn:Em.
  2: { exists r. rewrite (calls_arc _ _ _ _ _ _ H); [auto|]. intros ->. discriminate. }
  destruct m; try discriminate. unfold step in H. apply if_some in H as [_ H]. unfold micro in H.
  destruct (t_code (g_thr g j)) as [cd|] eqn:Hc; [|discriminate].
  destruct cd as [ro|k|d k|k|d b k|d k|b k|k|b k|b k|b k|b f k|b p k].
  - injection H as <-. exists r. auto.
  - injection H as <-. exists r. auto.
  - injection H as <-. exists r. cbn. rewrite upd_ne; auto. intros ->. destruct I as (rho & eta & I).
    rewrite (iv_addr _ _ _ _ _ I) in Ha by lia. discriminate.
  - destruct (g_mlock g); [discriminate|]. injection H as <-. exists r. auto.
  - injection H as <-. exists r. auto.
  - injection H as <-. exists r. auto.
  - destruct (g_arc g b); [|discriminate]. injection H as <-. exists r. auto.
  - injection H as <-. exists r. auto.
  - destruct (owned g b); injection H as <-; exists r; auto.
  - injection H as <-. exists r. auto.
  - destruct (g_arc g b) as [q|] eqn:Eb; [|discriminate]. destruct (a_lock q) eqn:El; [discriminate|]. injection H as <-.
    cbn. unfold upd. destruct (Nat.eqb_spec a b) as [->|]; [|exists r; auto].
    assert (q = r) as -> by congruence. eexists. split; [reflexivity|]. auto.
  - destruct (g_arc g b) as [q|] eqn:Eb; [|discriminate]. injection H as <-.
    cbn. unfold upd. destruct (Nat.eqb_spec a b) as [->|]; [|exists r; auto].
    assert (q = r) as -> by congruence. eexists. split; [reflexivity|]. auto.
  - destruct (g_arc g b) as [q|] eqn:Eb; [|discriminate]. injection H as <-.
    cbn. unfold upd. destruct (Nat.eqb_spec a b) as [->|]; [|exists r; auto].
    assert (q = r) as -> by congruence. eexists. split; [reflexivity|]. auto.
Qed.

Lemma bad_step g j m g' : inv g -> all_sane g -> bad g -> step So tof g j m = Some g' -> bad g'.
Proof.
  intros I HS (a & r & Ha & Hr & Hp) E.
  assert (frozen g a c0 (a_inner r)) as Fr by (exists r; auto).
  destruct (frozen_step So tof _ _ _ _ _ _ _ I HS Fr E) as (r' & Ha' & Hr' & _ & Hp'). exists a, r'. auto.
Qed.

Lemma knows_step g j m g' A P : inv g -> all_sane g -> knows g A P -> step So tof g j m = Some g' -> knows g' A P.
Proof.
  intros I HS [K1 K2] E. split.
  - intros a H. destruct (K1 a H) as (r & Ha & Hr). destruct (arc_step _ _ _ _ _ _ I E Ha) as (r' & Ha' & Hr').
    exists r'. split; [auto|congruence].
  - intros H. eapply bad_step; eauto.
Qed.

Lemma pz_micro g i c A P g' : inv g -> all_sane g -> i < g_n g -> t_code (g_thr g i) = Some c -> pz A P c -> knows g A P ->
  micro g i = Some g' -> runs g' i.
Proof.
  intros I HS Hi Hc HW HK E.
  assert (step So tof g i Go = Some g') as ES.
  { unfold step. replace (i <? g_n g) with true by (symmetry; now apply Nat.ltb_lt). exact E. }
  assert (forall A P, knows g A P -> knows g' A P) as HK' by (intros; eapply knows_step; eauto).
  unfold micro in E. rewrite Hc in E. unfold runs.
  destruct c as [ro|k|c k|k|c a k|c k|a k|k|a k|a k|a k|a f k|a p k]; cbn [pz] in HW.
  - injection E as <-. left. cbn. now rewrite upd_eq.
  - injection E as <-. right. cbn. rewrite upd_eq. cbn. exists (k (g_next g)), A, P. auto.
  - injection E as <-. right. cbn. rewrite upd_eq. cbn. exists (k (g_anext g)), A, P. auto.
  - destruct (g_mlock g); [discriminate|]. injection E as <-. right. cbn. rewrite upd_eq. cbn. exists k, A, P. auto.
  - injection E as <-. right. cbn. rewrite upd_eq. cbn. exists k, A, P. auto.
  - injection E as <-. right. cbn. rewrite upd_eq. cbn.
    destruct (g_map g c) as [a|] eqn:Em.
    + exists (k (Some a)), (fun b => A b \/ c = c0 /\ b = a), P. split; [reflexivity|]. split; [apply HW|]. apply HK'.
      destruct HK as [K1 K2]. split; [|exact K2]. intros b [Hb|[-> ->]]; [auto|].
      destruct (entries_exact _ _ _ _ _ I Em) as (r & E1 & E2 & _). exists r. auto.
    + exists (k None), A, P. split; [reflexivity|]. split; [apply HW|]. auto.
  - destruct (g_arc g a); [|discriminate]. injection E as <-. right. cbn. rewrite upd_eq. cbn. exists k, A, P. auto.
  - injection E as <-. right. cbn. rewrite upd_eq. cbn. exists k, A, P. auto.
  - destruct (owned g a); injection E as <-; right; cbn; rewrite upd_eq; cbn; [exists (k true), A, P|exists (k false), A, P]; auto.
  - injection E as <-. right. cbn. rewrite upd_eq. cbn. eexists _, A, P. split; [reflexivity|]. auto.
  - destruct (g_arc g a) as [r|] eqn:Ea; [|discriminate]. destruct (a_lock r); [discriminate|].
    injection E as <-. right. cbn. rewrite upd_eq. cbn.
    destruct (a_poison r) eqn:Ep.
    + exists (k true), A, (P \/ A a). split; [reflexivity|]. split; [apply HW|]. apply HK'. destruct HK as [K1 K2]. split; [exact K1|].
      intros [H|H]; [auto|]. destruct (K1 a H) as (r' & Er & Hr). assert (r' = r) as -> by congruence. exists a, r. auto.
    + exists (k false), A, P. split; [reflexivity|]. split; [apply HW|]. auto.
  - destruct (g_arc g a) as [r|] eqn:Ea; [|discriminate]. injection E as <-. right. cbn. rewrite upd_eq. cbn.
    eexists _, A, P. split; [reflexivity|]. split; [apply HW|]. auto.
  - destruct (g_arc g a) as [r|] eqn:Ea; [|discriminate]. pose proof (HK' _ _ HK) as HK2. injection E as <-. right. cbn. rewrite upd_eq. cbn.
    exists k, A, (P \/ p = true /\ A a). split; [reflexivity|]. split; [exact HW|]. split; [apply HK2|].
    intros [H|[-> H]]; [apply HK2; auto|]. destruct (proj1 HK a H) as (r' & Er & Hr). assert (r' = r) as -> by congruence.
    exists a. cbn. rewrite upd_eq. eexists. split; [reflexivity|]. cbn. rewrite orb_true_r. auto.
Qed.

Lemma pz_play i s : forall g g', inv g -> all_sane g -> i < g_n g -> carries_on i s ->
  play So tof g s = Some g' -> runs g i -> runs g' i.
Proof.
  induction s as [|[j m] s IH]; cbn; intros g g' I HS Hi C P H.
  - injection P as <-. exact H.
  - destruct (step So tof g j m) as [g1|] eqn:E; [|discriminate]. inversion C as [|? ? [C1 C2] C3]; subst. cbn in *.
    apply (IH g1); auto.
    + eapply inv_step; eauto.
    + eapply sane_step; eauto.
    + apply n_mono in E. lia.
    + destruct (Nat.eq_dec j i) as [->|N].
      * rewrite C1 in E by auto. unfold step in E. apply if_some in E as [_ E].
        destruct H as [H|(c & A & Q & H & HW & HK)].
        -- unfold micro in E. rewrite H in E. discriminate.
        -- eapply pz_micro; eauto.
      * destruct H as [H|(c & A & Q & H & HW & HK)].
        -- left. rewrite (code_other _ _ _ _ _ _ _ I E N). exact H.
        -- right. exists c, A, Q. rewrite (code_other _ _ _ _ _ _ _ I E N). split; [exact H|]. split; [exact HW|].
           eapply knows_step; eauto.
Qed.

Lemma pz_returns g i m p g' c A : returns So tof g i m (RPanic p) g' ->
  (forall g1, step So tof g i m = Some g1 -> begin g i c = Some g1) -> knows g A False -> pz A False c -> bad g'.
Proof.
  intros (R & g1 & s & E & C & P & HR) HB HK HW.
  pose proof (reach_inv So tof _ R) as I. pose proof (HB _ E) as HB1. pose proof (inv_step _ _ _ _ _ _ E I) as I1.
  pose proof (reachable_sane _ _ _ R) as HS.
  pose proof (sane_step _ _ _ _ _ _ I HS E) as HS1. pose proof (knows_step _ _ _ _ _ _ I HS HK E) as HK1.
  assert (i < g_n g) as Hi by (clear - E; unfold step in E; apply if_some in E as [E _]; apply Nat.ltb_lt in E; exact E).
  unfold begin in HB1. destruct (t_code (g_thr g i)); [discriminate|]. injection HB1 as <-.
  destruct (pz_play i s _ _ I1 HS1 Hi C P) as [H|(c' & A' & P' & H & HQ & HK2)].
  - right. exists c, A, False. cbn. rewrite upd_eq. split; [reflexivity|]. split; [exact HW|exact HK1].
  - congruence.
  - rewrite HR in H. injection H as <-. destruct HQ as [HQ|HQ]; [apply HK2, HQ|]. destruct (HQ p eq_refl).
Qed.

Lemma pz_mono c : forall (A A' : nat -> Prop) (P P' : Prop), (forall a, A a -> A' a) -> (P -> P') -> pz A P c -> pz A' P' c.
Proof.
  induction c; cbn; intros A A' P P' HA HP HZ; eauto.
  - destruct HZ; auto.
  - destruct HZ as [H1 H2]. split; [eauto|]. intros a. eapply H; [| |apply H2]; auto. intros b [Hb|Hb]; auto.
  - destruct HZ as [H1 H2]. split; [|eauto]. eapply H; [| |apply H1]; auto. intros [Hb|Hb]; auto.
  - eapply IHc; [| |apply HZ]; auto. intros [Hb|[Hb Hc]]; auto.
Qed.
Lemma pz_true c : forall (A : nat -> Prop) (P : Prop), P -> pz A P c.
Proof. induction c; cbn; intros A P HP; auto. Qed.

Lemma pz_crit {B} (A : nat -> Prop) (P : Prop) a (body : nat -> inner F -> res (B * inner F)) (k : res B -> code) : A a ->
  (forall b, pz A P (k (Ok b))) -> pz A P (crit a body k).
Proof.
  intros Ha Hk. cbn. split; [apply pz_true; auto|]. intros c i. destruct (body c i) as [[b i']|p]; cbn.
  - eapply pz_mono; [| |apply (Hk b)]; auto.
  - apply pz_true. auto.
Qed.
Lemma pz_drop (A : nat -> Prop) (P : Prop) a k : pz A P k -> pz A P (c_drop a k).
Proof. intros H. cbn. intros [|]; cbn; auto. Qed.
Lemma pz_lookup (A : nat -> Prop) (P : Prop) (k : option nat -> code) : pz A P (k None) ->
  (forall a, pz (fun b => A b \/ b = a) P (k (Some a))) -> pz A P (c_from_cid c0 k).
Proof.
  intros H1 H2. cbn. split; [exact H1|]. intros a [|]; cbn.
  - eapply pz_mono; [| |apply (H2 a)]; auto. intros b [Hb|Hb]; auto.
  - eapply pz_mono; [| |apply H1]; auto.
Qed.

Lemma pz_op oc x y : arity_ok oc y -> pick_cid x y = Ok (Some c0) -> pz (fun _ => False) False (c_from_op So tof oc x y).
Proof.
  intros Ho Hp. unfold c_from_op.
  destruct (zero_order_value_total So oc (af_v x) (option_map af_v y)) as [v ->].
  { destruct y; cbn in *; [right; split; auto; discriminate | auto]. }
  destruct (first_order_value_total So oc (af_v x) (option_map af_v y) (af_dv x) (option_map af_dv y)) as [dv ->].
  { destruct y; cbn in *; [right; repeat split; auto; discriminate | auto]. }
  rewrite Hp. apply pz_lookup; [cbn; right; discriminate|]. intros a.
  assert (forall i1 i2, pz (fun b => False \/ b = a) False (crit a (body_record tof oc v (Some i1) i2) (fun r =>
    match r with Panic p => c_drop a (Ret (RPanic p)) | Ok vid => c_drop a (Ret (RVar (mkAF v dv (Some (c0, vid))))) end))) as HL.
  { intros i1 i2. apply pz_crit; [auto|]. intros b. apply pz_drop. cbn. right. discriminate. }
  assert (forall z (k : res nat -> code), (forall n, pz (fun b => False \/ b = a) False (k (Ok n))) ->
    pz (fun b => False \/ b = a) False (c_ensure tof a z k)) as HE.
  { intros z k H2. unfold c_ensure. destruct (af_ctx z) as [[? n]|]; [apply H2|]. apply pz_crit; auto. }
  apply HE. intros i1. destruct y as [y'|]; [|apply HL]. apply HE. intros i2. apply HL.
Qed.
End PanicConc.

Section Main.
Context {S F : Type} (So : Fops S) (tof : S -> option F).
Implicit Types (g : sys S F).

Theorem call_panic_freezes g i m p g' a : returns So tof g i m (RPanic p) g' ->
  (m = DoTape a \/ exists n, m = DoIndep a n \/ m = DoDep a n) ->
  exists r, g_arc g' a = Some r /\ a_poison r = true.
Proof.
  intros HR Hm. destruct (returns_call _ _ _ _ _ _ _ HR) as (g1 & E). pose proof HR as (R & _).
  pose proof (reach_inv So tof _ R) as I.
  assert (exists r, g_arc g a = Some r) as (r & Ha).
  { assert (In a (t_refs (g_thr g i))) as Hi.
    { unfold step in E. apply if_some in E as [_ E].
      destruct Hm as [->|(n & [-> | ->])]; [|destruct (nth_error (g_vars g) n); [|discriminate]..];
      apply if_some in E as [E _]; apply existsb_exists in E as (b & Hb & Eb); apply Nat.eqb_eq in Eb; now subst b. }
    destruct I as (rho & eta & I). eapply iv_refs; eauto. }
  assert (forall c, (forall g1, step So tof g i m = Some g1 -> begin g i c = Some g1) -> pz (a_cid r) (fun b => b = a) False c ->
    exists r', g_arc g' a = Some r' /\ a_poison r' = true) as HQ.
  { intros c HB HZ. destruct (pz_returns So tof (a_cid r) g i m p g' c (fun b => b = a) HR HB) as (b & r' & Hb & Hc & Hp).
    - split; [|tauto]. intros b ->. exists r. auto.
    - exact HZ.
    - destruct (returns_later _ _ _ _ _ _ _ HR) as (_ & I' & _).
      destruct HR as (_ & g2 & s & E2 & _ & P & _).
      destruct (recordings_grow So tof ((i, m) :: s) g g' a r I) as (ra & Hra & Hca & _); [cbn; rewrite E2; exact P|exact Ha|].
      assert (b = a) as -> by (eapply (ids_unique So tof g' b a r' ra); eauto; congruence).
      exists r'. auto. }
  destruct Hm as [->|(n & [-> | ->])].
  - apply (HQ (c_tape a)).
    + intros g2 E2. unfold step in E2. apply if_some in E2 as [_ E2]. apply if_some in E2 as [_ E2]. exact E2.
    + unfold c_tape. repeat (apply pz_crit; [reflexivity|]; intros ?). cbn. right. discriminate.
  - unfold step in E. apply if_some in E as [_ E]. destruct (nth_error (g_vars g) n) as [x|] eqn:En; [|discriminate].
    apply (HQ (c_set_indep tof a x)).
    + intros g2 E2. unfold step in E2. apply if_some in E2 as [_ E2]. rewrite En in E2. apply if_some in E2 as [_ E2]. exact E2.
    + apply pz_crit; [reflexivity|]. intros b. cbn. right. discriminate.
  - unfold step in E. apply if_some in E as [_ E]. destruct (nth_error (g_vars g) n) as [x|] eqn:En; [|discriminate].
    apply (HQ (c_set_dep tof a x)).
    + intros g2 E2. unfold step in E2. apply if_some in E2 as [_ E2]. rewrite En in E2. apply if_some in E2 as [_ E2]. exact E2.
    + apply pz_crit; [reflexivity|]. intros b. cbn. right. discriminate.
Qed.

(** The variables an operation is applied to. *)
Definition operand g (n : nat) (y : option nat) (z : AF S) : Prop :=
  nth_error (g_vars g) n = Some z \/ exists j, y = Some j /\ nth_error (g_vars g) j = Some z.

Theorem op_panic_freezes g i oc n y p g' : returns So tof g i (DoOp oc n y) (RPanic p) g' ->
  (exists x z c1 k1 c2 k2, operand g n y x /\ operand g n y z /\ af_ctx x = Some (c1, k1) /\ af_ctx z = Some (c2, k2) /\ c1 <> c2) \/
  (exists z c k a r, operand g n y z /\ af_ctx z = Some (c, k) /\ g_arc g' a = Some r /\ a_cid r = c /\ a_poison r = true).
Proof.
  intros HR. destruct (returns_call _ _ _ _ _ _ _ HR) as (g1 & E). unfold step in E. apply if_some in E as [_ E].
  apply if_some in E as [Ho E]. destruct (nth_error (g_vars g) n) as [x|] eqn:En; [|discriminate].
  assert (exists b, match y with None => Some None
     | Some j => match nth_error (g_vars g) j with Some b => Some (Some b) | None => None end end = Some b) as [b Eb].
  { destruct y as [j|]; [destruct (nth_error (g_vars g) j); [|discriminate]|]; eauto. }
  assert (forall g1, step So tof g i (DoOp oc n y) = Some g1 -> begin g i (c_from_op So tof oc x b) = Some g1) as HB.
  { intros g2 E2. unfold step in E2. apply if_some in E2 as [_ E2]. apply if_some in E2 as [_ E2]. rewrite En in E2.
    destruct y as [j|]; [destruct (nth_error (g_vars g) j); [|discriminate]|]; injection Eb as <-; exact E2. }
  assert (forall z, b = Some z -> exists j, y = Some j /\ nth_error (g_vars g) j = Some z) as HZ.
  { intros z ->. destruct y as [j|]; [|discriminate]. exists j. split; auto. destruct (nth_error (g_vars g) j); congruence. }
  assert (arity_ok oc b) as Hb.
  { unfold right_arity in Ho. destruct y as [j|]; [destruct (nth_error (g_vars g) j); [|discriminate]|]; injection Eb as <-; exact Ho. }
  clear E Eb. destruct (pick_cid x b) as [[c|]|q] eqn:Ep.
  - right. destruct (pz_returns So tof c g i _ p g' _ (fun _ => False) HR HB) as (a & r & H1 & H2 & H3).
    + split; tauto.
    + apply pz_op; auto.
    + destruct (pick_cid_some _ _ _ Ep) as (_ & _ & k & [H|(z & Ez & H)]).
      * exists x, c, k, a, r. split; [left; auto|auto].
      * exists z, c, k, a, r. split; [right; auto|auto].
  - exfalso. destruct (pz_returns So tof (g_next g') g i _ p g' _ (fun _ => False) HR HB) as (a & r & H1 & H2 & H3).
    + split; tauto.
    + unfold c_from_op.
      destruct (zero_order_value_total So oc (af_v x) (option_map af_v b)) as [v ->].
      { destruct b; cbn in *; [right; split; auto; discriminate | auto]. }
      destruct (first_order_value_total So oc (af_v x) (option_map af_v b) (af_dv x) (option_map af_dv b)) as [dv ->].
      { destruct b; cbn in *; [right; repeat split; auto; discriminate | auto]. }
      rewrite Ep. cbn. right. discriminate.
    + destruct (returns_later _ _ _ _ _ _ _ HR) as (_ & (rho & eta & I') & _).
      pose proof (iv_cid _ _ _ _ _ I' _ _ H1). lia.
  - left. unfold pick_cid in Ep. destruct b as [b|]; [|discriminate].
    destruct (af_ctx b) as [[c2 k2]|] eqn:Eb2; [|discriminate].
    destruct (af_ctx x) as [[c1 k1]|] eqn:Ea1; [|discriminate].
    destruct (Nat.eqb_spec c2 c1) as [->|N]; [discriminate|].
    exists x, b, c1, k1, c2, k2. split; [left; auto|]. split; [right; auto|]. repeat (split; [auto|]). congruence.
Qed.
End Main.
