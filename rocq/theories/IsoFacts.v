(** Isolation of threads: other threads never touch what one thread keeps to itself. *)
From Coq Require Import List Arith ZArith Bool Lia.
From Verif Require Import Base Float Operation Tape AContext Spec Param Api Ffi Concurrent ConcSpec Client.
Import ListNotations.

Section Only.
Context {S F : Type} (So : Fops S) (tof : S -> option F).
Notation code := (code S F). Notation sys := (sys S F).

Definition or_eq (P : nat -> Prop) (a : nat) : nat -> Prop := fun b => P b \/ b = a.

Definition af_only (P : nat -> Prop) (x : AF S) : Prop :=
  match af_ctx x with Some (c, _) => P c | None => True end.

(** The code uses only context ids in [P], addresses in [Q] and what it obtains itself. *)
Fixpoint only (P Q : nat -> Prop) (c : code) : Prop :=
  match c with
  | Ret (RVar x) => af_only P x
  | Ret _ => True
  | Fetch k => forall c, only (or_eq P c) Q (k c)
  | Alloc c k => P c /\ forall a, only P (or_eq Q a) (k a)
  | MLock k => only P Q k
  | MInsert c a k => P c /\ Q a /\ only P Q k
  | MGet c k => P c /\ only P Q (k None) /\ forall a, only P (or_eq Q a) (k (Some a))
  | MRemove a k => Q a /\ only P Q k
  | MUnlock k => only P Q k
  | Upgrade a k => Q a /\ forall b, only P Q (k b)
  | Decr a k => Q a /\ forall b, only P Q (k b)
  | Lock a k => Q a /\ forall b, only P Q (k b)
  | Access a f k => Q a /\ forall c i, only (or_eq P c) Q (k c i)
  | Unlock a p k => Q a /\ only P Q k
  end.

Definition sub (P P' : nat -> Prop) : Prop := forall a, P a -> P' a.
Lemma sub_or P P' a : sub P P' -> sub (or_eq P a) (or_eq P' a).
Proof. intros H b [Hb|Hb]; [left; auto|right; auto]. Qed.
Lemma sub_in P P' a : sub P P' -> P' a -> sub (or_eq P a) P'.
Proof. intros H Ha b [Hb|Hb]; [auto|congruence]. Qed.
Lemma sub_refl P : sub P P. Proof. intros a; auto. Qed.
Lemma sub_l P a : sub P (or_eq P a). Proof. intros b; left; auto. Qed.

Lemma af_only_mono P P' x : sub P P' -> af_only P x -> af_only P' x.
Proof. unfold af_only. destruct (af_ctx x) as [[c v]|]; auto. Qed.

Lemma only_mono c : forall P P' Q Q', sub P P' -> sub Q Q' -> only P Q c -> only P' Q' c.
Proof.
  induction c as [r|k IH|c k IH|k IH|c a k IH|c k IH|a k IH|k IH|a k IH|a k IH|a k IH|a f k IH|a p k IH];
    intros P P' Q Q' HP HQ; cbn.
  - destruct r; auto. apply af_only_mono; auto.
  - intros H c. eapply IH; [apply sub_or; eauto|eauto|auto].
  - intros [H1 H2]. split; auto. intros a. eapply IH; [eauto|apply sub_or; eauto|auto].
  - apply IH; auto.
  - intros (H1 & H2 & H3). split; [auto|]. split; [auto|]. eapply IH; eauto.
  - intros (H1 & H2 & H3). split; [auto|]. split; [eapply IH; eauto|].
    intros a. eapply IH; [eauto|apply sub_or; eauto|auto].
  - intros [H1 H2]. split; auto. eapply IH; eauto.
  - apply IH; auto.
  - intros [H1 H2]. split; auto. intros b. eapply IH; eauto.
  - intros [H1 H2]. split; auto. intros b. eapply IH; eauto.
  - intros [H1 H2]. split; auto. intros b. eapply IH; eauto.
  - intros [H1 H2]. split; auto. intros c i. eapply IH; [apply sub_or; eauto|eauto|auto].
  - intros [H1 H2]. split; auto. eapply IH; eauto.
Qed.

Lemma only_crit {B} (P Q : nat -> Prop) a (body : nat -> inner F -> res (B * inner F)) (k : res B -> code) :
  Q a -> (forall p, only P Q (k (Panic p))) ->
  (forall c i b i', body c i = Ok (b, i') -> only (or_eq P c) Q (k (Ok b))) ->
  only P Q (crit a body k).
Proof.
  intros Ha HP HO. cbn. split; [auto|]. intros [|]; cbn; [auto|]. split; [auto|]. intros c i.
  destruct (body c i) as [[b i']|p] eqn:E; cbn; split; auto.
  - eapply HO; eauto.
  - eapply only_mono; [apply sub_l|apply sub_refl|auto].
Qed.

Lemma only_drop (P Q : nat -> Prop) a k : Q a -> only P Q k -> only P Q (c_drop a k).
Proof. intros Ha Hk. cbn. split; auto. intros [|]; cbn; auto. Qed.

Lemma only_ensure (P Q : nat -> Prop) a x k : Q a -> (forall r, only P Q (k r)) -> only P Q (c_ensure tof a x k).
Proof.
  intros Ha Hk. unfold c_ensure. destruct (af_ctx x) as [[c v]|]; auto.
  apply only_crit; auto. intros c i b i' _. eapply only_mono; [apply sub_l|apply sub_refl|auto].
Qed.

Lemma only_indep (P Q : nat -> Prop) a x : Q a -> only P Q (c_set_indep tof a x).
Proof.
  intros Ha. apply only_crit; cbn; auto. intros c i b i'. unfold body_indep.
  destruct (tof (af_v x)); cbn; [|discriminate]. intros [= <- _]. cbn. right. auto.
Qed.
Lemma only_dep (P Q : nat -> Prop) a x : Q a -> only P Q (c_set_dep tof a x).
Proof. intros Ha. apply only_crit; cbn; auto. Qed.
Lemma only_tape (P Q : nat -> Prop) a : Q a -> only P Q (c_tape a).
Proof.
  intros Ha. unfold c_tape. apply only_crit; [auto|intros p; exact I|]. intros c1 j1 b1 j1' _.
  apply only_crit; [auto|intros p; exact I|]. intros c2 j2 b2 j2' _.
  apply only_crit; [auto|intros p; exact I|]. intros c3 j3 b3 j3' _.
  apply only_crit; [auto|intros p; exact I|]. intros c4 j4 b4 j4' _. exact I.
Qed.
Lemma only_new (P Q : nat -> Prop) : only P Q c_new.
Proof.
  intros c. split; [right; auto|]. intros a. cbn. split; [right; auto|]. split; [right; auto|auto].
Qed.
Lemma only_lookup (P Q : nat -> Prop) c : P c -> only P Q (c_from_cid c (fun _ => Ret RUnit)).
Proof.
  intros Hc. cbn. split; [auto|]. split; [auto|]. intros a. split; [right; auto|]. intros [|]; exact I.
Qed.

Lemma pick_only P x y c : af_only P x -> (forall y', y = Some y' -> af_only P y') ->
  pick_cid x y = Ok (Some c) -> P c.
Proof.
  unfold pick_cid, af_only. intros Hx Hy. destruct (af_ctx x) as [[c1 v1]|].
  - destruct y as [y|]; [|intros [= <-]; auto]. specialize (Hy y eq_refl).
    destruct (af_ctx y) as [[c2 v2]|]; [|intros [= <-]; auto].
    unfold assert. destruct (c2 =? c1); cbn; [|discriminate]. intros [= <-]; auto.
  - destruct y as [y|]; [|discriminate]. specialize (Hy y eq_refl).
    destruct (af_ctx y) as [[c2 v2]|]; [|discriminate]. intros [= <-]; auto.
Qed.

Lemma only_from_op (P Q : nat -> Prop) oc x y : af_only P x -> (forall y', y = Some y' -> af_only P y') ->
  only P Q (c_from_op So tof oc x y).
Proof.
  intros Hx Hy. unfold c_from_op. destruct (zero_order_value _ _ _ _) as [v|]; [|exact I].
  destruct (first_order_value _ _ _ _ _ _) as [dv|]; [|exact I].
  destruct (pick_cid x y) as [[c|]|] eqn:Ep; [|exact I|exact I].
  pose proof (pick_only P x y c Hx Hy Ep) as Hc.
  cbn. split; [auto|]. split; [exact I|]. intros a. split; [right; auto|]. intros [|]; [|exact I].
  assert (or_eq Q a a) as Ha by (right; auto).
  assert (forall i1 i2, only P (or_eq Q a) (crit a (body_record tof oc v (Some i1) i2) (fun r =>
    match r with
    | Panic p => c_drop a (Ret (RPanic p))
    | Ok vid => c_drop a (Ret (RVar (mkAF v dv (Some (c, vid)))))
    end))) as HL.
  { intros i1 i2. apply only_crit; auto.
    - intros p. apply only_drop; cbn; auto.
    - intros c' i b i' _. apply only_drop; auto. cbn. left. auto. }
  apply only_ensure; auto. intros [i1|p]; [|apply only_drop; cbn; auto].
  destruct y as [y|]; [|apply HL].
  apply only_ensure; auto. intros [i2|p]; [apply HL|apply only_drop; cbn; auto].
Qed.

End Only.
