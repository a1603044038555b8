(** A relational ("logical relations") theorem for user functions: if the primitive operation
    of two instances of Methods.v is simulated, so is every user function and every chain. *)
From Coq Require Import List Arith ZArith Bool Lia.
From Verif Require Import Base Float Operation Tape AContext Methods Function Spec.
Import ListNotations.

(** The shapes in which afloat.rs calls [from_op]. *)
Definition arity_ok {V : Type} (oc : OpCode) (y : option V) : Prop :=
  match y with
  | Some _ => binary_oc oc = true
  | None => unary_oc oc = true
  end.

Definition orel {A B : Type} (R : A -> B -> Prop) (a : option A) (b : option B) : Prop :=
  match a, b with
  | Some x, Some y => R x y
  | None, None => True
  | _, _ => False
  end.

Lemma Forall2_get {A B} (R : A -> B -> Prop) l1 l2 i :
  Forall2 R l1 l2 ->
  match get l1 i, get l2 i with
  | Ok a, Ok b => R a b
  | Panic p, Panic q => p = q
  | _, _ => False
  end.
Proof.
  intros H; revert i; induction H as [|a b l1 l2 HR H IH]; intros [|i]; cbn; auto.
  apply IH.
Qed.

Lemma Forall2_impl {A B} (R R' : A -> B -> Prop) l1 l2 :
  (forall a b, R a b -> R' a b) -> Forall2 R l1 l2 -> Forall2 R' l1 l2.
Proof. intros HR H; induction H; constructor; auto. Qed.

Lemma Forall2_length_eq {A B} (R : A -> B -> Prop) l1 l2 :
  Forall2 R l1 l2 -> length l1 = length l2.
Proof. induction 1; simpl; auto. Qed.

Section Param.
Context {Sc W V1 St1 V2 St2 : Type} (So : Fops Sc).
Context (fop1 : OpCode -> V1 -> option V1 -> M St1 V1) (cst1 : Sc -> V1) (val1 : V1 -> Sc).
Context (fop2 : OpCode -> V2 -> option V2 -> M St2 V2) (cst2 : Sc -> V2) (val2 : V2 -> Sc).
(** [exact]: the second run also panics whenever the first does, for the same reason. *)
Context (exact : bool).
Context (le : W -> W -> Prop) (RS : W -> St1 -> St2 -> Prop) (RV : W -> V1 -> V2 -> Prop).

Hypothesis le_refl : forall w, le w w.
Hypothesis le_trans : forall a b c, le a b -> le b c -> le a c.
Hypothesis RV_mono : forall a b x y, le a b -> RV a x y -> RV b x y.

Definition simM {A B : Type} (RA : W -> A -> B -> Prop) (w : W) (m1 : M St1 A) (m2 : M St2 B)
  : Prop :=
  forall s1 s2, RS w s1 s2 ->
  match m1 s1 with
  | Ok (a, s1') =>
      exists b s2' w', m2 s2 = Ok (b, s2') /\ le w w' /\ RS w' s1' s2' /\ RA w' a b
  | Panic p => exact = true -> m2 s2 = Panic p
  end.

Hypothesis H_fop : forall w oc x1 y1 x2 y2,
  arity_ok oc y1 -> RV w x1 x2 -> orel (RV w) y1 y2 ->
  simM RV w (fop1 oc x1 y1) (fop2 oc x2 y2).
Hypothesis H_cst : forall w c, RV w (cst1 c) (cst2 c).

Lemma simM_ret {A B} (RA : W -> A -> B -> Prop) w a b :
  RA w a b -> simM RA w (mret a) (mret b).
Proof.
  intros H s1 s2 Hs. cbn. exists b, s2, w. auto.
Qed.

Lemma simM_panic {A B} (RA : W -> A -> B -> Prop) w p :
  simM RA w (mlift (Panic p)) (mlift (Panic p)).
Proof. intros s1 s2 Hs; cbn; auto. Qed.

Lemma simM_bind {A B A' B'} (RA : W -> A -> B -> Prop) (RB : W -> A' -> B' -> Prop) w m1 m2 k1 k2 :
  simM RA w m1 m2 ->
  (forall w' a b, le w w' -> RA w' a b -> simM RB w' (k1 a) (k2 b)) ->
  simM RB w (mbind m1 k1) (mbind m2 k2).
Proof.
  intros Hm Hk s1 s2 Hs. unfold mbind. specialize (Hm s1 s2 Hs).
  destruct (m1 s1) as [[a s1']|p].
  - destruct Hm as (b & s2' & w' & -> & Hle & Hs' & Hab).
    specialize (Hk w' a b Hle Hab s1' s2' Hs').
    destruct (k1 a s1') as [[a' s1'']|p].
    + destruct Hk as (b' & s2'' & w'' & -> & Hle' & Hs'' & Hab').
      exists b', s2'', w''. eauto 6.
    + exact Hk.
  - intros He. rewrite (Hm He). reflexivity.
Qed.

Lemma simM_bind_get {A' B'} (RB : W -> A' -> B' -> Prop) w env1 env2 i k1 k2 :
  Forall2 (RV w) env1 env2 ->
  (forall a b, RV w a b -> simM RB w (k1 a) (k2 b)) ->
  simM RB w (mbind (mlift (get env1 i)) k1) (mbind (mlift (get env2 i)) k2).
Proof.
  intros He Hk s1 s2 Hs. unfold mbind, mlift.
  pose proof (Forall2_get _ _ _ i He) as Hg.
  destruct (get env1 i) as [a|p], (get env2 i) as [b|q]; try contradiction.
  - apply Hk; auto.
  - subst; auto.
Qed.

Lemma simM_op w oc x1 y1 x2 y2 :
  arity_ok oc y1 -> RV w x1 x2 -> orel (RV w) y1 y2 ->
  simM RV w (fop1 oc x1 y1) (fop2 oc x2 y2).
Proof. auto. Qed.

Ltac mono :=
  match goal with
  | [ H : RV ?a ?x ?y, L : le ?a ?b |- RV ?b ?x ?y ] => apply (RV_mono _ _ _ _ L H)
  | _ => solve [eauto using RV_mono]
  end.
Ltac step :=
  match goal with
  | |- simM _ _ (mbind _ _) (mbind _ _) =>
      eapply simM_bind; [step | intros ? ? ? ? ?; cbv beta; step]
  | |- simM _ _ (_ _ _ _) (_ _ _ _) =>
      apply simM_op; [reflexivity | try mono | cbn; try mono; try exact I]
  end.

Lemma sim_meth1 w u x1 x2 :
  RV w x1 x2 -> simM RV w (meth1 So fop1 cst1 u x1) (meth1 So fop2 cst2 u x2).
Proof.
  intros H; destruct u; cbn [meth1];
    unfold m_neg, m_recip, m_powi, m_sqrt, m_exp2, m_log2, m_log10, m_cbrt, m_log, m_abs, m_exp,
      m_ln, m_sin, m_cos, m_tan, m_asin, m_acos, m_atan, m_powf, m_div, m_mul, m_sub, m_add,
      c_zero, c_one;
    try apply simM_panic; try step.
Qed.

Lemma sim_meth2 w b x1 x2 y1 y2 :
  RV w x1 x2 -> RV w y1 y2 ->
  simM RV w (meth2 So fop1 cst1 b x1 y1) (meth2 So fop2 cst2 b x2 y2).
Proof.
  intros Hx Hy; destruct b; cbn [meth2];
    unfold m_log, m_max, m_min, m_abs_sub, m_hypot, m_sqrt, m_powi, m_abs, m_ln, m_powf, m_div,
      m_mul, m_sub, m_add;
    try apply simM_panic; try step.
Qed.

Lemma sim_mul_add w x1 x2 y1 y2 z1 z2 :
  RV w x1 x2 -> RV w y1 y2 -> RV w z1 z2 ->
  simM RV w (m_mul_add fop1 x1 y1 z1) (m_mul_add fop2 x2 y2 z2).
Proof.
  intros Hx Hy Hz; unfold m_mul_add, m_mul, m_add. step.
Qed.

Definition RVs (w : W) : list V1 -> list V2 -> Prop := Forall2 (RV w).

Lemma RVs_mono a b l1 l2 : le a b -> RVs a l1 l2 -> RVs b l1 l2.
Proof. intros L. apply Forall2_impl. intros; eapply RV_mono; eauto. Qed.

Lemma sim_gets w env1 env2 outs :
  RVs w env1 env2 ->
  simM RVs w (mlift (mapM (get env1) outs)) (mlift (mapM (get env2) outs)).
Proof.
  intros He s1 s2 Hs. unfold mlift.
  assert (match mapM (get env1) outs, mapM (get env2) outs with
          | Ok a, Ok b => RVs w a b
          | Panic p, Panic q => p = q
          | _, _ => False end) as H.
  { induction outs as [|i outs IH]; cbn; [constructor|].
    pose proof (Forall2_get _ _ _ i He) as Hg.
    destruct (get env1 i) as [a|p], (get env2 i) as [b|q]; cbn; try contradiction; auto.
    destruct (mapM (get env1) outs), (mapM (get env2) outs); cbn; auto.
    constructor; auto. }
  destruct (mapM (get env1) outs), (mapM (get env2) outs); try contradiction.
  - exists a0, s2, w; auto.
  - subst; auto.
Qed.

Definition vals_agree : Prop := forall w x1 x2, RV w x1 x2 -> val1 x1 = val2 x2.

Theorem sim_run p :
  vals_agree \/ straight p ->
  forall w env1 env2, RVs w env1 env2 ->
  simM RVs w (run So fop1 cst1 val1 p env1) (run So fop2 cst2 val2 p env2).
Proof.
  induction p as [outs|c p IH|u a p IH|b a1 a2 p IH|a1 a2 a3 p IH|a k IH| ];
    intros Hv w env1 env2 He; cbn [run straight] in *.
  - apply sim_gets; auto.
  - apply IH; auto. apply Forall2_app; auto.
  - apply simM_bind_get; auto. intros x1 x2 Hx.
    eapply simM_bind; [apply sim_meth1, Hx|]. intros w' r1 r2 L Hr.
    apply IH; auto. apply Forall2_app; [eapply RVs_mono; eauto | auto].
  - apply simM_bind_get; auto. intros x1 x2 Hx.
    apply simM_bind_get; auto. intros y1 y2 Hy.
    eapply simM_bind; [apply sim_meth2; [apply Hx | apply Hy]|]. intros w' r1 r2 L Hr.
    apply IH; auto. apply Forall2_app; [eapply RVs_mono; eauto | auto].
  - apply simM_bind_get; auto. intros x1 x2 Hx.
    apply simM_bind_get; auto. intros y1 y2 Hy.
    apply simM_bind_get; auto. intros z1 z2 Hz.
    eapply simM_bind; [apply sim_mul_add; [apply Hx | apply Hy | apply Hz]|].
    intros w' r1 r2 L Hr.
    apply IH; auto. apply Forall2_app; [eapply RVs_mono; eauto | auto].
  - apply simM_bind_get; auto. intros x1 x2 Hx.
    destruct Hv as [Hv|[]]. rewrite (Hv _ _ _ Hx). apply IH; auto.
  - apply simM_panic.
Qed.

(** Induction over functions with nested chains. *)
Definition func_ind' (P : func Sc -> Prop)
  (HS : forall n m p, P (Simple n m p)) (HA : forall n m p, P (AdvFn n m p))
  (HC : forall fs, Forall P fs -> P (Chain fs)) : forall f, P f :=
  fix go (f : func Sc) : P f :=
    match f with
    | Simple n m p => HS n m p
    | AdvFn n m p => HA n m p
    | Chain fs => HC fs ((fix all (l : list (func Sc)) : Forall P l :=
                            match l with
                            | [] => Forall_nil _
                            | g :: l' => Forall_cons _ (go g) (all l')
                            end) fs)
    end.

Fixpoint straight_f (f : func Sc) : Prop :=
  match f with
  | Simple _ _ p | AdvFn _ _ p => straight p
  | Chain fs =>
      (fix all (l : list (func Sc)) : Prop :=
         match l with [] => True | g :: l' => straight_f g /\ all l' end) fs
  end.

Theorem sim_feval f :
  vals_agree \/ straight_f f ->
  forall w env1 env2, RVs w env1 env2 ->
  simM RVs w (feval So fop1 cst1 val1 f env1) (feval So fop2 cst2 val2 f env2).
Proof.
  induction f as [n m p|n m p|fs IH] using func_ind'; intros Hv w env1 env2 He;
    cbn [feval straight_f] in *.
  - apply sim_run; auto.
  - rewrite <- (Forall2_length_eq _ _ _ He).
    eapply (simM_bind (fun _ _ _ => True)).
    { intros s1 s2 Hs. unfold mlift, assert. destruct (_ =? n); [|auto].
      exists tt, s2, w; auto. }
    intros w' _ _ L _.
    eapply simM_bind; [apply sim_run; [auto | eapply RVs_mono; eauto]|].
    intros w'' r1 r2 L' Hr. rewrite <- (Forall2_length_eq _ _ _ Hr).
    eapply (simM_bind (fun _ _ _ => True)).
    { intros s1 s2 Hs. unfold mlift, assert. destruct (_ =? m); [|auto].
      exists tt, s2, w''; auto. }
    intros w3 _ _ L'' _. apply simM_ret. eapply RVs_mono; eauto.
  - revert w env1 env2 He.
    induction fs as [|g fs IHfs]; intros w env1 env2 He.
    + apply simM_ret; auto.
    + inversion IH as [|g' fs' IHg IHall]; subst.
      assert (vals_agree \/ straight_f g) as Hg by tauto.
      eapply simM_bind; [apply IHg; auto|].
      intros w' r1 r2 L Hr. apply IHfs; auto. tauto.
Qed.

End Param.
