(** The sweeps preserve every relation between two arithmetics that the elementary operations
    preserve. *)
From Coq Require Import List Arith ZArith Bool Lia.
From Verif Require Import Base Float Operation Tape.
Import ListNotations.

Definition rrel {A B : Type} (Q : A -> B -> Prop) (a : res A) (b : res B) : Prop :=
  match a, b with
  | Ok x, Ok y => Q x y
  | Panic p, Panic q => p = q
  | _, _ => False
  end.

Lemma rrel_bind {A B A' B'} (Q : A -> B -> Prop) (Q' : A' -> B' -> Prop) m1 m2 k1 k2 :
  rrel Q m1 m2 -> (forall a b, Q a b -> rrel Q' (k1 a) (k2 b)) -> rrel Q' (bind m1 k1) (bind m2 k2).
Proof. intros H K. destruct m1, m2; cbn in *; try contradiction; auto. Qed.

Lemma rrel_eq {A B C} (Q : B -> C -> Prop) (m : res A) k1 k2 :
  (forall a, rrel Q (k1 a) (k2 a)) -> rrel Q (bind m k1) (bind m k2).
Proof. intros K. destruct m; cbn; auto. Qed.

Lemma F2_len {A B} (P : A -> B -> Prop) l l' : Forall2 P l l' -> length l = length l'.
Proof. induction 1; cbn; congruence. Qed.

Section Rel.
Context {F1 F2 : Type} (O1 : Fops F1) (O2 : Fops F2) (Q : F1 -> F2 -> Prop).

Record ops_related : Prop := {
  q_zero : Q (f_zero O1) (f_zero O2);
  q_one : Q (f_one O1) (f_one O2);
  q_add : forall a b a' b', Q a a' -> Q b b' -> Q (f_add O1 a b) (f_add O2 a' b');
  q_sub : forall a b a' b', Q a a' -> Q b b' -> Q (f_sub O1 a b) (f_sub O2 a' b');
  q_mul : forall a b a' b', Q a a' -> Q b b' -> Q (f_mul O1 a b) (f_mul O2 a' b');
  q_div : forall a b a' b', Q a a' -> Q b b' -> Q (f_div O1 a b) (f_div O2 a' b');
  q_neg : forall a a', Q a a' -> Q (f_neg O1 a) (f_neg O2 a');
  q_abs : forall a a', Q a a' -> Q (f_abs O1 a) (f_abs O2 a');
  q_sqrt : forall a a', Q a a' -> Q (f_sqrt O1 a) (f_sqrt O2 a');
  q_sin : forall a a', Q a a' -> Q (f_sin O1 a) (f_sin O2 a');
  q_cos : forall a a', Q a a' -> Q (f_cos O1 a) (f_cos O2 a');
  q_tan : forall a a', Q a a' -> Q (f_tan O1 a) (f_tan O2 a');
  q_exp : forall a a', Q a a' -> Q (f_exp O1 a) (f_exp O2 a');
  q_ln : forall a a', Q a a' -> Q (f_ln O1 a) (f_ln O2 a');
  q_asin : forall a a', Q a a' -> Q (f_asin O1 a) (f_asin O2 a');
  q_acos : forall a a', Q a a' -> Q (f_acos O1 a) (f_acos O2 a');
  q_atan : forall a a', Q a a' -> Q (f_atan O1 a) (f_atan O2 a');
  q_powf : forall a b a' b', Q a a' -> Q b b' -> Q (f_powf O1 a b) (f_powf O2 a' b');
  q_powf_d1 : forall a b d a' b' d', Q a a' -> Q b b' -> Q d d' ->
    Q (if negb (f_eqb O1 d (f_zero O1)) then f_mul O1 (f_mul O1 b (f_powf O1 a (f_sub O1 b (f_one O1)))) d else f_zero O1)
      (if negb (f_eqb O2 d' (f_zero O2)) then f_mul O2 (f_mul O2 b' (f_powf O2 a' (f_sub O2 b' (f_one O2)))) d' else f_zero O2);
  q_powf_d2 : forall a b d a' b' d', Q a a' -> Q b b' -> Q d d' ->
    Q (if negb (f_eqb O1 d (f_zero O1)) then f_mul O1 (f_mul O1 (f_ln O1 a) (f_powf O1 a b)) d else f_zero O1)
      (if negb (f_eqb O2 d' (f_zero O2)) then f_mul O2 (f_mul O2 (f_ln O2 a') (f_powf O2 a' b')) d' else f_zero O2);
  q_sqr : forall a a', Q a a' -> Q (f_powi O1 a 2) (f_powi O2 a' 2)
}.
Hypothesis H : ops_related.

Definition oQ (a : option F1) (b : option F2) : Prop :=
  match a, b with Some x, Some y => Q x y | None, None => True | _, _ => False end.

Ltac q := repeat first
  [ assumption | apply (q_powf_d1 H) | apply (q_powf_d2 H) | apply (q_powf H)
  | apply (q_zero H) | apply (q_one H) | apply (q_add H) | apply (q_sub H) | apply (q_mul H) | apply (q_div H)
  | apply (q_neg H) | apply (q_abs H) | apply (q_sqrt H) | apply (q_sin H) | apply (q_cos H) | apply (q_tan H)
  | apply (q_exp H) | apply (q_ln H) | apply (q_asin H) | apply (q_acos H) | apply (q_atan H) | apply (q_sqr H) ].

Lemma rel_zero_value oc a a' b b' : Q a a' -> oQ b b' ->
  rrel Q (zero_order_value O1 oc a b) (zero_order_value O2 oc a' b').
Proof.
  intros Ha Hb. destruct oc; cbn; try reflexivity; q; 
    destruct b, b'; cbn in *; try contradiction; try reflexivity; q.
Qed.
Lemma rel_first_value oc a a' b b' d d' e e' : Q a a' -> oQ b b' -> Q d d' -> oQ e e' ->
  rrel Q (first_order_value O1 oc a b d e) (first_order_value O2 oc a' b' d' e').
Proof.
  intros Ha Hb Hd He. destruct oc; cbn; try reflexivity; q; 
    destruct b, b', e, e'; cbn in *; try contradiction; try reflexivity; q.
Qed.

Notation Qs := (Forall2 Q).

Lemma rel_get l l' i : Qs l l' -> rrel Q (get l i) (get l' i).
Proof.
  intros HL. revert i; induction HL as [|a b l l' Hab HL IH]; intros [|i]; cbn; auto.
  apply (IH i).
Qed.
Lemma rel_update l l' i a a' : Qs l l' -> Q a a' -> Qs (update l i a) (update l' i a').
Proof. intros HL Ha. revert i; induction HL; intros [|i]; cbn; constructor; auto. Qed.
Lemma rel_set l l' i a a' : Qs l l' -> Q a a' -> rrel Qs (set l i a) (set l' i a').
Proof.
  intros HL Ha. unfold set. rewrite (F2_len _ _ _ HL).
  destruct (i <? length l'); cbn; [apply rel_update; auto|reflexivity].
Qed.
Lemma rel_optget l l' j : Qs l l' -> rrel oQ (optM (get l) j) (optM (get l') j).
Proof.
  intros HL. destruct j as [j|]; cbn; [|exact I]. eapply rrel_bind; [apply rel_get, HL|]. cbn. auto.
Qed.

Lemma rel_op_zero o v v' : Qs v v' -> rrel Qs (op_zero_order O1 o v) (op_zero_order O2 o v').
Proof.
  intros HV. unfold op_zero_order.
  destruct (opcode o) eqn:E; try (exact HV);
    (apply rrel_eq; intros i; eapply rrel_bind; [apply rel_get, HV|]; intros a a' Ha;
     eapply rrel_bind; [apply rel_optget, HV|]; intros b b' Hb;
     eapply rrel_bind; [apply rel_zero_value; [apply Ha|apply Hb]|]; intros r r' Hr;
     apply rel_set; auto).
Qed.
Lemma rel_op_first o v v' d d' : Qs v v' -> Qs d d' ->
  rrel Qs (op_first_order O1 o v d) (op_first_order O2 o v' d').
Proof.
  intros HV HD. unfold op_first_order.
  destruct (opcode o) eqn:E; try (exact HD); try (apply rel_set; [exact HD|q]);
    (apply rrel_eq; intros i; eapply rrel_bind; [apply rel_get, HV|]; intros a a' Ha;
     eapply rrel_bind; [apply rel_optget, HV|]; intros b b' Hb;
     eapply rrel_bind; [apply rel_get, HD|]; intros c c' Hc;
     eapply rrel_bind; [apply rel_optget, HD|]; intros e e' He;
     eapply rrel_bind; [apply rel_first_value; [apply Ha|apply Hb|apply Hc|apply He]|]; intros r r' Hr;
     apply rel_set; auto).
Qed.
Lemma rel_add_at l l' i a a' : Qs l l' -> Q a a' -> rrel Qs (add_at O1 l i a) (add_at O2 l' i a').
Proof.
  intros HL Ha. unfold add_at. eapply rrel_bind; [apply rel_get, HL|]. intros b b' Hb. apply rel_set; q.
Qed.
Ltac rv HV HD :=
  lazymatch goal with
  | |- rrel _ (bind (get ?v _) _) (bind (get ?v' _) _) =>
      eapply rrel_bind; [first [apply rel_get, HV | apply rel_get; eassumption]|]; intros ? ? ?; rv HV HD
  | |- rrel _ (bind (unwrap _) _) _ => apply rrel_eq; intros ?; rv HV HD
  | |- rrel _ (bind (add_at _ _ _ _) _) _ => eapply rrel_bind; [apply rel_add_at; [eassumption|q]|]; intros ? ? ?; rv HV HD
  | |- rrel _ (add_at _ _ _ _) _ => apply rel_add_at; [eassumption|q]
  | |- rrel _ (bind (first_order_value _ _ _ _ _ _) _) _ =>
      eapply rrel_bind; [apply rel_first_value; [eassumption|exact I|q|exact I]|]; intros ? ? ?; rv HV HD
  | _ => idtac
  end.
Lemma rel_op_reverse o v v' d d' : Qs v v' -> Qs d d' ->
  rrel Qs (op_first_order_reverse O1 o v d) (op_first_order_reverse O2 o v' d').
Proof.
  intros HV HD. unfold op_first_order_reverse.
  destruct (opcode o) eqn:E; try (exact HD); try reflexivity; rv HV HD.
Qed.

Lemma rel_fold {A} (f1 : list F1 -> A -> res (list F1)) f2 l (P : A -> Prop) :
  (forall a v v', P a -> Qs v v' -> rrel Qs (f1 v a) (f2 v' a)) -> (forall a, In a l -> P a) ->
  forall v v', Qs v v' -> rrel Qs (foldM f1 l v) (foldM f2 l v').
Proof.
  intros HF. induction l as [|a l IH]; intros HP v v' HV; cbn; [exact HV|].
  eapply rrel_bind; [apply HF; [apply HP; now left|exact HV]|]. intros w w' Hw. apply IH; auto.
  intros b Hb. apply HP. now right.
Qed.
Lemma rel_scatter ids x x' arr arr' : Qs x x' -> Qs arr arr' -> rrel Qs (scatter ids x arr) (scatter ids x' arr').
Proof.
  revert x x' arr arr'; induction ids as [|i ids IH]; intros x x' arr arr' HX HA; cbn; [exact HA|].
  destruct HX as [|a b x x' Hab HX]; [reflexivity|]. eapply rrel_bind; [apply rel_set; eauto|].
  intros; apply IH; auto.
Qed.
Lemma rel_gather ids arr arr' : Qs arr arr' -> rrel Qs (gather ids arr) (gather ids arr').
Proof.
  intros HA. unfold gather. induction ids as [|i ids IH]; cbn; [constructor|].
  eapply rrel_bind; [apply rel_get, HA|]. intros a b Hab. eapply rrel_bind; [exact IH|].
  intros l l' HL. cbn. constructor; auto.
Qed.
Lemma rel_zeros n : Qs (repeat (f_zero O1) n) (repeat (f_zero O2) n).
Proof. induction n; cbn; constructor; auto. q. Qed.

(** Tapes that differ only in the values they hold, which are related. *)
Record tapes_related (t1 : tape F1) (t2 : tape F2) : Prop := {
  tr_indeps : t_indeps t1 = t_indeps t2;
  tr_deps : t_deps t1 = t_deps t2;
  tr_ops : t_ops t1 = t_ops t2;
  tr_vals : Qs (t_vals t1) (t_vals t2)
}.

Theorem rel_tape_zero t1 t2 x x' : tapes_related t1 t2 -> Qs x x' ->
  rrel tapes_related (tape_zero_order O1 t1 x) (tape_zero_order O2 t2 x').
Proof.
  intros [A B C V] HX. unfold tape_zero_order, num_indeps. rewrite (F2_len _ _ _ HX), A, C, B.
  apply rrel_eq. intros _. eapply rrel_bind; [apply rel_scatter; eauto|]. intros v v' HV.
  eapply rrel_bind with (Q := Qs).
  - unfold zero_sweep. apply (rel_fold _ _ _ (fun _ => True)); auto.
    intros o w w' _ Hw. apply rel_op_zero; auto.
  - intros w w' Hw. cbn. constructor; cbn; auto.
Qed.
Theorem rel_tape_forward t1 t2 x x' : tapes_related t1 t2 -> Qs x x' ->
  rrel Qs (tape_forward O1 t1 x) (tape_forward O2 t2 x').
Proof.
  intros [A B C V] HX. unfold tape_forward. rewrite (F2_len _ _ _ V), A, B, C.
  eapply rrel_bind; [apply rel_scatter; [eauto|apply rel_zeros]|]. intros v v' HV.
  eapply rrel_bind with (Q := Qs).
  - unfold forward_sweep. apply (rel_fold _ _ _ (fun _ => True)); auto.
    intros o w w' _ Hw. apply rel_op_first; auto.
  - intros w w' Hw. apply rel_gather. exact Hw.
Qed.
Theorem rel_tape_reverse t1 t2 x x' : tapes_related t1 t2 -> Qs x x' ->
  rrel Qs (tape_reverse O1 t1 x) (tape_reverse O2 t2 x').
Proof.
  intros [A B C V] HX. unfold tape_reverse. rewrite (F2_len _ _ _ V), A, B, C.
  eapply rrel_bind; [apply rel_scatter; [eauto|apply rel_zeros]|]. intros v v' HV.
  eapply rrel_bind with (Q := Qs).
  - unfold reverse_sweep. apply (rel_fold _ _ _ (fun _ => True)); auto.
    intros o w w' _ Hw. apply rel_op_reverse; auto.
  - intros w w' Hw. apply rel_gather. exact Hw.
Qed.
Theorem rel_tape_y t1 t2 : tapes_related t1 t2 -> rrel Qs (tape_y t1) (tape_y t2).
Proof. intros [A B C V]. unfold tape_y. rewrite B. apply rel_gather. exact V. Qed.
End Rel.
