(** The drivers preserve every relation between two arithmetics that the elementary operations
    preserve: products with the matrices of the abs-normal form, the abs-normal form, the parts of
    the generalized Jacobian. *)
From Coq Require Import List Arith ZArith NArith Bool Lia.
From Verif Require Import Base Float Operation Tape AContext Methods Function FopsRel Matrix MatrixFacts AbsNormal GenJac.
Import ListNotations.

Section Rel.
Context {F1 F2 : Type} (O1 : Fops F1) (O2 : Fops F2) (Q : F1 -> F2 -> Prop).
Notation Qs := (Forall2 Q).

(** ** Vectors and matrices *)
Record mrel (A : matrix F1) (B : matrix F2) : Prop := mkMrel {
  mr_rows : m_rows A = m_rows B;
  mr_cols : m_cols A = m_cols B;
  mr_dat : Forall2 Qs (m_dat A) (m_dat B)
}.

Lemma rel_get_g {A B} (P : A -> B -> Prop) l l' i : Forall2 P l l' -> rrel P (get l i) (get l' i).
Proof. intros HL. revert i; induction HL as [|a b l l' Hab HL IH]; intros [|i]; cbn; auto. apply (IH i). Qed.
Lemma rel_update_g {A B} (P : A -> B -> Prop) l l' i a a' : Forall2 P l l' -> P a a' -> Forall2 P (update l i a) (update l' i a').
Proof. intros HL Ha. revert i; induction HL; intros [|i]; cbn; constructor; auto. Qed.
Lemma rel_set_g {A B} (P : A -> B -> Prop) l l' i a a' : Forall2 P l l' -> P a a' -> rrel (Forall2 P) (set l i a) (set l' i a').
Proof.
  intros HL Ha. unfold set. rewrite (F2_len _ _ _ HL).
  destruct (i <? length l'); cbn; [apply rel_update_g; auto|reflexivity].
Qed.
Lemma rel_repeat_g {A B} (P : A -> B -> Prop) a b n : P a b -> Forall2 P (repeat a n) (repeat b n).
Proof. intros H. induction n; cbn; constructor; auto. Qed.
Lemma rel_mapM {X A B} (P : A -> B -> Prop) (f : X -> res A) g l : (forall x, In x l -> rrel P (f x) (g x)) ->
  rrel (Forall2 P) (mapM f l) (mapM g l).
Proof.
  induction l as [|x l IH]; intros H; cbn; [constructor|].
  eapply rrel_bind; [apply H; now left|]. intros a b Hab. eapply rrel_bind; [apply IH; intros; apply H; now right|].
  intros l1 l2 HL. cbn. constructor; auto.
Qed.
Lemma rel_mapM2 {X Y A B} (R : X -> Y -> Prop) (P : A -> B -> Prop) f g l l' : Forall2 R l l' ->
  (forall x y, R x y -> rrel P (f x) (g y)) -> rrel (Forall2 P) (mapM f l) (mapM g l').
Proof.
  intros HL H. induction HL as [|x y l l' Hxy HL IH]; cbn; [constructor|].
  eapply rrel_bind; [apply H, Hxy|]. intros a b Hab. eapply rrel_bind; [exact IH|].
  intros l1 l2 HL2. cbn. constructor; auto.
Qed.
Lemma rel_foldM {X Y A B} (P : A -> B -> Prop) (R : X -> Y -> Prop) f g l l' : Forall2 R l l' ->
  (forall a b x y, P a b -> R x y -> rrel P (f a x) (g b y)) ->
  forall a b, P a b -> rrel P (foldM f l a) (foldM g l' b).
Proof.
  intros HL H. induction HL as [|x y l l' Hxy HL IH]; intros a b Hab; cbn; [exact Hab|].
  eapply rrel_bind; [apply H; eauto|]. intros. apply IH; auto.
Qed.
Lemma rel_map_g {A A' B B'} (P : A -> A' -> Prop) (R : B -> B' -> Prop) f g l l' : Forall2 P l l' ->
  (forall a a', P a a' -> R (f a) (g a')) -> Forall2 R (map f l) (map g l').
Proof. intros HL H. induction HL; cbn; constructor; auto. Qed.
Lemma rel_combine {A A' B B'} (P : A -> A' -> Prop) (R : B -> B' -> Prop) l l' k k' : Forall2 P l l' -> Forall2 R k k' ->
  Forall2 (fun p q => P (fst p) (fst q) /\ R (snd p) (snd q)) (combine l k) (combine l' k').
Proof.
  intros HL. revert k k'; induction HL; intros k k' HK; cbn; [constructor|]. destruct HK; constructor; cbn; auto.
Qed.
Lemma rel_zip f g x x' y y' : (forall a b a' b', Q a a' -> Q b b' -> Q (f a b) (g a' b')) ->
  Qs x x' -> Qs y y' -> Qs (v_zip f x y) (v_zip g x' y').
Proof.
  intros H HX HY. unfold v_zip. eapply rel_map_g; [apply rel_combine; eassumption|]. cbn. intros p q [A B]. auto.
Qed.

Lemma rel_m_get A B i j : mrel A B -> rrel Q (m_get A i j) (m_get B i j).
Proof. intros HA. unfold m_get. eapply rrel_bind; [apply rel_get_g, HA|]. intros r r' Hr. apply rel_get_g, Hr. Qed.
Lemma rel_m_set A B i j a b : mrel A B -> Q a b -> rrel mrel (m_set A i j a) (m_set B i j b).
Proof.
  intros HA Hab. unfold m_set. eapply rrel_bind; [apply rel_get_g, HA|]. intros r r' Hr.
  eapply rrel_bind; [apply rel_set_g; [exact Hr|exact Hab]|]. intros q q' Hq.
  eapply rrel_bind; [apply rel_set_g; [apply HA|exact Hq]|]. intros d d' Hd. cbn. destruct HA. constructor; auto.
Qed.
Lemma rel_fill_row A B i n x x' : mrel A B -> Qs x x' -> rrel mrel (m_fill_row A i n x) (m_fill_row B i n x').
Proof.
  intros HA HX. unfold m_fill_row. apply (rel_foldM mrel eq); auto.
  - clear. induction (seq 0 n); constructor; auto.
  - intros C D k ? HC <-. eapply rrel_bind; [apply rel_get_g, HX|]. intros. apply rel_m_set; auto.
Qed.
Lemma rel_fill_col A B i n x x' : mrel A B -> Qs x x' -> rrel mrel (m_fill_col A i n x) (m_fill_col B i n x').
Proof.
  intros HA HX. unfold m_fill_col. apply (rel_foldM mrel eq); auto.
  - clear. induction (seq 0 n); constructor; auto.
  - intros C D k ? HC <-. eapply rrel_bind; [apply rel_get_g, HX|]. intros. apply rel_m_set; auto.
Qed.
Lemma rel_of_vec x x' : Qs x x' -> mrel (m_of_vec x) (m_of_vec x').
Proof.
  intros HX. constructor; cbn; [eapply F2_len; eauto|reflexivity|]. eapply rel_map_g; [exact HX|]. intros; constructor; auto.
Qed.

(** ** Products with a sub-tape *)
Hypothesis H : ops_related O1 O2 Q.

Lemma rel_m_const r c a b : Q a b -> mrel (m_const r c a) (m_const r c b).
Proof. intros Hab. constructor; cbn; auto. apply rel_repeat_g, rel_repeat_g, Hab. Qed.
Lemma rel_m_id n : mrel (m_id O1 n) (m_id O2 n).
Proof.
  constructor; cbn; auto. apply (rel_map_g eq); [clear; induction (seq 0 n); constructor; auto|]. intros i ? <-.
  apply (rel_map_g eq); [clear; induction (seq 0 n); constructor; auto|]. intros j ? <-.
  destruct (i =? j); [apply (q_one _ _ _ H)|apply (q_zero _ _ _ H)].
Qed.
Lemma rel_concat l l' : Forall2 (Forall2 (fun p q : nat * list _ => fst p = fst q /\ Qs (snd p) (snd q))) l l' ->
  Forall2 (fun p q => fst p = fst q /\ Qs (snd p) (snd q)) (concat l) (concat l').
Proof. induction 1; cbn; [constructor|]. apply Forall2_app; auto. Qed.

(** what [sweep] may be for the two tapes *)

Context (red1 : list (list (nat * list F1)) -> list (nat * list F1)) (red2 : list (list (nat * list F2)) -> list (nat * list F2)).
Hypothesis R1 : rayon red1.
Hypothesis R2 : rayon red2.

Lemma rel_mul_right t1 t2 A B : tapes_related Q t1 t2 -> mrel A B ->
  rrel mrel (mul_right O1 red1 t1 A) (mul_right O2 red2 t2 B).
Proof.
  intros HT HA. pose proof HT as [E1 E2 E3 EV]. pose proof HA as [Er Ec Ed].
  unfold mul_right, num_indeps, num_deps. rewrite E1, E2, Er, Ec. apply rrel_eq. intros _.
  eapply rrel_bind.
  - apply (rel_mapM (Forall2 (fun p q => fst p = fst q /\ Qs (snd p) (snd q)))). intros j _.
    eapply rrel_bind; [apply (rel_mapM Q); intros; apply rel_m_get, HA|]. intros dx dx' Hdx.
    eapply rrel_bind; [apply (rel_tape_forward _ _ _ H); eauto|]. intros dy dy' Hdy. cbn. repeat constructor; auto.
  - intros c c' HC. rewrite !(rayon_concat red1 _ R1), !(rayon_concat red2 _ R2).
    eapply rel_foldM; [apply rel_concat, HC| |apply rel_m_const, (q_zero _ _ _ H)].
    intros M M' p q HM [-> Hp]. apply rel_fill_col; auto.
Qed.
Lemma rel_mul_left t1 t2 A B : tapes_related Q t1 t2 -> mrel A B ->
  rrel mrel (mul_left O1 red1 t1 A) (mul_left O2 red2 t2 B).
Proof.
  intros HT HA. pose proof HT as [E1 E2 E3 EV]. pose proof HA as [Er Ec Ed].
  unfold mul_left, num_indeps, num_deps. rewrite E1, E2, Er, Ec. apply rrel_eq. intros _.
  eapply rrel_bind.
  - apply (rel_mapM (Forall2 (fun p q => fst p = fst q /\ Qs (snd p) (snd q)))). intros j _.
    eapply rrel_bind; [apply (rel_mapM Q); intros; apply rel_m_get, HA|]. intros dx dx' Hdx.
    eapply rrel_bind; [apply (rel_tape_reverse _ _ _ H); eauto|]. intros dy dy' Hdy. cbn. repeat constructor; auto.
  - intros c c' HC. rewrite !(rayon_concat red1 _ R1), !(rayon_concat red2 _ R2).
    eapply rel_foldM; [apply rel_concat, HC| |apply rel_m_const, (q_zero _ _ _ H)].
    intros M M' p q HM [-> Hp]. apply rel_fill_row; auto.
Qed.

(** ** The abs-normal tape *)
Record an_rel (a : antape) (b : antape) : Prop := mkAnrel {
  ar_inner : tapes_related Q (an_inner a) (an_inner b);
  ar_indeps : an_indeps a = an_indeps b;
  ar_deps : an_deps a = an_deps b;
  ar_n : an_n a = an_n b; ar_m : an_m a = an_m b; ar_s : an_s a = an_s b
}.
Lemma rel_an_new t1 t2 : tapes_related Q t1 t2 -> rrel an_rel (an_new t1) (an_new t2).
Proof.
  intros HT. pose proof HT as [E1 E2 E3 EV]. unfold an_new, abs_args, abs_ids, num_indeps, num_deps, num_abs.
  rewrite E1, E2, E3. apply rrel_eq. intros args. cbn. constructor; cbn; auto.
Qed.
Lemma rel_sub f g a b : an_rel a b -> tapes_related Q (sub_tape f g a) (sub_tape f g b).
Proof. intros [[E1 E2 E3 EV] E4 E5 E6 E7 E8]. constructor; cbn; rewrite ?E3, ?E4, ?E5, ?E6, ?E7, ?E8; auto. Qed.
Lemma rel_an_z a b : an_rel a b -> rrel Qs (an_z a) (an_z b).
Proof. intros [[E1 E2 E3 EV] _ _ _ _ _]. unfold an_z, abs_args. rewrite E3. apply rrel_eq. intros. apply rel_gather, EV. Qed.

Lemma rel_v_abs x x' : Qs x x' -> Qs (v_abs O1 x) (v_abs O2 x').
Proof. intros HX. eapply rel_map_g; [exact HX|]. apply (q_abs _ _ _ H). Qed.
Lemma rel_v_neg x x' : Qs x x' -> Qs (v_neg O1 x) (v_neg O2 x').
Proof. intros HX. eapply rel_map_g; [exact HX|]. apply (q_neg _ _ _ H). Qed.
Lemma rel_v_add x x' y y' : Qs x x' -> Qs y y' -> rrel Qs (v_add O1 x y) (v_add O2 x' y').
Proof.
  intros HX HY. unfold v_add. rewrite (F2_len _ _ _ HX), (F2_len _ _ _ HY). destruct (_ =? _); cbn; auto.
  apply rel_zip; auto. apply (q_add _ _ _ H).
Qed.
Lemma rel_v_sub x x' y y' : Qs x x' -> Qs y y' -> rrel Qs (v_sub O1 x y) (v_sub O2 x' y').
Proof.
  intros HX HY. unfold v_sub. rewrite (F2_len _ _ _ HX), (F2_len _ _ _ HY). destruct (_ =? _); cbn; auto.
  apply rel_zip; auto. apply (q_sub _ _ _ H).
Qed.
Lemma rel_m_add A A' B B' : mrel A A' -> mrel B B' -> rrel mrel (m_add2 O1 A B) (m_add2 O2 A' B').
Proof.
  intros [A1 A2 A3] [B1 B2 B3]. unfold m_add2. rewrite A1, A2, B1, B2. destruct (_ && _); cbn; auto.
  constructor; cbn; auto. eapply rel_map_g; [apply rel_combine; eassumption|]. cbn. intros p q [P1 P2].
  apply rel_zip; auto. apply (q_add _ _ _ H).
Qed.
Lemma rel_m_neg A A' : mrel A A' -> mrel (m_neg2 O1 A) (m_neg2 O2 A').
Proof. intros [A1 A2 A3]. constructor; cbn; auto. eapply rel_map_g; [exact A3|]. apply rel_v_neg. Qed.
Lemma rel_dot x x' y y' : Qs x x' -> Qs y y' -> Q (fdot O1 x y) (fdot O2 x' y').
Proof.
  intros HX. revert y y'; induction HX; intros z z' HY; cbn; [apply (q_zero _ _ _ H)|].
  destruct HY; cbn; [apply (q_zero _ _ _ H)|]. apply (q_add _ _ _ H); auto. apply (q_mul _ _ _ H); auto.
Qed.
Lemma rel_m_mulv A A' x x' : mrel A A' -> Qs x x' -> rrel Qs (m_mulv O1 A x) (m_mulv O2 A' x').
Proof.
  intros [A1 A2 A3] HX. unfold m_mulv. rewrite A2, (F2_len _ _ _ HX). destruct (_ =? _); cbn; auto.
  eapply rel_map_g; [exact A3|]. intros. apply rel_dot; auto.
Qed.

(** ** The abs-normal form *)
Record anf_rel (N : anf) (N' : anf) : Prop := mkAnfrel {
  nr_a : Qs (f_a N) (f_a N'); nr_z : mrel (f_zmat N) (f_zmat N'); nr_l : mrel (f_lmat N) (f_lmat N');
  nr_b : Qs (f_b N) (f_b N'); nr_j : mrel (f_jmat N) (f_jmat N'); nr_y : mrel (f_ymat N) (f_ymat N')
}.
Lemma rel_if {A B} (P : A -> B -> Prop) (b : bool) (m1 m2 : res A) m1' m2' : rrel P m1 m1' -> rrel P m2 m2' ->
  rrel P (if b then m1 else m2) (if b then m1' else m2').
Proof. destruct b; auto. Qed.
Theorem rel_abs_normal t1 t2 : tapes_related Q t1 t2 ->
  rrel anf_rel (abs_normal_tape O1 red1 t1) (abs_normal_tape O2 red2 t2).
Proof.
  intros HT. unfold abs_normal_tape. eapply rrel_bind; [apply rel_an_new, HT|]. intros a b HA.
  pose proof (rel_sub (@firstn nat) (@firstn nat) _ _ HA) as Hz. pose proof (rel_sub (@skipn nat) (@firstn nat) _ _ HA) as Hl.
  pose proof (rel_sub (@firstn nat) (@skipn nat) _ _ HA) as Hj. pose proof (rel_sub (@skipn nat) (@skipn nat) _ _ HA) as Hy.
  rewrite (ar_n _ _ HA), (ar_m _ _ HA), (ar_s _ _ HA).
  eapply rrel_bind; [apply rel_if; [apply rel_mul_right|apply rel_mul_left]; auto using rel_m_id|]. intros Z Z' HZ.
  eapply rrel_bind; [apply rel_mul_left; auto using rel_m_id|]. intros L L' HL.
  eapply rrel_bind; [apply rel_if; [apply rel_mul_right|apply rel_mul_left]; auto using rel_m_id|]. intros J J' HJ.
  eapply rrel_bind; [apply rel_if; [apply rel_mul_right|apply rel_mul_left]; auto using rel_m_id|]. intros Y Y' HY.
  eapply rrel_bind; [apply rel_an_z, HA|]. intros z z' Hz'.
  eapply rrel_bind; [apply rel_m_mulv; [exact HL|apply rel_v_abs, Hz']|]. intros lz lz' Hlz.
  eapply rrel_bind; [apply rel_v_sub; eassumption|]. intros av av' Ha.
  eapply rrel_bind; [apply rel_m_mulv; [apply rel_m_neg, HY|apply rel_v_abs, Hz']|]. intros bv bv' Hb.
  cbn. constructor; auto.
Qed.

(** ** The generalized Jacobian *)
Lemma rel_mul_right_vec t1 t2 x x' : tapes_related Q t1 t2 -> Qs x x' ->
  rrel Qs (mul_right_vec O1 red1 t1 x) (mul_right_vec O2 red2 t2 x').
Proof.
  intros HT HX. unfold mul_right_vec. eapply rrel_bind; [apply rel_mul_right; [exact HT|apply rel_of_vec, HX]|].
  intros A A' HA. apply (rel_mapM2 Qs); [apply HA|]. intros. apply rel_get_g. auto.
Qed.
Lemma rel_scale A A' s s' : mrel A A' -> Qs s s' -> mrel (scale_cols O1 A s) (scale_cols O2 A' s').
Proof.
  intros [A1 A2 A3] HS. constructor; cbn; auto. eapply rel_map_g; [exact A3|]. intros. apply rel_zip; auto. apply (q_mul _ _ _ H).
Qed.
End Rel.
