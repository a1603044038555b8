(** Facts about the matrix fragment and rayon's reduction. *)
From Coq Require Import List Arith Bool Lia.
From Verif Require Import Base Float Matrix.
Import ListNotations.

Lemma reduces_concat {A} (l : list (list A)) r : reduces [] (@app A) l r -> r = concat l.
Proof.
  induction 1 as [|a|l1 l2 a b H1 IH1 H2 IH2]; cbn; auto.
  - rewrite app_nil_r. auto.
  - rewrite concat_app. congruence.
Qed.

Lemma rayon_concat {A} (red : list (list A) -> list A) l : rayon red -> red l = concat l.
Proof. intros H. apply reduces_concat, H. Qed.

Lemma rayon_exists {A} : rayon (@concat A).
Proof.
  intros l. induction l as [|a l IH]; [constructor|].
  change (a :: l) with ([a] ++ l). apply (red_app _ _ [a] l a (concat l)); auto. constructor.
Qed.

Lemma concat_singletons {A B} (f : A -> B) l : concat (map (fun a => [f a]) l) = map f l.
Proof. induction l; cbn; congruence. Qed.

Ltac bdestr :=
  repeat match goal with
  | |- context [?a =? ?b] => destruct (Nat.eqb_spec a b)
  | |- context [?a <=? ?b] => destruct (Nat.leb_spec a b)
  | |- context [?a <? ?b] => destruct (Nat.ltb_spec a b)
  end; cbn [andb]; subst; try lia; auto.

Section Facts.
Context {F : Type} (Fo : Fops F).
Notation ent := (ent Fo).

Lemma nth_map_seq {A} (f : nat -> A) n i d : i < n -> nth i (map f (seq 0 n)) d = f i.
Proof.
  intros H. apply nth_error_nth. rewrite nth_error_map.
  rewrite (nth_error_nth' _ 0) by (rewrite seq_length; auto). cbn. rewrite seq_nth; auto.
Qed.

Lemma nth_error_map_seq {A} (f : nat -> A) n i : i < n -> nth_error (map f (seq 0 n)) i = Some (f i).
Proof.
  intros H. rewrite nth_error_map, (nth_error_nth' _ 0) by (rewrite seq_length; auto).
  cbn. rewrite seq_nth; auto.
Qed.

Lemma update_map_seq {A} (f : nat -> A) n i a :
  update (map f (seq 0 n)) i a = map (fun k => if k =? i then a else f k) (seq 0 n).
Proof.
  apply list_ext.
  - rewrite update_length, !map_length. auto.
  - intros k H. rewrite update_length, map_length, seq_length in H.
    rewrite (nth_error_map_seq (fun k => if k =? i then a else f k)) by auto.
    destruct (Nat.eqb_spec k i) as [->|Hne].
    * apply nth_error_update_eq. rewrite map_length, seq_length; auto.
    * rewrite nth_error_update_neq by auto. apply nth_error_map_seq; auto.
Qed.

Lemma m_tab_wf r c (f : nat -> nat -> F) : wf_mat (m_tab r c f).
Proof.
  split; cbn; [rewrite map_length, seq_length; auto|].
  apply Forall_forall. intros row H. apply in_map_iff in H as (i & <- & _).
  rewrite map_length, seq_length; auto.
Qed.

Lemma ent_tab r c f i j : i < r -> j < c -> ent (m_tab r c f) i j = f i j.
Proof.
  intros Hi Hj. unfold Matrix.ent; cbn. rewrite nth_map_seq by auto. apply nth_map_seq; auto.
Qed.

Lemma m_tab_ext r c (f g : nat -> nat -> F) :
  (forall i j, i < r -> j < c -> f i j = g i j) -> m_tab r c f = m_tab r c g.
Proof.
  intros H. unfold m_tab. f_equal. apply map_ext_in. intros i Hi. apply in_seq in Hi.
  apply map_ext_in. intros j Hj. apply in_seq in Hj. apply H; lia.
Qed.

(** Every matrix is given by its entries. *)
Lemma wf_mat_tab A : wf_mat A -> A = m_tab (m_rows A) (m_cols A) (ent A).
Proof.
  destruct A as [r c d]. intros [H1 H2]; cbn in *. unfold m_tab. f_equal.
  apply list_ext; [rewrite map_length, seq_length; auto|]. intros i Hi. rewrite H1 in Hi.
  rewrite nth_error_map_seq by auto. destruct (nth_error d i) as [row|] eqn:E.
  2: { apply nth_error_None in E. lia. }
  f_equal. unfold Matrix.ent; cbn. rewrite (nth_error_nth _ _ _ E).
  rewrite Forall_forall in H2. specialize (H2 row (nth_error_In _ _ E)).
  apply list_ext; [rewrite map_length, seq_length; auto|]. intros j Hj. rewrite H2 in Hj.
  rewrite nth_error_map_seq by auto. apply nth_error_nth'. lia.
Qed.

Lemma mat_ext A B : wf_mat A -> wf_mat B -> m_rows A = m_rows B -> m_cols A = m_cols B ->
  (forall i j, i < m_rows A -> j < m_cols A -> ent A i j = ent B i j) -> A = B.
Proof.
  intros HA HB Er Ec H. rewrite (wf_mat_tab A HA), (wf_mat_tab B HB), <- Er, <- Ec.
  apply m_tab_ext. auto.
Qed.

Lemma m_const_tab r c (a : F) : m_const r c a = m_tab r c (fun _ _ => a).
Proof.
  unfold m_const, m_tab. f_equal.
  assert (forall A (b : A) n s, repeat b n = map (fun _ => b) (seq s n)) as G.
  { intros A b n. induction n; intros s; cbn; f_equal; auto. }
  rewrite (G _ (repeat a c) r 0). apply map_ext. intros _. apply G.
Qed.

Lemma m_get_tab r c (f : nat -> nat -> F) i j : i < r -> j < c -> m_get (m_tab r c f) i j = Ok (f i j).
Proof.
  intros Hi Hj. unfold m_get; cbn. unfold get at 1. rewrite nth_error_map_seq by auto. cbn.
  unfold get. rewrite nth_error_map_seq by auto. reflexivity.
Qed.

Lemma m_get_wf A i j : wf_mat A -> i < m_rows A -> j < m_cols A -> m_get A i j = Ok (ent A i j).
Proof. intros W Hi Hj. rewrite (wf_mat_tab A W) at 1. rewrite m_get_tab; auto. Qed.

Lemma m_set_tab r c (f : nat -> nat -> F) i j a : i < r -> j < c ->
  m_set (m_tab r c f) i j a =
  Ok (m_tab r c (fun i' j' => if (i' =? i) && (j' =? j) then a else f i' j')).
Proof.
  intros Hi Hj. unfold m_set; cbn. unfold get. rewrite nth_error_map_seq by auto. cbn [bind].
  rewrite set_lt by (rewrite map_length, seq_length; auto). cbn [bind].
  rewrite set_lt by (rewrite map_length, seq_length; auto). cbn [bind].
  unfold m_tab. do 2 f_equal. rewrite !update_map_seq. apply map_ext. intros k.
  destruct (Nat.eqb_spec k i) as [->|Hne]; cbn; auto.
Qed.

Lemma m_fill_col_tab r c (f : nat -> nat -> F) j (dy : list F) : j < c -> r <= length dy ->
  m_fill_col (m_tab r c f) j r dy =
  Ok (m_tab r c (fun i' j' => if j' =? j then nth i' dy (f_zero Fo) else f i' j')).
Proof.
  intros Hj Hl. unfold m_fill_col.
  assert (forall k s g, s + k <= r ->
    foldM (fun A i => a <- get dy i ;; m_set A i j a) (seq s k) (m_tab r c g) =
    Ok (m_tab r c (fun i' j' => if (j' =? j) && (s <=? i') && (i' <? s + k)
                                then nth i' dy (f_zero Fo) else g i' j'))) as G.
  { induction k as [|k IH]; intros s g H; cbn [seq foldM].
    - f_equal. apply m_tab_ext. intros i' j' _ _. bdestr.
    - unfold get at 1. rewrite (nth_error_nth' dy (f_zero Fo)) by lia. cbn [bind].
      rewrite m_set_tab by lia. cbn [bind]. rewrite IH by lia. f_equal. apply m_tab_ext. intros i' j' _ _. bdestr. }
  rewrite (G r 0 f) by lia. f_equal. apply m_tab_ext. intros i' j' ? ?. bdestr.
Qed.

Lemma m_fill_row_tab r c (f : nat -> nat -> F) i (xb : list F) : i < r -> c <= length xb ->
  m_fill_row (m_tab r c f) i c xb =
  Ok (m_tab r c (fun i' j' => if i' =? i then nth j' xb (f_zero Fo) else f i' j')).
Proof.
  intros Hj Hl. unfold m_fill_row.
  assert (forall k s g, s + k <= c ->
    foldM (fun A j => a <- get xb j ;; m_set A i j a) (seq s k) (m_tab r c g) =
    Ok (m_tab r c (fun i' j' => if (i' =? i) && (s <=? j') && (j' <? s + k)
                                then nth j' xb (f_zero Fo) else g i' j'))) as G.
  { induction k as [|k IH]; intros s g H; cbn [seq foldM].
    - f_equal. apply m_tab_ext. intros i' j' _ _. bdestr.
    - unfold get at 1. rewrite (nth_error_nth' xb (f_zero Fo)) by lia. cbn [bind].
      rewrite m_set_tab by lia. cbn [bind]. rewrite IH by lia. f_equal. apply m_tab_ext. intros i' j' _ _. bdestr. }
  rewrite (G c 0 f) by lia. f_equal. apply m_tab_ext. intros i' j' ? ?. bdestr.
Qed.

(** Filling all columns, resp. rows. *)
Lemma fill_cols r c (a : F) (d : nat -> list F) : (forall j, j < c -> r <= length (d j)) ->
  foldM (fun A (p : nat * list F) => m_fill_col A (fst p) r (snd p))
    (map (fun j => (j, d j)) (seq 0 c)) (m_const r c a) =
  Ok (m_tab r c (fun i j => nth i (d j) (f_zero Fo))).
Proof.
  intros HL. rewrite m_const_tab.
  assert (forall k s g, s + k <= c ->
    foldM (fun A (p : nat * list F) => m_fill_col A (fst p) r (snd p))
      (map (fun j => (j, d j)) (seq s k)) (m_tab r c g) =
    Ok (m_tab r c (fun i j => if (s <=? j) && (j <? s + k) then nth i (d j) (f_zero Fo) else g i j)))
    as G.
  { induction k as [|k IH]; intros s g H; cbn [seq map foldM].
    - f_equal. apply m_tab_ext. intros i j _ _. bdestr.
    - cbn [fst snd]. rewrite m_fill_col_tab by (lia || (apply HL; lia)). cbn [bind].
      rewrite IH by lia. f_equal. apply m_tab_ext. intros i j _ _. bdestr. }
  rewrite (G c 0 _) by lia. f_equal. apply m_tab_ext. intros i j ? ?. bdestr.
Qed.

Lemma fill_rows r c (a : F) (d : nat -> list F) : (forall i, i < r -> c <= length (d i)) ->
  foldM (fun A (p : nat * list F) => m_fill_row A (fst p) c (snd p))
    (map (fun i => (i, d i)) (seq 0 r)) (m_const r c a) =
  Ok (m_tab r c (fun i j => nth j (d i) (f_zero Fo))).
Proof.
  intros HL. rewrite m_const_tab.
  assert (forall k s g, s + k <= r ->
    foldM (fun A (p : nat * list F) => m_fill_row A (fst p) c (snd p))
      (map (fun j => (j, d j)) (seq s k)) (m_tab r c g) =
    Ok (m_tab r c (fun i j => if (s <=? i) && (i <? s + k) then nth j (d i) (f_zero Fo) else g i j)))
    as G.
  { induction k as [|k IH]; intros s g H; cbn [seq map foldM].
    - f_equal. apply m_tab_ext. intros i j _ _. bdestr.
    - cbn [fst snd]. rewrite m_fill_row_tab by (lia || (apply HL; lia)). cbn [bind].
      rewrite IH by lia. f_equal. apply m_tab_ext. intros i j _ _. bdestr. }
  rewrite (G r 0 _) by lia. f_equal. apply m_tab_ext. intros i j ? ?. bdestr.
Qed.

Lemma mapM_fun {A B} (f : A -> res B) g l :
  (forall a, In a l -> f a = Ok (g a)) -> mapM f l = Ok (map g l).
Proof.
  induction l as [|a l IH]; intros H; cbn; auto.
  rewrite H by (left; auto). cbn. rewrite IH; auto. intros b Hb. apply H; right; auto.
Qed.

Lemma mapM_panics {A B} (f : A -> res B) l a :
  In a l -> (forall b, f a <> Ok b) -> forall bs, mapM f l <> Ok bs.
Proof.
  intros Hin Hf. induction l as [|c l IH]; intros bs E; [destruct Hin|].
  cbn in E. apply bind_ok in E as (b & E1 & E). apply bind_ok in E as (bs' & E2 & _).
  destruct Hin as [->|Hin]; [apply (Hf b E1)|apply (IH Hin bs' E2)].
Qed.
End Facts.
