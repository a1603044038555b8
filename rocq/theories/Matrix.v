(** The fragment of nalgebra the drivers use: dynamically sized matrices and vectors.
    Vectors ([DVector<f64>]) are lists.  Matrices are stored here by rows (nalgebra stores them by
    columns; storage order is not observable through the operations used). *)
From Coq Require Import List Arith Bool Lia.
From Verif Require Import Base Float.
Import ListNotations.

Record matrix (F : Type) : Type := mkM { m_rows : nat; m_cols : nat; m_dat : list (list F) }.
Arguments mkM {F}. Arguments m_rows {F}. Arguments m_cols {F}. Arguments m_dat {F}.

Section Matrix.
Context {F : Type} (Fo : Fops F).

(** [DMatrix::from_element(r, c, a)], [DMatrix::zeros(r, c)] *)
Definition m_const (r c : nat) (a : F) : matrix F := mkM r c (repeat (repeat a c) r).
Definition m_zeros (r c : nat) : matrix F := m_const r c (f_zero Fo).

(** [M[(i, j)]], panics out of bounds *)
Definition m_get (A : matrix F) (i j : nat) : res F := row <- get (m_dat A) i ;; get row j.

(** [M[(i, j)] = a] *)
Definition m_set (A : matrix F) (i j : nat) (a : F) : res (matrix F) :=
  row <- get (m_dat A) i ;; row' <- set row j a ;; dat' <- set (m_dat A) i row' ;;
  Ok (mkM (m_rows A) (m_cols A) dat').

(** The matrix with entries [f i j]. *)
Definition m_tab (r c : nat) (f : nat -> nat -> F) : matrix F :=
  mkM r c (map (fun i => map (f i) (seq 0 c)) (seq 0 r)).

(** [DMatrix::identity(n, n)] *)
Definition m_id (n : nat) : matrix F :=
  m_tab n n (fun i j => if i =? j then f_one Fo else f_zero Fo).

(** entry of a matrix inside its bounds *)
Definition ent (A : matrix F) (i j : nat) : F := nth j (nth i (m_dat A) []) (f_zero Fo).

(** sum of products; one order of summation; nalgebra's own order is not in /repo, and OrderSpec.v
    and C87 treat every order *)
Fixpoint fdot (x y : list F) : F :=
  match x, y with
  | a :: x', b :: y' => f_add Fo (f_mul Fo a b) (fdot x' y')
  | _, _ => f_zero Fo
  end.

(** [A * v], panics on mismatched dimensions *)
Definition m_mulv (A : matrix F) (v : list F) : res (list F) :=
  if m_cols A =? length v then Ok (map (fun row => fdot row v) (m_dat A)) else Panic PDim.

(** [A + B] *)
Definition v_zip (f : F -> F -> F) (x y : list F) : list F :=
  map (fun p => f (fst p) (snd p)) (combine x y).
Definition m_add2 (A B : matrix F) : res (matrix F) :=
  if (m_rows A =? m_rows B) && (m_cols A =? m_cols B)
  then Ok (mkM (m_rows A) (m_cols A)
             (map (fun p => v_zip (f_add Fo) (fst p) (snd p)) (combine (m_dat A) (m_dat B))))
  else Panic PDim.

(** [v + w], [v - w], [-v], [v.abs()] on vectors *)
Definition v_add (x y : list F) : res (list F) :=
  if length x =? length y then Ok (v_zip (f_add Fo) x y) else Panic PDim.
Definition v_sub (x y : list F) : res (list F) :=
  if length x =? length y then Ok (v_zip (f_sub Fo) x y) else Panic PDim.
Definition v_neg (x : list F) : list F := map (f_neg Fo) x.
Definition v_abs (x : list F) : list F := map (f_abs Fo) x.

(** [-A] *)
Definition m_neg2 (A : matrix F) : matrix F := mkM (m_rows A) (m_cols A) (map v_neg (m_dat A)).

(** a vector as a matrix with one column, and back *)
Definition m_of_vec (x : list F) : matrix F := mkM (length x) 1 (map (fun a => [a]) x).

(** [for i in 0..m { M[(i, j)] = dy[i] }] *)
Definition m_fill_col (A : matrix F) (j m : nat) (dy : list F) : res (matrix F) :=
  foldM (fun A i => a <- get dy i ;; m_set A i j a) (seq 0 m) A.
(** [for j in 0..n { M[(i, j)] = xbar[j] }] *)
Definition m_fill_row (A : matrix F) (i n : nat) (xbar : list F) : res (matrix F) :=
  foldM (fun A j => a <- get xbar j ;; m_set A i j a) (seq 0 n) A.

(** A matrix whose data has the declared shape (every nalgebra matrix). *)
Definition wf_mat (A : matrix F) : Prop :=
  length (m_dat A) = m_rows A /\ Forall (fun row => length row = m_cols A) (m_dat A).

End Matrix.

(** rayon's [reduce(identity, op)]: the results of the parallel map, in index order, are combined
    pairwise in some tree; the identity may be inserted anywhere. *)
Inductive reduces {A : Type} (e : A) (op : A -> A -> A) : list A -> A -> Prop :=
| red_nil : reduces e op [] e
| red_one a : reduces e op [a] a
| red_app l1 l2 a b : reduces e op l1 a -> reduces e op l2 b ->
    reduces e op (l1 ++ l2) (op a b).

(** A way to combine lists of results: for every list of partial results some reduction tree with
    [Vec::new] and [append]. *)
Definition rayon {A : Type} (red : list (list A) -> list A) : Prop :=
  forall l, reduces [] (@app A) l (red l).
