(** Model of src/drivers/abs_normal.rs. *)
From Coq Require Import List Arith Bool Lia.
From Verif Require Import Base Float Operation Tape AContext Methods Function Matrix.
Import ListNotations.

(** abs_normal.rs:109-115: the operations of an [AbsNormalTape] *)
Definition deabs (o : operation) : operation := if is_abs o then op_nop else o.

Section AbsNormal.
Context {F : Type} (Fo : Fops F).
(** how rayon combines the partial results; see [rayon] in Matrix.v *)
Context (red : list (list (nat * list F)) -> list (nat * list F)).

(** abs_normal.rs:27-30 *)
Definition abs_ids (t : tape F) : list nat := map vid (filter is_abs (t_ops t)).
(** abs_normal.rs:37-40, 88-91 *)
Definition abs_args (t : tape F) : res (list nat) :=
  mapM (fun o => unwrap (arg1 o)) (filter is_abs (t_ops t)).

(** abs_normal.rs:7-14 *)
Record antape : Type := mkAN {
  an_inner : tape F;
  an_indeps : list nat;
  an_deps : list nat;
  an_n : nat;
  an_m : nat;
  an_s : nat
}.

(** abs_normal.rs:17-52 [AbsNormalTape::new] *)
Definition an_new (t : tape F) : res antape :=
  args <- abs_args t ;;
  Ok (mkAN t (t_indeps t ++ abs_ids t) (args ++ t_deps t)
           (num_indeps t) (num_deps t) (num_abs t)).

(** abs_normal.rs:65-74, 76-85 [x()], [y()] (shadowing the trait's) and 87-96 [z()] *)
Definition an_x (a : antape) : res (list F) := gather (t_indeps (an_inner a)) (t_vals (an_inner a)).
Definition an_y (a : antape) : res (list F) := gather (t_deps (an_inner a)) (t_vals (an_inner a)).
Definition an_z (a : antape) : res (list F) :=
  ids <- abs_args (an_inner a) ;; gather ids (t_vals (an_inner a)).

(** abs_normal.rs:99-124 [impl Tape for AbsNormalTape] *)
Definition an_tape (a : antape) : tape F :=
  mkTape (an_indeps a) (an_deps a) (map deabs (t_ops (an_inner a))) (t_vals (an_inner a)).

(** [Tape::zero_order] (tape.rs:62-72) on an [AbsNormalTape]: its [values_mut] are those of the
    inner tape (abs_normal.rs:121-123) *)
Definition an_zero_order (a : antape) (xw : list F) : res antape :=
  t' <- tape_zero_order Fo (an_tape a) xw ;;
  Ok (mkAN (mkTape (t_indeps (an_inner a)) (t_deps (an_inner a)) (t_ops (an_inner a)) (t_vals t'))
           (an_indeps a) (an_deps a) (an_n a) (an_m a) (an_s a)).

(** abs_normal.rs:126-144 and 231-249 [anf_matrix!], instantiated in 254-277 *)
Definition sub_tape (indep dep : nat -> list nat -> list nat) (a : antape) : tape F :=
  mkTape (indep (an_n a) (t_indeps (an_tape a))) (dep (an_s a) (t_deps (an_tape a)))
         (t_ops (an_tape a)) (t_vals (an_tape a)).
Definition z_tape : antape -> tape F := sub_tape (@firstn nat) (@firstn nat).
Definition l_tape : antape -> tape F := sub_tape (@skipn nat) (@firstn nat).
Definition j_tape : antape -> tape F := sub_tape (@firstn nat) (@skipn nat).
Definition y_tape : antape -> tape F := sub_tape (@skipn nat) (@skipn nat).

(** [Tape::zero_order] (tape.rs:62-72) on one of the four sub-tapes, whose [values_mut]
    panics (abs_normal.rs:246-248) *)
Definition sub_zero_order (t : tape F) (x : list F) : res (tape F) :=
  t' <- tape_zero_order Fo t x ;; Panic PValuesMut.

(** abs_normal.rs:154-183 [mul_right] for any of the four sub-tapes *)
Definition mul_right (t : tape F) (rhs : matrix F) : res (matrix F) :=
  _ <- assert (num_indeps t =? m_rows rhs) ;;
  cols <- mapM (fun j =>
      dx <- mapM (fun i => m_get rhs i j) (seq 0 (m_rows rhs)) ;;
      dy <- tape_forward Fo t dx ;;
      Ok [(j, dy)]) (seq 0 (m_cols rhs)) ;;
  foldM (fun A (c : nat * list F) => m_fill_col A (fst c) (num_deps t) (snd c)) (red cols)
        (m_zeros Fo (num_deps t) (m_cols rhs)).

(** abs_normal.rs:185-214 [mul_left] *)
Definition mul_left (t : tape F) (lhs : matrix F) : res (matrix F) :=
  _ <- assert (m_cols lhs =? num_deps t) ;;
  rows <- mapM (fun i =>
      ybar <- mapM (fun j => m_get lhs i j) (seq 0 (m_cols lhs)) ;;
      xbar <- tape_reverse Fo t ybar ;;
      Ok [(i, xbar)]) (seq 0 (m_rows lhs)) ;;
  foldM (fun A (r : nat * list F) => m_fill_row A (fst r) (num_indeps t) (snd r)) (red rows)
        (m_zeros Fo (m_rows lhs) (num_indeps t)).

(** abs_normal.rs:216-220 [row] *)
Definition sub_row (t : tape F) (i : nat) : res (matrix F) :=
  ind <- m_set (m_zeros Fo 1 (num_deps t)) 0 i (f_one Fo) ;;
  mul_left t ind.

(** abs_normal.rs:222-226 [column]; [ind[i]] is linear indexing, for one row the column *)
Definition sub_column (t : tape F) (i : nat) : res (matrix F) :=
  ind <- m_set (m_zeros Fo 1 (num_indeps t)) 0 i (f_one Fo) ;;
  mul_right t ind.

(** abs_normal.rs:280-289 *)
Record anf : Type := mkANF {
  f_a : list F;
  f_zmat : matrix F;
  f_lmat : matrix F;
  f_b : list F;
  f_jmat : matrix F;
  f_ymat : matrix F
}.

(** abs_normal.rs:296-336, after taping *)
Definition abs_normal_tape (t : tape F) : res anf :=
  at_ <- an_new t ;;
  let n := an_n at_ in
  let m := an_m at_ in
  let s := an_s at_ in
  zmat <- (if n <? s then mul_right (z_tape at_) (m_id Fo n) else mul_left (z_tape at_) (m_id Fo s)) ;;
  lmat <- mul_left (l_tape at_) (m_id Fo s) ;;
  jmat <- (if n <? m then mul_right (j_tape at_) (m_id Fo n) else mul_left (j_tape at_) (m_id Fo m)) ;;
  ymat <- (if s <? m then mul_right (y_tape at_) (m_id Fo s) else mul_left (y_tape at_) (m_id Fo m)) ;;
  z <- an_z at_ ;;
  let z_abs := v_abs Fo z in
  lz <- m_mulv Fo lmat z_abs ;;
  a <- v_sub Fo z lz ;;
  b <- m_mulv Fo (m_neg2 Fo ymat) z_abs ;;
  Ok (mkANF a zmat lmat b jmat ymat).

(** abs_normal.rs:293-336 [abs_normal] *)
Definition abs_normal (f : func F) (x : list F) (w : world F) : res anf :=
  tw <- fn_tape Fo f x w ;; abs_normal_tape (fst tw).

End AbsNormal.
