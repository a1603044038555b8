(** Model of src/drivers/jacobian.rs. *)
From Coq Require Import List Arith Bool Lia.
From Verif Require Import Base Float Operation Tape AContext Methods Function Matrix.
Import ListNotations.

Section Jacobian.
Context {F : Type} (Fo : Fops F).
(** how rayon combines the partial results; see [rayon] *)
Context (red : list (list (nat * list F)) -> list (nat * list F)).

(** [let mut dx = DVector::from_element(n, 0.0); dx[j] = 1.0;] jacobian.rs:15-16, 57-58 *)
Definition unit_vec (n j : nat) : res (list F) := set (repeat (f_zero Fo) n) j (f_one Fo).

(** jacobian.rs:6-43.  The parallel evaluations run on variables without a context and do not
    touch the context map (see [eval_detached]), so each is run in the same world [w]. *)
Definition jacobian_forward (f : func F) (x : list F) (w : world F) : res (matrix F) :=
  n <- fn_n f ;;
  m <- fn_m f ;;
  _ <- assert (length x =? n) ;;
  parts <- mapM (fun j =>
      dx <- unit_vec n j ;;
      out <- eval Fo f (map (fun p => af_new (fst p) (snd p)) (combine x dx)) w ;;
      Ok [(j, map af_dv (fst out))]) (seq 0 n) ;;
  foldM (fun A (c : nat * list F) => m_fill_col A (fst c) m (snd c)) (red parts)
        (m_const m n (f_zero Fo)).

(** jacobian.rs:47-75 *)
Definition jacobian_reverse (t : tape F) : res (matrix F) :=
  let n := num_indeps t in
  let m := num_deps t in
  parts <- mapM (fun i =>
      ybar <- unit_vec m i ;;
      xbar <- tape_reverse Fo t ybar ;;
      Ok [(i, xbar)]) (seq 0 m) ;;
  foldM (fun A (r : nat * list F) => m_fill_row A (fst r) n (snd r)) (red parts)
        (m_const m n (f_zero Fo)).

End Jacobian.
