(** Vocabulary for rounding errors of the nonsmooth drivers. *)
From Coq Require Import Reals List Arith NArith Bool SpecFloat.
From Verif Require Import Base Float Operation Tape AContext Function RealInst F64Facts BallSpec Matrix AbsNormal GenJac.
Import ListNotations.
Local Open Scope R_scope.

(** The switching values the driver compares with zero (generalized_jacobian.rs:53-74), in any
    arithmetic. *)
Definition switching_values {F : Type} (Fo : Fops F) (red : list (list (nat * list F)) -> list (nat * list F))
  (t : tape F) (dx : list F) : res (list F) :=
  at_ <- an_new t ;;
  z <- an_z at_ ;;
  lz <- mul_right_vec Fo red (l_tape at_) (v_abs Fo z) ;;
  a <- v_sub Fo z lz ;;
  zdx <- mul_right_vec Fo red (z_tape at_) dx ;;
  dzt <- v_add Fo a zdx ;;
  dz_loop Fo red (l_tape at_) dzt (num_abs t) dzt.

(** The two fixed-point loops (generalized_jacobian.rs:66-74, 112-134) without the comparison that ends them early. *)
Section Iter.
Context {F : Type} (Fo : Fops F) (red : list (list (nat * list F)) -> list (nat * list F)).
Fixpoint dz_iter (lt : tape F) (dzt : list F) (k : nat) (dz : list F) : res (list F) :=
  match k with
  | O => Ok dz
  | S k' => p <- mul_right_vec Fo red lt (v_abs Fo dz) ;; dz' <- v_add Fo dzt p ;; dz_iter lt dzt k' dz'
  end.
Fixpoint u_iter (lt : tape F) (sigma : list F) (base : matrix F) (k : nat) (u : matrix F) : res (matrix F) :=
  match k with
  | O => Ok u
  | S k' => u1 <- mul_left Fo red lt u ;; u1 <- m_add2 Fo (scale_cols Fo u1 sigma) base ;; u_iter lt sigma base k' u1
  end.
(** The driver (generalized_jacobian.rs:40-147) with these loops: always num_abs rounds. *)
Definition gj_no_exit (t : tape F) (dx : list F) (bits : list N) (next : option (gjac F)) : res (gjac F) :=
  _ <- assert (Nat.eqb (length dx) (num_indeps t)) ;;
  at_ <- an_new t ;;
  z <- an_z at_ ;;
  lz <- mul_right_vec Fo red (l_tape at_) (v_abs Fo z) ;;
  a <- v_sub Fo z lz ;;
  yz <- mul_right_vec Fo red (y_tape at_) (v_abs Fo z) ;;
  zdx <- mul_right_vec Fo red (z_tape at_) dx ;;
  dzt <- v_add Fo a zdx ;;
  dz <- dz_iter (l_tape at_) dzt (num_abs t) dzt ;;
  let '(sigma, mult) := signs_loop Fo bits 0 0 dz in
  let '(g2, gamma2, mult) :=
    match next with
    | Some g => (g_hom g, g_inh g, mult + g_mult g)%nat
    | None => (m_id Fo (num_deps t), repeat (f_zero Fo) (num_deps t), mult)
    end in
  ys <- mul_left Fo red (y_tape at_) g2 ;;
  let base := scale_cols Fo ys sigma in
  u <- u_iter (l_tape at_) sigma base (num_abs t) base ;;
  gj <- mul_left Fo red (j_tape at_) g2 ;;
  uz <- mul_left Fo red (z_tape at_) u ;;
  hom <- m_add2 Fo gj uz ;;
  g2b <- m_mulv Fo g2 (v_neg Fo yz) ;;
  i1 <- v_add Fo gamma2 g2b ;;
  ua <- m_mulv Fo u a ;;
  inh <- v_add Fo i1 ua ;;
  Ok (mkG hom inh mult).
End Iter.

(** Every double in the ball has the sign of its centre. *)
Definition decided (b : ball) : Prop :=
  match b with Some (c, r) => r < Rabs c \/ (c = 0 /\ r = 0) | None => False end.

(** Entry by entry: where the ball is [Some (c, r)], [c] is the entry of the exact matrix and the
    double is within [r] of it. *)
Definition bounded_mat (A : matrix spec_float) (B : matrix ball) (C : matrix R) : Prop :=
  (m_rows A = m_rows B /\ m_cols A = m_cols B) /\ (m_rows C = m_rows B /\ m_cols C = m_cols B) /\
  forall i j c r, (i < m_rows B)%nat -> (j < m_cols B)%nat -> m_get B i j = Ok (Some (c, r)) ->
    m_get C i j = Ok c /\ exists x v, m_get A i j = Ok x /\ f64 x v /\ Rabs (v - c) <= r.

(** Equal as numbers: the same double, or zeros of either sign. *)
Definition same_number (a b : spec_float) : Prop :=
  a = b \/ exists s s', a = S754_zero s /\ b = S754_zero s'.

(** Two matrices or results of the driver that [==] cannot tell apart. *)
Definition same_mat (A B : matrix spec_float) : Prop :=
  m_rows A = m_rows B /\ m_cols A = m_cols B /\ Forall2 (Forall2 same_number) (m_dat A) (m_dat B).
Definition same_gjac (G H : gjac spec_float) : Prop :=
  same_mat (g_hom G) (g_hom H) /\ Forall2 same_number (g_inh G) (g_inh H) /\ g_mult G = g_mult H.
