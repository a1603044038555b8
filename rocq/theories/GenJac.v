(** Model of src/drivers/generalized_jacobian.rs. *)
From Coq Require Import List Arith ZArith NArith Bool Lia.
From Verif Require Import Base Float Operation Tape AContext Methods Function Matrix AbsNormal Checkpoint.
Import ListNotations.

(** generalized_jacobian.rs:11-24 [bit_iter]: the closure's state is [idx]; bytes are numbers below
    256.  The iterator never ends, hence [signs.next().unwrap()] (line 88) cannot panic. *)
Definition bit_next (bytes : list N) (idx : nat) : bool * nat :=
  match nth_error bytes (idx / 8) with
  | Some byte => (N.ltb 0 (N.land byte (N.shiftl 1 (N.of_nat (idx mod 8)))), idx + 1)
  | None => (false, idx)
  end.

Section GenJac.
Context {F : Type} (Fo : Fops F).
(** how rayon combines partial results, see Matrix.v *)
Context (red : list (list (nat * list F)) -> list (nat * list F)).

(** generalized_jacobian.rs:4-9 *)
Record gjac : Type := mkG { g_hom : matrix F; g_inh : list F; g_mult : nat }.

(** [mul_right] applied to a vector: a vector is a matrix with one column, so is the result; as a
    list it is the first entry of each row. *)
Definition mul_right_vec (t : tape F) (v : list F) : res (list F) :=
  A <- mul_right Fo red t (m_of_vec v) ;; mapM (fun row => get row 0) (m_dat A).

(** [==] on vectors and matrices *)
Definition v_eqb (x y : list F) : bool :=
  (length x =? length y) && forallb (fun p => f_eqb Fo (fst p) (snd p)) (combine x y).
Definition m_eqb (A B : matrix F) : bool :=
  (m_rows A =? m_rows B) && (m_cols A =? m_cols B) &&
  forallb (fun p => v_eqb (fst p) (snd p)) (combine (m_dat A) (m_dat B)).

(** generalized_jacobian.rs:66-74: [k] remaining rounds *)
Fixpoint dz_loop (l_t : tape F) (dzt : list F) (k : nat) (dz : list F) : res (list F) :=
  match k with
  | O => Ok dz
  | S k' =>
      p <- mul_right_vec l_t (v_abs Fo dz) ;;
      dz' <- v_add Fo dzt p ;;
      if v_eqb dz' dz then Ok dz' else dz_loop l_t dzt k' dz'
  end.

(** generalized_jacobian.rs:77-90; returns sigma and multiplicity *)
Fixpoint signs_loop (bits : list N) (idx mult : nat) (dz : list F) : list F * nat :=
  match dz with
  | [] => ([], mult)
  | d :: dz' =>
      if f_ltb Fo d (f_zero Fo) then
        let '(sg, k) := signs_loop bits idx mult dz' in (f_neg Fo (f_one Fo) :: sg, k)
      else if f_ltb Fo (f_zero Fo) d then
        let '(sg, k) := signs_loop bits idx mult dz' in (f_one Fo :: sg, k)
      else
        let '(b, idx') := bit_next bits idx in
        let '(sg, k) := signs_loop bits idx' (mult + 1) dz' in
        ((if b then f_one Fo else f_neg Fo (f_one Fo)) :: sg, k)
  end.

(** generalized_jacobian.rs:106-110 and 121-125: [for i .. for j .. A[(i, j)] *= sigma[j]] over the
    whole matrix; the loops over the indices are modelled as one pass over the rows *)
Definition scale_cols (A : matrix F) (sigma : list F) : matrix F :=
  mkM (m_rows A) (m_cols A) (map (fun r => v_zip (f_mul Fo) r sigma) (m_dat A)).

(** generalized_jacobian.rs:112-134: [u2] is always the previous [u1] *)
Fixpoint u_loop (l_t : tape F) (sigma : list F) (base : matrix F) (k : nat) (u : matrix F)
  : res (matrix F) :=
  match k with
  | O => Ok u
  | S k' =>
      u1 <- mul_left Fo red l_t u ;;
      u1 <- m_add2 Fo (scale_cols u1 sigma) base ;;
      if m_eqb u1 u then Ok u1 else u_loop l_t sigma base k' u1
  end.

(** generalized_jacobian.rs:40-147 [generalized_jacobian_tape] *)
Definition generalized_jacobian_tape (t : tape F) (dx : list F) (bits : list N) (next : option gjac)
  : res gjac :=
  let n := num_indeps t in
  let m := num_deps t in
  let s := num_abs t in
  _ <- assert (length dx =? n) ;;
  at_ <- an_new t ;;
  z <- an_z at_ ;;
  let z_abs := v_abs Fo z in
  lz <- mul_right_vec (l_tape at_) z_abs ;;
  a <- v_sub Fo z lz ;;
  yz <- mul_right_vec (y_tape at_) z_abs ;;
  let b := v_neg Fo yz in
  zdx <- mul_right_vec (z_tape at_) dx ;;
  dzt <- v_add Fo a zdx ;;
  dz <- dz_loop (l_tape at_) dzt s dzt ;;
  let '(sigma, mult) := signs_loop bits 0 0 dz in
  let '(g2, gamma2, mult) :=
    match next with
    | Some g => (g_hom g, g_inh g, mult + g_mult g)
    | None => (m_id Fo m, repeat (f_zero Fo) m, mult)
    end in
  ys <- mul_left Fo red (y_tape at_) g2 ;;
  let base := scale_cols ys sigma in
  u <- u_loop (l_tape at_) sigma base s base ;;
  gj <- mul_left Fo red (j_tape at_) g2 ;;
  uz <- mul_left Fo red (z_tape at_) u ;;
  hom <- m_add2 Fo gj uz ;;
  g2b <- m_mulv Fo g2 b ;;
  i1 <- v_add Fo gamma2 g2b ;;
  ua <- m_mulv Fo u a ;;
  inh <- v_add Fo i1 ua ;;
  Ok (mkG hom inh mult).

(** generalized_jacobian.rs:27-37 [generalized_jacobian] *)
Definition generalized_jacobian (f : func F) (x dx : list F) (bits : list N) (next : option gjac)
  : M (world F) gjac :=
  n <~ mlift (fn_n f) ;;
  _ <~ mlift (assert (length x =? n)) ;;
  t <~ fn_tape Fo f x ;;
  mlift (generalized_jacobian_tape t dx bits next).

(** generalized_jacobian.rs:160-176: the closure [forward] *)
Definition gj_forward (chain : func F) (st : nat * list F * list F)
  : M (world F) (nat * list F * list F) :=
  let '(idx, x, dx) := st in
  f <~ mlift (chain_nth chain idx) ;;
  y <~ eval Fo f (map (fun p => af_new (fst p) (snd p)) (combine x dx)) ;;
  mret (idx + 1, map af_v y, map af_dv y).

(** generalized_jacobian.rs:177-180: the closure [reverse]; [&[0]] is one zero byte *)
Definition gj_reverse (chain : func F) (st : nat * list F * list F) (g2 : gjac)
  : M (world F) gjac :=
  let '(idx, x, dx) := st in
  f <~ mlift (chain_nth chain idx) ;;
  generalized_jacobian f x dx [0%N] (Some g2).

(** generalized_jacobian.rs:181-185: the closure [identity] *)
Definition gj_identity (st : nat * list F * list F) : M (world F) gjac :=
  let '(_, x, _) := st in
  mret (mkG (m_id Fo (length x)) (repeat (f_zero Fo) (length x)) 0).

(** generalized_jacobian.rs:150-187 [generalized_jacobian_chain]; [est] is the floating point
    estimate of the checkpoint schedule, see Checkpoint.v *)
Definition generalized_jacobian_chain (est : Z -> Z -> Z) (chain : func F) (x dx : list F)
  (ncheckpoints : option nat) : M (world F) gjac :=
  reverse_sequence est (gj_forward chain) (gj_reverse chain) gj_identity
    (0, x, dx) (chain_len chain)
    (match ncheckpoints with Some k => k | None => chain_len chain end).

End GenJac.
Arguments gjac F : clear implicits.
Arguments mkG {F}. Arguments g_hom {F}. Arguments g_inh {F}. Arguments g_mult {F}.
