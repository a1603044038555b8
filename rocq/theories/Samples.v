(** Model of src/drivers/testfunc.rs, the functions with which the library's unit tests compare the
    abs-normal and generalized Jacobian drivers. *)
From Coq Require Import List Arith ZArith NArith Bool.
From Verif Require Import Base Float Operation Tape AContext Methods Function Matrix AbsNormal GenJac.
Import ListNotations.

Section Samples.
Context {F : Type} (Fo : Fops F).

(** testfunc.rs:3-7 [halfpipe], as the object [adv_fn_obj!(halfpipe)].  Registers: 0, 1 the inputs
    x1, x2; 2 [x2.powi(2)]; 3 [0.0.into()]; 4 [x1.max(..)]; 5 the difference; 6 [0.0.into()];
    7 the result *)
Definition halfpipe : func F :=
  AdvFn 2 1 (Let1 (UPowi 2) 1 (LetC (f_zero Fo) (Let2 BMax 0 3 (Let2 BSub 2 4
            (LetC (f_zero Fo) (Let2 BMax 5 6 (Ret [7]))))))).

(** testfunc.rs:9-13 [halfpipe_1] *)
Definition halfpipe_1 : func F :=
  AdvFn 2 2 (LetC (f_zero Fo) (Let2 BMax 0 2 (Let1 (UPowi 2) 1 (Ret [3; 4])))).

(** testfunc.rs:15-19 [halfpipe_2] *)
Definition halfpipe_2 : func F :=
  AdvFn 2 1 (Let2 BSub 1 0 (LetC (f_zero Fo) (Let2 BMax 2 3 (Ret [4])))).

(** generalized_jacobian.rs:261-262: the chain of the two *)
Definition halfpipe_chain : res (func F) := chain_append (chain_new halfpipe_1) halfpipe_2.

(** [DMatrix::from_vec(r, c, v)]: by columns; its panic on a wrong number of entries is not
    modelled *)
Definition m_from_vec (r c : nat) (v : list F) : matrix F :=
  m_tab r c (fun i j => nth (j * r + i) v (f_zero Fo)).

(** the literals 0.25 and 2.0 *)
Definition c_quarter : F := f_div Fo (f_one Fo) (f_of_Z Fo 4).
Definition c_two : F := f_of_Z Fo 2.

(** testfunc.rs:21-42 [halfpipe_anf] at [x = (x0, x1)] *)
Definition halfpipe_anf (x0 x1 : F) : res (anf (F := F)) :=
  let zmat := m_from_vec 2 2 [f_one Fo; f_neg Fo (f_half Fo); f_zero Fo; f_mul Fo c_two x1] in
  let lmat := m_from_vec 2 2 [f_zero Fo; f_neg Fo (f_half Fo); f_zero Fo; f_zero Fo] in
  let jmat := m_from_vec 1 2 [f_neg Fo c_quarter; x1] in
  let ymat := m_from_vec 1 2 [f_neg Fo c_quarter; f_half Fo] in
  let z := [x0; f_sub Fo (f_sub Fo (f_mul Fo x1 x1) (f_div Fo x0 c_two)) (f_div Fo (f_abs Fo x0) c_two)] in
  lz <- m_mulv Fo lmat (v_abs Fo z) ;;
  a <- v_sub Fo z lz ;;
  b <- m_mulv Fo (m_neg2 Fo ymat) (v_abs Fo z) ;;
  Ok (mkANF a zmat lmat b jmat ymat).

(** [A * B], [A - B] *)
Definition m_mul2 (A B : matrix F) : res (matrix F) :=
  if m_cols A =? m_rows B
  then Ok (m_tab (m_rows A) (m_cols B)
             (fun i j => fdot Fo (nth i (m_dat A) []) (map (fun r => nth j r (f_zero Fo)) (m_dat B))))
  else Panic PDim.
Definition m_sub2 (A B : matrix F) : res (matrix F) :=
  if (m_rows A =? m_rows B) && (m_cols A =? m_cols B)
  then Ok (m_tab (m_rows A) (m_cols A) (fun i j => f_sub Fo (ent Fo A i j) (ent Fo B i j)))
  else Panic PDim.

(** [try_inverse] of a 2x2 matrix: nalgebra uses the closed formula; other sizes are not needed *)
Definition m_inverse2 (A : matrix F) : option (matrix F) :=
  let m := ent Fo A in
  let det := f_sub Fo (f_mul Fo (m 0 0) (m 1 1)) (f_mul Fo (m 1 0) (m 0 1)) in
  if f_eqb Fo det (f_zero Fo) then None
  else Some (mkM 2 2 [[f_div Fo (m 1 1) det; f_div Fo (f_neg Fo (m 0 1)) det];
                      [f_div Fo (f_neg Fo (m 1 0)) det; f_div Fo (m 0 0) det]]).

(** testfunc.rs:54-72: the sign of a switching value and whether it counts for the multiplicity *)
Definition hp_sign (dz : F) : F * nat :=
  if f_ltb Fo dz (f_zero Fo) then (f_neg Fo (f_one Fo), 0)
  else if f_ltb Fo (f_zero Fo) dz then (f_one Fo, 0)
  else (f_neg Fo (f_one Fo), 1).

(** testfunc.rs:44-86 [halfpipe_jacobian] *)
Definition halfpipe_jacobian (x0 x1 dx0 dx1 : F) : res (gjac F) :=
  N <- halfpipe_anf x0 x1 ;;
  a0 <- get (f_a N) 0 ;; a1 <- get (f_a N) 1 ;;
  let dz0 := f_add Fo a0 (f_mul Fo (ent Fo (f_zmat N) 0 0) dx0) in
  let dz1 := f_add Fo (f_add Fo (f_add Fo a1 (f_mul Fo (ent Fo (f_zmat N) 1 0) dx0))
                                (f_mul Fo (ent Fo (f_zmat N) 1 1) dx1))
                      (f_mul Fo (ent Fo (f_lmat N) 1 0) (f_abs Fo dz0)) in
  let '(s0, k0) := hp_sign dz0 in
  let '(s1, k1) := hp_sign dz1 in
  let sigma := mkM 2 2 [[s0; f_zero Fo]; [f_zero Fo; s1]] in
  ls <- m_mul2 (f_lmat N) sigma ;;
  d <- m_sub2 (m_id Fo 2) ls ;;
  amat <- unwrap (m_inverse2 d) ;;
  ys <- m_mul2 (f_ymat N) sigma ;;
  ysa <- m_mul2 ys amat ;;
  ysaz <- m_mul2 ysa (f_zmat N) ;;
  hom <- m_add2 Fo (f_jmat N) ysaz ;;
  ysa_a <- m_mulv Fo ysa (f_a N) ;;
  inh <- v_add Fo (f_b N) ysa_a ;;
  Ok (mkG hom inh (k0 + k1)).

End Samples.
