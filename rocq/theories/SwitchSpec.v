(** Differentiation along the branches a direction selects, over the reals. *)
From Coq Require Import Reals List Arith NArith Bool.
From Verif Require Import Base Float Operation AContext Methods Function RealInst GenSpec.
Import ListNotations.
Local Open Scope R_scope.

(** A value, its tangent along the selecting direction, its derivative along another direction, and
    whether it was computed from an input. *)
Record bval : Type := mkB { b_val : R; b_tan : R; b_der : R; b_dep : bool }.

(** The branch of the absolute value of something that moves to [u]: the sign of u, if u is 0 the
    next unused bit.  [s] are the positions of the earlier ones. *)
Definition branch (bits : list N) (s : list R) (u : R) : R :=
  if Rlt_dec 0 u then 1 else if Rlt_dec u 0 then -1 else if bit bits (zeros s) then 1 else -1.

(** Values and tangents as in forward mode (the tangent of |z| along dz is |z + dz| - |z|).  The
    derivative of |z| is that of the branch z + dz lies on.  The state lists z + dz for all absolute
    values of something computed from an input. *)
Definition branch_fop (bits : list N) (oc : OpCode) (x : bval) (y : option bval) : M (list R) bval :=
  fun s =>
  v <- zero_order_value Rops oc (b_val x) (option_map b_val y) ;;
  e <- first_order_value Rops oc (b_val x) (option_map b_val y) (b_tan x) (option_map b_tan y) ;;
  match oc with
  | Abs => if b_dep x
           then Ok (mkB v e (branch bits s (b_val x + b_tan x) * b_der x) true, s ++ [b_val x + b_tan x])
           else Ok (mkB v e 0 false, s)
  | _ =>
      d <- first_order_value Rops oc (b_val x) (option_map b_val y) (b_der x) (option_map b_der y) ;;
      Ok (mkB v e d (b_dep x || match y with Some y' => b_dep y' | None => false end), s)
  end.
Definition b_cst (c : R) : bval := mkB c 0 0 false.

Fixpoint b_inputs (x dx v : list R) : list bval :=
  match x, dx, v with
  | a :: x', e :: dx', d :: v' => mkB a e d true :: b_inputs x' dx' v'
  | _, _, _ => []
  end.

(** [f] at [x]: selecting direction [dx], differentiated along [v]; with the list of switching values. *)
Definition branch_eval (bits : list N) (f : func R) (x dx v : list R) : res (list bval * list R) :=
  feval Rops (branch_fop bits) b_cst b_val f (b_inputs x dx v) [].

(** One function after the other, bits zero; every function takes its arguments for inputs. *)
Fixpoint stages (fs : list (func R)) (x dx v : list R) : res (list bval * list R) :=
  match fs with
  | [] => Ok (b_inputs x dx v, [])
  | f :: fs' =>
      r <- branch_eval [0%N] f x dx v ;;
      r' <- stages fs' (map b_val (fst r)) (map b_tan (fst r)) (map b_der (fst r)) ;;
      Ok (fst r', snd r ++ snd r')
  end.
