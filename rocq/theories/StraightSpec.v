(** Differentiation with prescribed slopes of the absolute values, over the reals. *)
From Coq Require Import Reals List Arith Bool.
From Verif Require Import Base Float Operation AContext Methods Function RealInst.
Import ListNotations.
Local Open Scope R_scope.

(** A value, its derivative along a direction, and whether it was computed from an input. *)
Definition sval : Type := (R * R * bool)%type.
Definition s_val (x : sval) : R := fst (fst x).
Definition s_der (x : sval) : R := snd (fst x).
Definition s_dep (x : sval) : bool := snd x.

(** Forward mode in which the [k]-th absolute value |z| of something computed from an input counts as
    the linear function [sg k z] * z near z.  The state is the number of such absolute values so far. *)
Definition straight_fop (sg : nat -> R -> R) (oc : OpCode) (x : sval) (y : option sval) : M nat sval :=
  fun k =>
  v <- zero_order_value Rops oc (s_val x) (option_map s_val y) ;;
  match oc with
  | Abs => if s_dep x then Ok ((v, sg k (s_val x) * s_der x, true), S k) else Ok ((v, 0, false), k)
  | _ =>
      d <- first_order_value Rops oc (s_val x) (option_map s_val y) (s_der x) (option_map s_der y) ;;
      Ok ((v, d, s_dep x || match y with Some y' => s_dep y' | None => false end), k)
  end.
Definition s_cst (c : R) : sval := (c, 0, false).

(** The derivatives of the results of [f] at [x] along [v]. *)
Definition straight_derivative (sg : nat -> R -> R) (f : func R) (x v : list R) : res (list R) :=
  r <- feval Rops (straight_fop sg) s_cst s_val f (map (fun p => (fst p, snd p, true)) (combine x v)) O ;;
  Ok (map s_der (fst r)).

(** The same with the slope of |z| depending on z only. *)
Definition pair_fop (sg : R -> R) (oc : OpCode) (x : R * R) (y : option (R * R)) : M unit (R * R) :=
  fun _ =>
  v <- zero_order_value Rops oc (fst x) (option_map fst y) ;;
  d <- match oc with
       | Abs => Ok (sg (fst x) * snd x)
       | _ => first_order_value Rops oc (fst x) (option_map fst y) (snd x) (option_map snd y)
       end ;;
  Ok ((v, d), tt).
Definition pair_eval (sg : R -> R) (f : func R) (x v : list R) : res (list (R * R)) :=
  r <- feval Rops (pair_fop sg) (fun c => (c, 0)) fst f (combine x v) tt ;; Ok (fst r).

(** The branch |z| = z is taken for z > 0, the branch |z| = -z otherwise. *)
Definition right_if_positive (z : R) : R := if Rlt_dec 0 z then 1 else -1.
