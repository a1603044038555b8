(** Specification vocabulary for the theorems about derivatives, in exact real arithmetic. *)
From Coq Require Import Reals List Arith ZArith Bool.
From Verif Require Import Base Float Operation Tape AContext Methods Function Spec Param Instances
  ApiFacts3 RealInst.
Import ListNotations.
Open Scope R_scope.

(** The open domain on which the elementary operation is differentiable (for [Abs]: piecewise
    linear).  [bc]: the second operand is a constant (depends on no input). *)
Definition in_domain (oc : OpCode) (a : R) (b : option R) (bc : bool) : Prop :=
  match oc with
  | Div => forall y, b = Some y -> y <> 0
  | Tan => cos a <> 0
  | Ln => 0 < a
  | Asin | Acos => -1 < a < 1
  | Powf => forall y, b = Some y ->
      0 < a \/ (bc = true /\ exists n : Z, y = IZR n /\ (a <> 0 \/ (1 <= n)%Z))
  | _ => True
  end.

(** Evaluation at a point, collecting the demand that every operation is inside its domain; the
    flag says whether a value depends on constants only. *)
Definition r_fop (oc : OpCode) (x : R * bool) (y : option (R * bool)) : M Prop (R * bool) :=
  fun P =>
    match zero_order_value Rops oc (fst x) (option_map fst y) with
    | Ok r =>
        let yc := match y with Some y' => snd y' | None => true end in
        Ok ((r, snd x && yc), P /\ in_domain oc (fst x) (option_map fst y) yc)
    | Panic p => Panic p
    end.

(** All operations [f] performs at [x] are inside their domains. *)
Definition regular (f : func R) (x : list R) : Prop :=
  forall ys P, feval Rops r_fop (fun c => (c, true)) fst f (map (fun a => (a, false)) x) True
                 = Ok (ys, P) -> P.

(** Vectors *)
Definition vadd (x h : list R) : list R := map (fun p => fst p + snd p) (combine x h).
Definition vscal (t : R) (h : list R) : list R := map (Rmult t) h.
Fixpoint nrm1 (h : list R) : R := match h with [] => 0 | a :: h' => Rabs a + nrm1 h' end.
Fixpoint dot (x y : list R) : R :=
  match x, y with a :: x', b :: y' => a * b + dot x' y' | _, _ => 0 end.

(** [f] takes the same branches at all points near [x]. *)
Definition same_branches_near (f : func R) (x : list R) : Prop :=
  straight_f f \/
  exists d, 0 < d /\ forall h, length h = length x -> nrm1 h < d -> agree_f Rops f x (vadd x h).

(** Only piecewise affine operations: sums, differences, products with a constant, quotients by
    a nonzero constant, absolute values; other operations on constants only. *)
Definition affine_op (oc : OpCode) (xc yc : bool) (y : option R) : Prop :=
  match oc with
  | Add | Sub | Abs => True
  | Mul => xc = true \/ yc = true
  | Div => yc = true /\ y <> Some 0
  | _ => xc = true /\ yc = true
  end.

Definition p_fop (oc : OpCode) (x : R * bool) (y : option (R * bool)) : M Prop (R * bool) :=
  fun P =>
    match zero_order_value Rops oc (fst x) (option_map fst y) with
    | Ok r =>
        let yc := match y with Some y' => snd y' | None => true end in
        Ok ((r, snd x && yc), P /\ affine_op oc (snd x) yc (option_map fst y))
    | Panic p => Panic p
    end.

(** All operations [f] performs at [x] are piecewise affine. *)
Definition piecewise_affine (f : func R) (x : list R) : Prop :=
  forall ys P, feval Rops p_fop (fun c => (c, true)) fst f (map (fun a => (a, false)) x) True
                 = Ok (ys, P) -> P.
