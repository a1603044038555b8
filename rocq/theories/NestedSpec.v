(** Specification vocabulary for second derivatives by nested AFloats, in exact real arithmetic. *)
From Coq Require Import Reals List Arith ZArith Bool.
From Verif Require Import Base Float Operation Tape AContext Methods Function Spec Param Instances
  RealInst DerivSpec Nested.
Import ListNotations.
Open Scope R_scope.

(** A variable of type [AFloat<AFloat<S>>]: ((value, derivative), (derivative, second derivative)). *)
Definition N2 : Type := ((R * R) * (R * R))%type.

(** The operation is inside the open domain on which it is twice differentiable; for powers, a base
    or an exponent whose first derivative is zero has also second derivative zero.
    [bc]: the second operand is a constant. *)
Definition in_domain2 (oc : OpCode) (x : N2) (y : option N2) (bc : bool) : Prop :=
  match oc with
  | Abs => False
  | Powf => forall z, y = Some z ->
      (0 < n_val x \/
       (bc = true /\ exists n : Z, n_val z = IZR n /\ (n_val x <> 0 \/ (2 <= n)%Z))) /\
      (fst (snd x) = 0 -> snd (snd x) = 0) /\ (fst (snd z) = 0 -> snd (snd z) = 0)
  | _ => in_domain oc (n_val x) (option_map n_val y) bc
  end.

Definition n_fop (oc : OpCode) (x : N2 * bool) (y : option (N2 * bool)) : M Prop (N2 * bool) :=
  fun P =>
    match d_fop (Dops Rops) oc (fst x) (option_map fst y) tt with
    | Ok (r, _) =>
        let yc := match y with Some y' => snd y' | None => true end in
        Ok ((r, snd x && yc), P /\ in_domain2 oc (fst x) (option_map fst y) yc)
    | Panic p => Panic p
    end.

(** All operations [f] performs on the nested variables [X] are inside these domains. *)
Definition regular2 (f : func R) (X : list N2) : Prop :=
  forall ys P,
    feval Rops n_fop (fun c => (n_cst Rops c, true)) (fun p => n_val (fst p)) f
          (map (fun a => (a, false)) X) True = Ok (ys, P) -> P.

(** The point x + t u + s (v + t w). *)
Definition plane (x u v w : list R) (t s : R) : list R :=
  vadd (vadd x (vscal t u)) (vscal s (vadd v (vscal t w))).
