(** Specification vocabulary for derivatives of any order by nested AFloats, in exact real arithmetic. *)
From Coq Require Import Reals List Arith ZArith Bool.
From Verif Require Import Base Float Operation Tape AContext Methods Function Spec Param Instances
  RealInst DerivSpec Nested Nest.
Import ListNotations.
Open Scope R_scope.

(** [P] holds for all parameters (t1, .., tk) near 0: for all t1 near 0, then for all t2 near 0, and so
    on.  Parameters are listed with the last one first. *)
Fixpoint near (k : nat) (P : list R -> Prop) : Prop :=
  match k with
  | O => P []
  | S k' => near k' (fun e => exists d, 0 < d /\ forall t, Rabs t < d -> P (t :: e))
  end.

(** [x] consists of the value and the derivatives of [g] at 0, by any of the [k] parameters, each at
    most once: the value of (v, dv) is that of [g] with the last parameter 0, and its derivative that of
    the derivative of [g] by the last parameter. *)
Fixpoint derivs (k : nat) : nest R k -> (list R -> R) -> Prop :=
  match k with
  | O => fun x g => x = g []
  | S k' => fun x g =>
      derivs k' (fst x) (fun e => g (0 :: e)) /\
      exists g' : list R -> R,
        near k' (fun e => derivable_pt_lim (fun t => g (t :: e)) 0 (g' e)) /\
        derivs k' (snd x) g'
  end.

(** The curve through a nested number: (v, dv) is v + t dv. *)
Fixpoint point (k : nat) : nest R k -> list R -> R :=
  match k with
  | O => fun x _ => x
  | S k' => fun x e => point k' (fst x) (tl e) + hd 0 e * point k' (snd x) (tl e)
  end.

(** No derivative (of the value) vanishes unless all that is derived from it vanishes, too. *)
Fixpoint settled (k : nat) : nest R k -> Prop :=
  match k with
  | O => fun _ => True
  | S k' => fun x => settled k' (fst x) /\ (nval k' (snd x) = 0 -> snd x = ncst Rops k' 0)
  end.
(** The same of the value, and of the value's value. *)
Definition settled1 (k : nat) : nest R k -> Prop :=
  match k with O => fun _ => True | S k' => fun x => settled k' (fst x) end.
Definition settled2 (k : nat) : nest R k -> Prop :=
  match k with O => fun _ => True | S k' => fun x => settled1 k' (fst x) end.

(** The operation is inside the open domain on which it can be differentiated [k] times, and whatever
    the derivative rules raise to a power is settled.  [bc]: the second operand is a constant. *)
Definition in_domain_n (k : nat) (oc : OpCode) (x : nest R k) (y : option (nest R k)) (bc : bool) : Prop :=
  let N := nops Rops k in
  match oc with
  | Abs => False
  | Div => forall z, y = Some z -> nval k z <> 0 /\ settled1 k z
  | Tan => cos (nval k x) <> 0 /\ settled1 k (f_cos N x)
  | Ln => 0 < nval k x /\ settled2 k x
  | Asin | Acos =>
      -1 < nval k x < 1 /\ (nval k x <> 0 \/ (k <= 3)%nat) /\
      settled1 k x /\ settled1 k (f_sub N (f_one N) (f_powi N x 2))
  | Atan =>
      (nval k x <> 0 \/ (k <= 3)%nat) /\
      settled1 k x /\ settled2 k (f_add N (f_one N) (f_powi N x 2))
  | Powf => forall z, y = Some z ->
      (0 < nval k x \/
       (bc = true /\ exists n : Z, nval k z = IZR n /\ (nval k x <> 0 \/ (Z.of_nat k <= n)%Z))) /\
      settled k x /\ settled k z
  | _ => True
  end.

Definition nk_fop (k : nat) (oc : OpCode) (x : nest R (S k) * bool) (y : option (nest R (S k) * bool))
  : M Prop (nest R (S k) * bool) :=
  fun P =>
    match d_fop (nops Rops k) oc (fst x) (option_map fst y) tt with
    | Ok (r, _) =>
        let yc := match y with Some y' => snd y' | None => true end in
        Ok ((r, snd x && yc), P /\ in_domain_n (S k) oc (fst x) (option_map fst y) yc)
    | Panic p => Panic p
    end.

(** All operations [f] performs on the nested variables [X] are inside these domains. *)
Definition regular_n (k : nat) (f : func R) (X : list (nest R (S k))) : Prop :=
  forall ys P,
    feval Rops (nk_fop k) (fun c => (ncst Rops (S k) c, true)) (fun p => nval (S k) (fst p)) f
          (map (fun a => (a, false)) X) True = Ok (ys, P) -> P.

(** The number x with all first derivatives 1 and all others 0. *)
Fixpoint seed (k : nat) (x : R) : nest R k :=
  match k with O => x | S k' => (seed k' x, ncst Rops k' 1) end.

(** A component of a nested number: at each level the value ([false]) or the derivative ([true]). *)
Fixpoint comp (k : nat) (p : list bool) : nest R k -> R :=
  match k with
  | O => fun x => x
  | S k' => fun x => comp k' (tl p) (if hd false p then snd x else fst x)
  end.
Definition count (p : list bool) : nat := length (filter (fun b => b) p).

(** [D 0], [D 1], .., [D k] are derivatives, each of the one before, near [x], the last one at [x]. *)
Definition derivatives_at (k : nat) (x : R) (D : nat -> R -> R) : Prop :=
  (forall j, (S j < k)%nat -> exists d, 0 < d /\ forall s, Rabs (s - x) < d -> derivable_pt_lim (D j) s (D (S j) s)) /\
  (forall j, (S j = k)%nat -> derivable_pt_lim (D j) x (D k x)).

(** Only sums, differences, products, negation, sine, cosine and the exponential function; branches and
    constants at will. *)
Fixpoint entire (p : prog R) : Prop :=
  match p with
  | Ret _ | Abort => True
  | LetC _ p' => entire p'
  | Let1 u _ p' => (u = UNeg \/ u = USin \/ u = UCos \/ u = UExp) /\ entire p'
  | Let2 b _ _ p' => (b = BAdd \/ b = BSub \/ b = BMul) /\ entire p'
  | LetMulAdd _ _ _ p' => entire p'
  | Inspect _ k => forall s, entire (k s)
  end.
Fixpoint entire_f (f : func R) : Prop :=
  match f with
  | Simple _ _ p | AdvFn _ _ p => entire p
  | Chain fs => (fix go (l : list (func R)) : Prop := match l with [] => True | g :: l' => entire_f g /\ go l' end) fs
  end.
