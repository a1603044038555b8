(** Specification vocabulary for the generalized Jacobian. *)
From Coq Require Import Reals List Arith NArith Bool.
From Verif Require Import Base Float Operation Tape Spec RealInst DerivSpec Matrix AbsNormal AnfSpec
  AContext Function GenJac.
Import ListNotations.
Local Open Scope R_scope.

(** Bit [k] of a sequence of bytes, least significant bit first; false past the end. *)
Definition bit (bytes : list N) (k : nat) : bool :=
  match nth_error bytes (k / 8) with
  | Some b => N.testbit b (N.of_nat (k mod 8))
  | None => false
  end.

(** Number of zero entries. *)
Definition is_zero (r : R) : bool := if Req_EM_T r 0 then true else false.
Definition zeros (v : list R) : nat := length (filter is_zero v).

(** The signs selected for switching values [dz]: the sign of a nonzero value, for the k-th zero
    the k-th bit (k counts from 0). *)
Definition selected (bytes : list N) (dz sigma : list R) : Prop :=
  length sigma = length dz /\
  forall i, (i < length dz)%nat ->
    (0 < nth i dz 0 -> nth i sigma 0 = 1) /\
    (nth i dz 0 < 0 -> nth i sigma 0 = -1) /\
    (nth i dz 0 = 0 -> nth i sigma 0 = if bit bytes (zeros (firstn i dz)) then 1 else -1).

(** The switching values belonging to [dx'] have the signs [sigma] (a zero has any sign). *)
Definition compatible (N : anf) (sigma dx' : list R) : Prop :=
  exists zh, switching N dx' zh /\ forall i, (i < length zh)%nat ->
    nth i sigma 0 * nth i zh 0 = Rabs (nth i zh 0).

(** What [next] stands for: the affine map y -> G2 y + gamma2 and a multiplicity; [None] is the
    identity. *)
Definition next_map (next : option (gjac R)) (y : list R) : list R :=
  match next with
  | Some g => vadd (mulv (g_hom g) y) (g_inh g)
  | None => y
  end.
Definition next_rows (m : nat) (next : option (gjac R)) : nat :=
  match next with Some g => m_rows (g_hom g) | None => m end.
Definition next_mult (next : option (gjac R)) : nat :=
  match next with Some g => g_mult g | None => O end.
(** [next] can be applied to m results. *)
Definition next_ok (m : nat) (next : option (gjac R)) : Prop :=
  match next with
  | Some g => shape (g_hom g) (m_rows (g_hom g)) m /\ length (g_inh g) = m_rows (g_hom g)
  | None => True
  end.

(** Composing the generalized Jacobians of a list of functions, last to first, all intermediate
    points kept (no checkpointing).  Taping uses a fresh world, which does not matter. *)
Fixpoint compose (red : list (list (nat * list R)) -> list (nat * list R)) (fs : list (func R)) (x dx : list R)
  : res (gjac R) :=
  match fs with
  | [] => Ok (mkG (m_id Rops (length x)) (repeat 0 (length x)) 0)
  | f :: fs' =>
      yw <- eval Rops f (map (fun p => af_new (fst p) (snd p)) (combine x dx)) world0 ;;
      g2 <- compose red fs' (map af_v (fst yw)) (map af_dv (fst yw)) ;;
      gw <- generalized_jacobian Rops red f x dx [0%N] (Some g2) world0 ;;
      Ok (fst gw)
  end.

(** At every point the list of functions passes through starting from [x], the function there has
    the dimension it reports, can be taped, does not return a variable twice and does not pass a
    variable to abs twice. *)
Fixpoint tame (fs : list (func R)) (x : list R) : Prop :=
  match fs with
  | [] => True
  | f :: fs' =>
      fn_n f = Ok (length x) /\
      exists t w y, fn_tape Rops f x world0 = Ok (t, w) /\ NoDup (t_deps t) /\
        NoDup (map arg1 (filter is_abs (t_ops t))) /\ tape_y t = Ok y /\ tame fs' y
  end.
