(** Decisions that do not change when the values looked at change a little. *)
From Coq Require Import Reals List Arith ZArith Bool.
From Verif Require Import Base Float Operation Tape AContext Methods Function Instances RealInst Source SourceSpec.
Import ListNotations.
Open Scope R_scope.

(** looks at the values of the variables [xs], [if xs[0] < xs[1] ..], and goes on as [T] says *)
Fixpoint looks (xs : list nat) (T : list R -> prog R) : prog R :=
  match xs with
  | [] => T []
  | a :: xs => Inspect a (fun v => looks xs (fun l => T (v :: l)))
  end.

(** [near e l l']: each value differs by less than [e] *)
Definition near_by (e : R) (l l' : list R) : Prop := Forall2 (fun a b => Rabs (b - a) < e) l l'.

(** Execute the program with the numbers [vs] in its variables.  Wherever it looks at values, it would go on in the
    same way with all values near these. *)
Inductive stable : prog R -> list R -> Prop :=
| stable_ret outs vs : stable (Ret outs) vs
| stable_abort vs : stable Abort vs
| stable_const c p vs : stable p (vs ++ [c]) -> stable (LetC c p) vs
| stable_un u a p vs :
    (forall x r, nth_error vs a = Some x -> num1 Rops u x = Some r -> stable p (vs ++ [r])) -> stable (Let1 u a p) vs
| stable_bin b a1 a2 p vs :
    (forall x y r, nth_error vs a1 = Some x -> nth_error vs a2 = Some y -> num2 Rops b x y = Some r -> stable p (vs ++ [r])) ->
    stable (Let2 b a1 a2 p) vs
| stable_mul_add a1 a2 a3 p vs :
    (forall x y z, nth_error vs a1 = Some x -> nth_error vs a2 = Some y -> nth_error vs a3 = Some z -> stable p (vs ++ [x * y + z])) ->
    stable (LetMulAdd a1 a2 a3 p) vs
| stable_test xs T vs l e :
    p_vars vs xs = Some l -> 0 < e -> (forall l', near_by e l l' -> T l' = T l) -> stable (T l) vs -> stable (looks xs T) vs.

(** [if v_i < v_j { p } else { q }] *)
Definition compare (i j : nat) (p q : prog R) : prog R :=
  looks [i; j] (fun l => match l with [a; b] => if Rltb a b then p else q | _ => Abort end).
