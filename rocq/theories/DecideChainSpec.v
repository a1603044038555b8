(** Stable decisions of chains of functions. *)
From Coq Require Import Reals List Arith ZArith Bool.
From Verif Require Import Base Float Operation Tape AContext Methods Function Instances RealInst DerivSpec Source SourceSpec DerivFacts2 DecideSpec.
Import ListNotations.
Open Scope R_scope.

(** Every function of the chain (function.rs:135-141) decides stably at the values it gets from the one before it. *)
Fixpoint stable_f (f : func R) (x : list R) : Prop :=
  match f with
  | Simple _ _ p | AdvFn _ _ p => stable p x
  | Chain fs =>
      (fix all (l : list (func R)) (x : list R) : Prop :=
         match l with
         | [] => True
         | g :: l' => stable_f g x /\ all l' (outputs g x)
         end) fs x
  end.
