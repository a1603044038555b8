(** Specification vocabulary: limiting Jacobians. *)
From Coq Require Import Reals List.
From Verif Require Import Base Matrix RealInst DerivSpec AnfSpec.
Import ListNotations.
Local Open Scope R_scope.

(** [F] is the affine map x -> A x + c on a neighbourhood of [p]. *)
Definition affine_near (F : list R -> list R -> Prop) (A : matrix R) (c p : list R) : Prop :=
  exists d, 0 < d /\ forall x, length x = length p -> nrm1 (vsub x p) < d -> F x (vadd (mulv A x) c).

(** [F x y] says that the value of a function at [x] is [y]. The function is affine with matrix [A] and vector [c]
    near points that are arbitrarily close to [x]; so [A] is a limit of derivatives of [F] at [x]. *)
Definition limiting (F : list R -> list R -> Prop) (A : matrix R) (c x : list R) : Prop :=
  forall e, 0 < e -> exists p, length p = length x /\ nrm1 (vsub p x) < e /\ affine_near F A c p.
