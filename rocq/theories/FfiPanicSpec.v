(** When C++ statements mix contexts.  (Vocabulary of C65.) *)
From Coq Require Import List Arith Bool.
From Verif Require Import Base Float AContext Methods Ffi FfiSpec.
Import ListNotations.

Section Spec.
Context {S : Type}.

(** The ADouble object [x] of the process has been recorded on the context with id [c]. *)
Definition attached_to (m : mach S) (x c : nat) : Prop :=
  exists v k, value_of m x = Some v /\ af_ctx v = Some (c, k).

(** The statement combines two ADoubles of different contexts into a new object, or passes an
    ADouble to set_dependent of an AContext that is not its own. *)
Definition mixes (m : mach S) (s : stmt S) : Prop :=
  match s with
  | SBin _ x y z | SFn2 _ x y z =>
      m_obj m x = None /\ exists c1 c2, attached_to m y c1 /\ attached_to m z c2 /\ c1 <> c2
  | KDep k x => exists c1 c2, context_of m k = Some (Some c1) /\ attached_to m x c2 /\ c1 <> c2
  | _ => False
  end.

(** The statement creates a context. *)
Definition creates (s : stmt S) : bool := match s with KNew _ => true | _ => false end.

End Spec.
