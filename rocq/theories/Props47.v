(** Property theorems C98: the C++ interface and the allocator. *)
From Coq Require Import List Arith ZArith Bool SpecFloat.
From Verif Require Import Base Float Operation Tape AContext Methods FloatInst Ffi FfiSpec FfiFacts FfiAlloc.
Import ListNotations.
Open Scope nat_scope.

(** *** C98 Every C++ program, faulty ones included, runs the same whatever allocators are used: same
    values, same contexts, same error.  [a1 .. a4]: allocators for Rust boxes of variables, Impl structs of
    ADouble, boxes of contexts, Impl structs of AContext; they may reuse freed cells. *)
Theorem C98_same_run :
  forall (S : Type) (So : Fops S) (a1 a2 a3 a4 : log -> nat) (w : world S) (p : list (stmt S)),
  sound a1 -> sound a2 -> sound a3 -> sound a4 -> ids_fresh w ->
  match cxx So p (mach0_at a1 a2 a3 a4 w), cxx So p (mach0 w) with
  | Done (_, m), Done (_, m') =>
      m_w m = m_w m' /\ (forall x, value_of m x = value_of m' x) /\ (forall k, context_of m k = context_of m' k)
  | Err e, Err e' => e = e'
  | _, _ => False
  end.
Proof. exact @any_allocator. Qed.
Print Assumptions C98_same_run.

(** No freed cell is touched, ... *)
Theorem C98_never_touches_freed :
  forall (S : Type) (So : Fops S) (a1 a2 a3 a4 : log -> nat) (w : world S) (p : list (stmt S)),
  sound a1 -> sound a2 -> sound a3 -> sound a4 -> ids_fresh w -> Forall not_self_copy p ->
  cxx So p (mach0_at a1 a2 a3 a4 w) <> Err UseAfterFree.
Proof. exact @any_allocator_no_uaf. Qed.
Print Assumptions C98_never_touches_freed.

(** ... no cell is shared by two objects, ... *)
Theorem C98_cells_not_shared :
  forall (S : Type) (So : Fops S) (a1 a2 a3 a4 : log -> nat) (w : world S) (p : list (stmt S)) (m : mach S) (x y i : nat),
  sound a1 -> sound a2 -> sound a3 -> sound a4 -> ids_fresh w -> Forall not_self_copy p ->
  cxx So p (mach0_at a1 a2 a3 a4 w) = Done (tt, m) ->
  (m_obj m x = Some i -> m_obj m y = Some i -> x = y) /\
  (forall j q, h_at (m_imp m) i = Some q -> h_at (m_imp m) j = Some q -> i = j).
Proof. exact @cells_not_shared. Qed.
Print Assumptions C98_cells_not_shared.

(** ... and when the last object is gone nothing is left. *)
Theorem C98_no_leak :
  forall (S : Type) (So : Fops S) (a1 a2 a3 a4 : log -> nat) (w : world S) (p : list (stmt S)) (m : mach S),
  sound a1 -> sound a2 -> sound a3 -> sound a4 -> ids_fresh w -> Forall not_self_copy p ->
  cxx So p (mach0_at a1 a2 a3 a4 w) = Done (tt, m) ->
  (forall x, m_obj m x = None) -> (forall k, m_cobj m k = None) ->
  (forall a, h_at (m_box m) a = None) /\ (forall a, h_at (m_imp m) a = None) /\
  (forall a, h_at (m_cbox m) a = None) /\ (forall a, h_at (m_cimp m) a = None) /\
  (forall c, w_ctx (m_w m) c = None <-> w_ctx w c = None).
Proof. exact @any_allocator_no_leak. Qed.
Print Assumptions C98_no_leak.

(** Sound allocators: one that never reuses a cell and one that always reuses the cell freed last. *)
Theorem C98_allocators : sound beyond /\ sound reusing.
Proof. exact (conj beyond_sound reusing_sound). Qed.
Print Assumptions C98_allocators.

(** ADouble x0(0), x1(1); destroy x1; ADouble x2(x0); x0 = x2.  x2 lives in the cells of x1, or in new
    ones. *)
Definition ex_reuse {S : Type} (So : Fops S) : list (stmt S) :=
  [SValue 0 (f_zero So); SValue 1 (f_one So); SDtor 1; SCopy 2 0; SCopyAssign 0 2].
Definition seen {S : Type} (r : out (unit * mach S)) : option (option nat * option nat * option (AF S)) :=
  match r with Done (_, m) => Some (m_obj m 2, h_at (m_imp m) 0, value_of m 0) | Err _ => None end.
Example C98_example : forall (S : Type) (So : Fops S),
  ids_fresh (@world0 S) /\ Forall not_self_copy (ex_reuse So) /\
  seen (cxx So (ex_reuse So) (mach0_at reusing reusing reusing reusing world0)) =
    Some (Some 1, Some 0, Some (const_val So (f_zero So))) /\
  seen (cxx So (ex_reuse So) (mach0 world0)) = Some (Some 2, Some 3, Some (const_val So (f_zero So))).
Proof.
  intros S So. split; [intros c _; reflexivity|]. split; [repeat constructor; discriminate|].
  split; vm_compute; reflexivity.
Qed.
