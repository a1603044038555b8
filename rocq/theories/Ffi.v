(** Model of the C++ interface: src/ffi.rs, src/cxx/ADouble.cpp, src/cxx/AContext.cpp
    (declarations: src/cxx/ffi.hpp, include/adv/ADouble.hpp, include/adv/AContext.hpp).

    The C++ side is modelled down to its pointers: four heaps (Rust boxes of variables, C++
    [ADouble::Impl] structs, Rust boxes of contexts, C++ [AContext::Impl] structs), where every
    access to a cell that is not allocated is an error.  One thread. *)
From Coq Require Import List Arith ZArith Bool Lia.
From Verif Require Import Base Float Operation Tape AContext Methods.
Import ListNotations.

(** How a C++ program can go wrong.  [RustPanic]: a Rust function panics, which must not cross
    the [extern "C"] boundary: the process ends.  [BadScope] marks programs the C++ compiler
    rejects (use of an object outside its lifetime). *)
Inductive err : Type :=
| UseAfterFree
| NullDeref
| BadScope
| RustPanic (p : panic).

Inductive out (A : Type) : Type :=
| Done (a : A)
| Err (e : err).
Arguments Done {A}. Arguments Err {A}.

(** A heap.  [h_at p = None]: nothing is allocated at [p] (any more).  [h_log]: what has happened to
    the heap, newest first: [(true, p)] the cell [p] was allocated, [(false, p)] it was freed.
    [h_pol]: the allocator; it finds the next address from what has happened, and may hand out
    addresses of freed cells again.  (Whatever an allocator does in one run, there is such a function
    that does the same in that run, since the logs of a run are all different.) *)
Definition log : Type := list (bool * nat).
Record heap (A : Type) : Type := mkHeap { h_log : log; h_pol : log -> nat; h_at : nat -> option A }.
Arguments mkHeap {A}. Arguments h_log {A}. Arguments h_pol {A}. Arguments h_at {A}.
Definition h_next {A : Type} (h : heap A) : nat := h_pol h (h_log h).

Definition upd {B : Type} (f : nat -> B) (k : nat) (v : B) : nat -> B :=
  fun i => if i =? k then v else f i.

Definition h_start {A : Type} (pol : log -> nat) : heap A := mkHeap [] pol (fun _ => None).
Definition h_alloc {A : Type} (h : heap A) (a : A) : heap A :=
  mkHeap ((true, h_next h) :: h_log h) (h_pol h) (upd (h_at h) (h_next h) (Some a)).
Definition h_set {A : Type} (h : heap A) (p : nat) (a : option A) : heap A :=
  mkHeap (match a with Some _ => h_log h | None => (false, p) :: h_log h end) (h_pol h) (upd (h_at h) p a).
(** Allocators: one that never reuses an address, and one that hands out the cell freed last *)
Fixpoint live (l : log) : list nat :=
  match l with [] => [] | (true, p) :: l => p :: live l | (false, p) :: l => remove Nat.eq_dec p (live l) end.
Definition beyond (l : log) : nat := fold_right (fun e n => Nat.max (S (snd e)) n) 0 l.
Definition reusing (l : log) : nat :=
  match find (fun e => negb (fst e) && negb (existsb (Nat.eqb (snd e)) (live l))) l with
  | Some e => snd e
  | None => beyond l
  end.

(** The C++ process.  [m_box]: Rust boxes holding variables; [m_imp]: ADouble::Impl
    (ADouble.cpp:10-14), the field [val]; [m_cbox]: Rust boxes holding context handles, i.e. the
    context's id; [m_cimp]: AContext::Impl (AContext.cpp:9-13), the field [ctx];
    [m_obj x]: the ADouble object named [x], its [m_impl] (ADouble.hpp:35), [None] if there is no
    such object; [m_cobj k]: the AContext object named [k], its [m_impl], which may be null. *)
Record mach (S : Type) : Type := mkMach {
  m_w : world S;
  m_box : heap (AF S);
  m_imp : heap nat;
  m_cbox : heap nat;
  m_cimp : heap nat;
  m_obj : nat -> option nat;
  m_cobj : nat -> option (option nat)
}.
Arguments mkMach {S}. Arguments m_w {S}. Arguments m_box {S}. Arguments m_imp {S}.
Arguments m_cbox {S}. Arguments m_cimp {S}. Arguments m_obj {S}. Arguments m_cobj {S}.

(** Arithmetic operators (ADouble.hpp:29-32), binary and unary functions (ADouble.hpp:48-56) *)
Inductive cop : Type := CoAdd | CoSub | CoMul | CoDiv.
Inductive cfn2 : Type := CfMin | CfMax.
Inductive cfn1 : Type := CfSin | CfCos | CfTan | CfAbs | CfExp | CfLn.

(** ffi.rs:62-65, 96-97, 78-83: the Rust methods they lead to *)
Definition rust_op (o : cop) : bin :=
  match o with CoAdd => BAdd | CoSub => BSub | CoMul => BMul | CoDiv => BDiv end.
Definition rust_fn2 (f : cfn2) : bin := match f with CfMin => BMin | CfMax => BMax end.
Definition rust_fn1 (f : cfn1) : un :=
  match f with
  | CfSin => USin | CfCos => UCos | CfTan => UTan | CfAbs => UAbs | CfExp => UExp | CfLn => ULn
  end.

(** A C++ program is a sequence of these.  Objects are named by numbers; in a statement
    [S.. x ..] that makes a new object, [x] is its name.
    [SDefault x]: ADouble x; [SValue x c]: ADouble x(c); [SCopy x y]: ADouble x(y);
    [SMove x y]: ADouble x(std::move(y)); [SCopyAssign x y]: x = y;
    [SMoveAssign x y]: x = std::move(y); [SBin o x y z]: ADouble x(y o z);
    [SBinLeft o x c y]: ADouble x(c o y) with a double c; [SFn2 f x y z]: ADouble x(f(y, z));
    [SFn1 f x y]: ADouble x(f(y)); [SDtor x]: x is destroyed.
    [KNew k]: AContext k; [KMove k j]: AContext k(std::move(j)); [KMoveAssign k j]:
    k = std::move(j); [KDtor k]: k is destroyed; [KIndep x k]: ADouble x(k.new_independent());
    [KDep k x]: k.set_dependent(x).
    Temporaries that a compiler does not elide are objects like any other. *)
Inductive stmt (S : Type) : Type :=
| SDefault (x : nat)
| SValue (x : nat) (c : S)
| SCopy (x y : nat)
| SMove (x y : nat)
| SCopyAssign (x y : nat)
| SMoveAssign (x y : nat)
| SBin (o : cop) (x y z : nat)
| SBinLeft (o : cop) (x : nat) (c : S) (y : nat)
| SFn2 (f : cfn2) (x y z : nat)
| SFn1 (f : cfn1) (x y : nat)
| SDtor (x : nat)
| KNew (k : nat)
| KMove (k j : nat)
| KMoveAssign (k j : nat)
| KDtor (k : nat)
| KIndep (x k : nat)
| KDep (k x : nat).
Arguments SDefault {S}. Arguments SValue {S}. Arguments SCopy {S}. Arguments SMove {S}.
Arguments SCopyAssign {S}. Arguments SMoveAssign {S}. Arguments SBin {S}. Arguments SBinLeft {S}.
Arguments SFn2 {S}. Arguments SFn1 {S}. Arguments SDtor {S}. Arguments KNew {S}.
Arguments KMove {S}. Arguments KMoveAssign {S}. Arguments KDtor {S}. Arguments KIndep {S}.
Arguments KDep {S}.

Section Ffi.
Context {S : Type} (So : Fops S).
Notation mach := (mach S).

Definition X (A : Type) : Type := mach -> out (A * mach).
Definition xret {A : Type} (a : A) : X A := fun m => Done (a, m).
Definition xbind {A B : Type} (x : X A) (f : A -> X B) : X B :=
  fun m => match x m with Done (a, m') => f a m' | Err e => Err e end.
Definition xerr {A : Type} (e : err) : X A := fun _ => Err e.
Notation "x <- m ;; k" := (xbind m (fun x => k))
  (at level 100, m at next level, right associativity).

(** Rust code called through the C interface; ADouble = AFloat<f64>, so [tof] is the identity *)
Definition rust {A : Type} (f : M (world S) A) : X A := fun m =>
  match f (m_w m) with
  | Ok (a, w) => Done (a, mkMach w (m_box m) (m_imp m) (m_cbox m) (m_cimp m) (m_obj m) (m_cobj m))
  | Panic p => Err (RustPanic p)
  end.
Definition fop : OpCode -> AF S -> option (AF S) -> M (world S) (AF S) := from_op So Some.

(** Rust boxes holding variables: Box::leak(Box::new(v)), a dereference, Box::from_raw dropped *)
Definition box_new (v : AF S) : X nat := fun m =>
  Done (h_next (m_box m),
        mkMach (m_w m) (h_alloc (m_box m) v) (m_imp m) (m_cbox m) (m_cimp m) (m_obj m) (m_cobj m)).
Definition box_get (p : nat) : X (AF S) := fun m =>
  match h_at (m_box m) p with Some v => Done (v, m) | None => Err UseAfterFree end.
Definition box_free (p : nat) : X unit := fun m =>
  match h_at (m_box m) p with
  | Some _ => Done (tt, mkMach (m_w m) (h_set (m_box m) p None) (m_imp m) (m_cbox m) (m_cimp m)
                               (m_obj m) (m_cobj m))
  | None => Err UseAfterFree
  end.

(** ADouble::Impl: new, read [val], write [val], delete *)
Definition imp_new (p : nat) : X nat := fun m =>
  Done (h_next (m_imp m),
        mkMach (m_w m) (m_box m) (h_alloc (m_imp m) p) (m_cbox m) (m_cimp m) (m_obj m) (m_cobj m)).
Definition imp_get (i : nat) : X nat := fun m =>
  match h_at (m_imp m) i with Some p => Done (p, m) | None => Err UseAfterFree end.
Definition imp_upd (i : nat) (v : option nat) : X unit := fun m =>
  match h_at (m_imp m) i with
  | Some _ => Done (tt, mkMach (m_w m) (m_box m) (h_set (m_imp m) i v) (m_cbox m) (m_cimp m)
                               (m_obj m) (m_cobj m))
  | None => Err UseAfterFree
  end.
Definition imp_set (i p : nat) : X unit := imp_upd i (Some p).
Definition imp_delete (i : nat) : X unit := imp_upd i None.

(** Rust boxes holding context handles *)
Definition cbox_new (c : nat) : X nat := fun m =>
  Done (h_next (m_cbox m),
        mkMach (m_w m) (m_box m) (m_imp m) (h_alloc (m_cbox m) c) (m_cimp m) (m_obj m) (m_cobj m)).
Definition cbox_get (p : nat) : X nat := fun m =>
  match h_at (m_cbox m) p with Some c => Done (c, m) | None => Err UseAfterFree end.
Definition cbox_free (p : nat) : X unit := fun m =>
  match h_at (m_cbox m) p with
  | Some _ => Done (tt, mkMach (m_w m) (m_box m) (m_imp m) (h_set (m_cbox m) p None) (m_cimp m)
                               (m_obj m) (m_cobj m))
  | None => Err UseAfterFree
  end.

(** AContext::Impl: new, read [ctx], delete *)
Definition cimp_new (p : nat) : X nat := fun m =>
  Done (h_next (m_cimp m),
        mkMach (m_w m) (m_box m) (m_imp m) (m_cbox m) (h_alloc (m_cimp m) p) (m_obj m) (m_cobj m)).
Definition cimp_get (i : nat) : X nat := fun m =>
  match h_at (m_cimp m) i with Some p => Done (p, m) | None => Err UseAfterFree end.
Definition cimp_delete (i : nat) : X unit := fun m =>
  match h_at (m_cimp m) i with
  | Some _ => Done (tt, mkMach (m_w m) (m_box m) (m_imp m) (m_cbox m) (h_set (m_cimp m) i None)
                               (m_obj m) (m_cobj m))
  | None => Err UseAfterFree
  end.

(** C++ objects: the member m_impl of a live object; begin and end of an object's lifetime *)
Definition obj_get (x : nat) : X nat := fun m =>
  match m_obj m x with Some i => Done (i, m) | None => Err BadScope end.
Definition obj_put (x : nat) (v : option nat) : X unit := fun m =>
  Done (tt, mkMach (m_w m) (m_box m) (m_imp m) (m_cbox m) (m_cimp m) (upd (m_obj m) x v) (m_cobj m)).
Definition obj_fresh (x : nat) : X unit := fun m =>
  match m_obj m x with None => Done (tt, m) | Some _ => Err BadScope end.
Definition cobj_get (k : nat) : X (option nat) := fun m =>
  match m_cobj m k with Some i => Done (i, m) | None => Err BadScope end.
Definition cobj_put (k : nat) (v : option (option nat)) : X unit := fun m =>
  Done (tt, mkMach (m_w m) (m_box m) (m_imp m) (m_cbox m) (m_cimp m) (m_obj m) (upd (m_cobj m) k v)).
Definition cobj_fresh (k : nat) : X unit := fun m =>
  match m_cobj m k with None => Done (tt, m) | Some _ => Err BadScope end.
Definition nonnull (i : option nat) : X nat :=
  match i with Some i' => xret i' | None => xerr NullDeref end.

(** *** src/ffi.rs *)

(** ffi.rs:29-32 *)
Definition adv_adouble_default : X nat := box_new (af_const So (f_zero So)).
(** ffi.rs:34-37 *)
Definition adv_adouble_from_value (c : S) : X nat := box_new (af_const So c).
(** ffi.rs:39-42 *)
Definition adv_adouble_free (p : nat) : X unit := box_free p.
(** ffi.rs:44-47 *)
Definition adv_adouble_copy (p : nat) : X nat := v <- box_get p ;; box_new v.
(** ffi.rs:51-65, 85-97 *)
Definition adv_op (b : bin) (p q : nat) : X nat :=
  x <- box_get p ;; y <- box_get q ;; r <- rust (meth2 So fop (af_const So) b x y) ;; box_new r.
(** ffi.rs:67-83 *)
Definition adv_fn (u : un) (p : nat) : X nat :=
  x <- box_get p ;; r <- rust (meth1 So fop (af_const So) u x) ;; box_new r.
(** ffi.rs:7-10 *)
Definition adv_acontext_new : X nat := c <- rust ctx_new ;; cbox_new c.
(** ffi.rs:12-15: the box holds the only handle of its context *)
Definition adv_acontext_free (p : nat) : X unit :=
  c <- cbox_get p ;; _ <- cbox_free p ;; rust (ctx_drop c).
(** ffi.rs:17-20 *)
Definition adv_acontext_new_independent (p : nat) : X nat :=
  c <- cbox_get p ;; r <- rust (new_indep So Some c (f_zero So)) ;; box_new r.
(** ffi.rs:22-25 *)
Definition adv_acontext_set_dependent (p q : nat) : X unit :=
  c <- cbox_get p ;; v <- box_get q ;; rust (set_dep Some c v).

(** *** src/cxx/ADouble.cpp; [x] is [this] *)

(** ADouble.cpp:22-26 ADouble::ADouble(void*impl) *)
Definition adouble_new (x p : nat) : X unit := i <- imp_new p ;; obj_put x (Some i).
(** ADouble.cpp:28-31 *)
Definition adouble_default (x : nat) : X unit := p <- adv_adouble_default ;; adouble_new x p.
(** ADouble.cpp:33-36 *)
Definition adouble_value (x : nat) (c : S) : X unit := p <- adv_adouble_from_value c ;; adouble_new x p.
(** ADouble.cpp:38-41 *)
Definition adouble_copy (x y : nat) : X unit :=
  i <- obj_get y ;; q <- imp_get i ;; p <- adv_adouble_copy q ;; adouble_new x p.
(** ADouble.cpp:43-47 *)
Definition adouble_move (x y : nat) : X unit :=
  i <- obj_get y ;; q <- imp_get i ;; _ <- adouble_new x q ;; d <- adv_adouble_default ;; imp_set i d.
(** ADouble.cpp:49-55 *)
Definition adouble_move_assign (x y : nat) : X unit :=
  i <- obj_get x ;; p <- imp_get i ;; _ <- adv_adouble_free p ;;
  j <- obj_get y ;; q <- imp_get j ;; _ <- imp_set i q ;;
  d <- adv_adouble_default ;; imp_set j d.
(** ADouble.cpp:57-62 *)
Definition adouble_copy_assign (x y : nat) : X unit :=
  i <- obj_get x ;; p <- imp_get i ;; _ <- adv_adouble_free p ;;
  j <- obj_get y ;; q <- imp_get j ;; r <- adv_adouble_copy q ;; imp_set i r.
(** ADouble.cpp:16-20 *)
Definition adouble_dtor (x : nat) : X unit :=
  i <- obj_get x ;; p <- imp_get i ;; _ <- adv_adouble_free p ;; _ <- imp_delete i ;;
  obj_put x None.
(** ADouble.cpp:70-75, 108-112 *)
Definition adouble_bin (b : bin) (x y z : nat) : X unit :=
  i <- obj_get y ;; p <- imp_get i ;; j <- obj_get z ;; q <- imp_get j ;;
  r <- adv_op b p q ;; adouble_new x r.
(** ADouble.cpp:77-81: whatever the operator [o], the body says [lhs + rhs].  The local object
    [lhs] is built first and destroyed at the end; being nameless to the program it is given
    here by its Impl pointer [l]. *)
Definition adouble_bin_left (o : cop) (x : nat) (c : S) (y : nat) : X unit :=
  lp <- adv_adouble_from_value c ;; l <- imp_new lp ;;
  p <- imp_get l ;; j <- obj_get y ;; q <- imp_get j ;;
  r <- adv_op BAdd p q ;; _ <- adouble_new x r ;;
  p' <- imp_get l ;; _ <- adv_adouble_free p' ;; imp_delete l.
(** ADouble.cpp:88-93 *)
Definition adouble_fn (u : un) (x y : nat) : X unit :=
  i <- obj_get y ;; p <- imp_get i ;; r <- adv_fn u p ;; adouble_new x r.

(** ADouble.cpp:117-133: min and max of doubles *)
Definition double_min (a b : S) : S := if f_ltb So a b then a else b.
Definition double_max (a b : S) : S := if f_ltb So a b then b else a.

(** *** src/cxx/AContext.cpp.  Not modelled: move_impl (lines 53-58), which is private and never
    called.  The null check of line 18 never fires: the field is set once, to a fresh box. *)

(** AContext.cpp:25-29 *)
Definition acontext_new (k : nat) : X unit :=
  p <- adv_acontext_new ;; i <- cimp_new p ;; cobj_put k (Some (Some i)).
(** AContext.cpp:31-35 *)
Definition acontext_move (k j : nat) : X unit :=
  i <- cobj_get j ;; _ <- cobj_put k (Some i) ;; cobj_put j (Some None).
(** AContext.cpp:17-22 and 39-42 *)
Definition acontext_release (i : option nat) : X unit :=
  match i with
  | Some i' => p <- cimp_get i' ;; _ <- adv_acontext_free p ;; cimp_delete i'
  | None => xret tt
  end.
(** AContext.cpp:37-46 *)
Definition acontext_move_assign (k j : nat) : X unit :=
  i <- cobj_get k ;; _ <- acontext_release i ;;
  n <- cobj_get j ;; _ <- cobj_put k (Some n) ;; cobj_put j (Some None).
(** AContext.cpp:15-23 *)
Definition acontext_dtor (k : nat) : X unit :=
  i <- cobj_get k ;; _ <- acontext_release i ;; cobj_put k None.
(** AContext.cpp:60-63 *)
Definition acontext_new_independent (x k : nat) : X unit :=
  i <- cobj_get k ;; i' <- nonnull i ;; p <- cimp_get i' ;;
  r <- adv_acontext_new_independent p ;; adouble_new x r.
(** AContext.cpp:65-68, ADouble.cpp:64-67 *)
Definition acontext_set_dependent (k x : nat) : X unit :=
  i <- cobj_get k ;; i' <- nonnull i ;; p <- cimp_get i' ;;
  j <- obj_get x ;; q <- imp_get j ;; adv_acontext_set_dependent p q.

(** One statement.  [obj_fresh]: a declaration introduces a new name. *)
Definition step (s : stmt S) : X unit :=
  match s with
  | SDefault x => _ <- obj_fresh x ;; adouble_default x
  | SValue x c => _ <- obj_fresh x ;; adouble_value x c
  | SCopy x y => _ <- obj_fresh x ;; adouble_copy x y
  | SMove x y => _ <- obj_fresh x ;; adouble_move x y
  | SCopyAssign x y => adouble_copy_assign x y
  | SMoveAssign x y => adouble_move_assign x y
  | SBin o x y z => _ <- obj_fresh x ;; adouble_bin (rust_op o) x y z
  | SBinLeft o x c y => _ <- obj_fresh x ;; adouble_bin_left o x c y
  | SFn2 f x y z => _ <- obj_fresh x ;; adouble_bin (rust_fn2 f) x y z
  | SFn1 f x y => _ <- obj_fresh x ;; adouble_fn (rust_fn1 f) x y
  | SDtor x => adouble_dtor x
  | KNew k => _ <- cobj_fresh k ;; acontext_new k
  | KMove k j => _ <- cobj_fresh k ;; acontext_move k j
  | KMoveAssign k j => acontext_move_assign k j
  | KDtor k => acontext_dtor k
  | KIndep x k => _ <- obj_fresh x ;; acontext_new_independent x k
  | KDep k x => acontext_set_dependent k x
  end.

Fixpoint cxx (p : list (stmt S)) : X unit :=
  match p with
  | [] => xret tt
  | s :: p' => _ <- step s ;; cxx p'
  end.

(** The start of a C++ program in a process whose Rust side is in state [w], with an allocator for each
    kind of cell; by default addresses are not reused *)
Definition mach0_at (a1 a2 a3 a4 : log -> nat) (w : world S) : mach :=
  mkMach w (h_start a1) (h_start a2) (h_start a3) (h_start a4) (fun _ => None) (fun _ => None).
Definition mach0 : world S -> mach := mach0_at beyond beyond beyond beyond.

End Ffi.
