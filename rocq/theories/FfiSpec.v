(** What a C++ program with [ADouble] and [AContext] objects should do: objects are values.
    No pointers, no heap.  (Vocabulary of C44, C45.) *)
From Coq Require Import List Arith ZArith Bool Lia.
From Verif Require Import Base Float Operation Tape AContext Methods Ffi.
Import ListNotations.

(** Every ADouble object has a value; every AContext object holds a context, given by its id, or
    has been moved from ([Some None]). *)
Record store (S : Type) : Type := mkStore {
  s_w : world S;
  s_val : nat -> option (AF S);
  s_ctx : nat -> option (option nat)
}.
Arguments mkStore {S}. Arguments s_w {S}. Arguments s_val {S}. Arguments s_ctx {S}.

Section Spec.
Context {S : Type} (So : Fops S).

Definition set_val (st : store S) (x : nat) (v : option (AF S)) : store S :=
  mkStore (s_w st) (upd (s_val st) x v) (s_ctx st).
Definition set_ctx (st : store S) (k : nat) (c : option (option nat)) : store S :=
  mkStore (s_w st) (s_val st) (upd (s_ctx st) k c).

(** Read a live object; declare a new one; call Rust. *)
Definition the_val (st : store S) (x : nat) : out (AF S) :=
  match s_val st x with Some v => Done v | None => Err BadScope end.
Definition the_ctx (st : store S) (k : nat) : out (option nat) :=
  match s_ctx st k with Some c => Done c | None => Err BadScope end.
Definition usable (c : option nat) : out nat :=
  match c with Some c' => Done c' | None => Err NullDeref end.
Definition fresh_val (st : store S) (x : nat) : out unit :=
  match s_val st x with None => Done tt | Some _ => Err BadScope end.
Definition fresh_ctx (st : store S) (k : nat) : out unit :=
  match s_ctx st k with None => Done tt | Some _ => Err BadScope end.
Definition call {A : Type} (st : store S) (f : M (world S) A) : out (A * store S) :=
  match f (s_w st) with
  | Ok (a, w) => Done (a, mkStore w (s_val st) (s_ctx st))
  | Panic p => Err (RustPanic p)
  end.
Definition obind {A B : Type} (x : out A) (f : A -> out B) : out B :=
  match x with Done a => f a | Err e => Err e end.
Notation "x <- m ;; k" := (obind m (fun x => k))
  (at level 100, m at next level, right associativity).

Definition zero_val : AF S := mkAF (f_zero So) (f_zero So) None.
Definition const_val (c : S) : AF S := mkAF c (f_zero So) None.

Definition release (st : store S) (c : option nat) : out (store S) :=
  match c with
  | Some c' => r <- call st (ctx_drop c') ;; Done (snd r)
  | None => Done st
  end.

(** [left o]: the operator that `c o x` applies when c is a double.  It should be [o]. *)
Definition value_step (left : cop -> cop) (st : store S) (s : stmt S) : out (store S) :=
  match s with
  | SDefault x => _ <- fresh_val st x ;; Done (set_val st x (Some zero_val))
  | SValue x c => _ <- fresh_val st x ;; Done (set_val st x (Some (const_val c)))
  | SCopy x y => _ <- fresh_val st x ;; v <- the_val st y ;; Done (set_val st x (Some v))
  | SMove x y =>
      _ <- fresh_val st x ;; v <- the_val st y ;;
      Done (set_val (set_val st x (Some v)) y (Some zero_val))
  | SCopyAssign x y => _ <- the_val st x ;; v <- the_val st y ;; Done (set_val st x (Some v))
  | SMoveAssign x y =>
      _ <- the_val st x ;; v <- the_val st y ;;
      Done (set_val (set_val st x (Some v)) y (Some zero_val))
  | SBin o x y z =>
      _ <- fresh_val st x ;; a <- the_val st y ;; b <- the_val st z ;;
      r <- call st (meth2 So (fop So) const_val (rust_op o) a b) ;;
      Done (set_val (snd r) x (Some (fst r)))
  | SBinLeft o x c y =>
      _ <- fresh_val st x ;; b <- the_val st y ;;
      r <- call st (meth2 So (fop So) const_val (rust_op (left o)) (const_val c) b) ;;
      Done (set_val (snd r) x (Some (fst r)))
  | SFn2 f x y z =>
      _ <- fresh_val st x ;; a <- the_val st y ;; b <- the_val st z ;;
      r <- call st (meth2 So (fop So) const_val (rust_fn2 f) a b) ;;
      Done (set_val (snd r) x (Some (fst r)))
  | SFn1 f x y =>
      _ <- fresh_val st x ;; a <- the_val st y ;;
      r <- call st (meth1 So (fop So) const_val (rust_fn1 f) a) ;;
      Done (set_val (snd r) x (Some (fst r)))
  | SDtor x => _ <- the_val st x ;; Done (set_val st x None)
  | KNew k =>
      _ <- fresh_ctx st k ;; r <- call st ctx_new ;; Done (set_ctx (snd r) k (Some (Some (fst r))))
  | KMove k j =>
      _ <- fresh_ctx st k ;; c <- the_ctx st j ;;
      Done (set_ctx (set_ctx st k (Some c)) j (Some None))
  | KMoveAssign k j =>
      c <- the_ctx st k ;; st' <- release st c ;; d <- the_ctx st' j ;;
      Done (set_ctx (set_ctx st' k (Some d)) j (Some None))
  | KDtor k => c <- the_ctx st k ;; st' <- release st c ;; Done (set_ctx st' k None)
  | KIndep x k =>
      _ <- fresh_val st x ;; c <- the_ctx st k ;; c <- usable c ;;
      r <- call st (new_indep So Some c (f_zero So)) ;;
      Done (set_val (snd r) x (Some (fst r)))
  | KDep k x =>
      c <- the_ctx st k ;; c <- usable c ;; v <- the_val st x ;;
      r <- call st (set_dep Some c v) ;; Done (snd r)
  end.

Fixpoint value_run (left : cop -> cop) (st : store S) (p : list (stmt S)) : out (store S) :=
  match p with
  | [] => Done st
  | s :: p' => st' <- value_step left st s ;; value_run left st' p'
  end.

Definition store0 (w : world S) : store S := mkStore w (fun _ => None) (fun _ => None).

(** The value of the ADouble object [x] in the C++ process, found through its pointers *)
Definition value_of (m : mach S) (x : nat) : option (AF S) :=
  match m_obj m x with
  | Some i => match h_at (m_imp m) i with Some p => h_at (m_box m) p | None => None end
  | None => None
  end.

(** The context held by the AContext object [k] *)
Definition context_of (m : mach S) (k : nat) : option (option nat) :=
  match m_cobj m k with
  | Some (Some i) =>
      match h_at (m_cimp m) i with Some p => Some (h_at (m_cbox m) p) | None => None end
  | Some None => Some None
  | None => None
  end.

(** The process shows exactly the objects of the store, with the same values. *)
Definition shows (m : mach S) (st : store S) : Prop :=
  m_w m = s_w st /\ (forall x, value_of m x = s_val st x) /\ (forall k, context_of m k = s_ctx st k).

(** The statement is not a copy of an object onto itself. *)
Definition not_self_copy (s : stmt S) : Prop :=
  match s with SCopyAssign x y => x <> y | _ => True end.
(** The statement is not `c - x`, `c * x` or `c / x`. *)
Definition not_scalar_left (s : stmt S) : Prop :=
  match s with SBinLeft CoAdd _ _ _ => True | SBinLeft _ _ _ _ => False | _ => True end.

(** The allocator does not hand out a cell that is in use. *)
Definition sound (a : log -> nat) : Prop := forall l, ~ In (a l) (live l).
(** Context ids not yet handed out are not in use. *)
Definition ids_fresh (w : world S) : Prop := forall c, w_next w <= c -> w_ctx w c = None.

End Spec.
