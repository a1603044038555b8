(** Model of src/acontext.rs and of the [AFloat] type and [AFloat::from_op] of src/afloat.rs,
    for one thread.  (Several threads: Concurrent.v.) *)
From Coq Require Import List Arith ZArith Bool Lia.
From Verif Require Import Base Float Operation Tape.
Import ListNotations.

(** afloat.rs:11-18 [struct AFloat]: value, derivative, (context id, value id) *)
Record AF (S : Type) : Type := mkAF {
  af_v : S;
  af_dv : S;
  af_ctx : option (nat * nat)
}.
Arguments mkAF {S}. Arguments af_v {S}. Arguments af_dv {S}. Arguments af_ctx {S}.

(** acontext.rs:15-21 [struct AContextInner]; the field [cid] is the key under which the
    world stores it. *)
Record inner (F : Type) : Type := mkInner {
  i_indeps : list nat;
  i_deps : list nat;
  i_ops : list operation;
  i_vals : list F
}.
Arguments mkInner {F}. Arguments i_indeps {F}. Arguments i_deps {F}. Arguments i_ops {F}.
Arguments i_vals {F}.

(** acontext.rs:7-12: the process-wide state.  [w_next] is NEXT_CONTEXT_ID; [w_ctx] is
    CONTEXT_MAP together with the contexts the weak pointers lead to: [w_ctx c = Some i] iff
    the map has an entry for [c] whose [upgrade()] succeeds.  Simplification: ids are unbounded,
    so the assertion of acontext.rs:40 (more than 2^64-2 contexts) is not modelled. *)
Record world (F : Type) : Type := mkWorld {
  w_next : nat;
  w_ctx : nat -> option (inner F)
}.
Arguments mkWorld {F}. Arguments w_next {F}. Arguments w_ctx {F}.

(** The initial state of a process, acontext.rs:7-12 *)
Definition world0 {F : Type} : world F := mkWorld 1 (fun _ => None).

Definition upd_ctx {F : Type} (w : world F) (c : nat) (i : option (inner F)) : world F :=
  mkWorld (w_next w) (fun k => if k =? c then i else w_ctx w k).

(** Computations on the world that may panic. *)
Definition M (St A : Type) : Type := St -> res (A * St).
Definition mret {St A : Type} (a : A) : M St A := fun s => Ok (a, s).
Definition mbind {St A B : Type} (m : M St A) (f : A -> M St B) : M St B :=
  fun s => match m s with
           | Ok (a, s') => f a s'
           | Panic p => Panic p
           end.
Definition mlift {St A : Type} (r : res A) : M St A :=
  fun s => match r with Ok a => Ok (a, s) | Panic p => Panic p end.

Declare Scope mon_scope.
Delimit Scope mon_scope with mon.
Notation "x <~ m ;; k" := (mbind m (fun x => k))
  (at level 100, m at next level, right associativity) : mon_scope.
Open Scope mon_scope.

Section AContext.
(** [S] is the scalar of the [AFloat], [F] is [f64], [tof] is [NumCast::from : S -> Option<f64>]. *)
Context {S F : Type} (So : Fops S) (tof : S -> option F).

(** afloat.rs:22-24 [AFloat::new], afloat.rs:127-131 [From<S>] *)
Definition af_new (v dv : S) : AF S := mkAF v dv None.
Definition af_const (v : S) : AF S := af_new v (f_zero So).

(** acontext.rs:25-46 [AContextInner::construct], [AContextInner::new]; 68-72 [AContext::new] *)
Definition ctx_new : M (world F) nat := fun w =>
  let id := w_next w in
  Ok (id, mkWorld (id + 1) (fun k => if k =? id then Some (mkInner [] [] [] []) else w_ctx w k)).

(** acontext.rs:54-59: the last handle of context [c] is dropped *)
Definition ctx_drop (c : nat) : M (world F) unit := fun w => Ok (tt, upd_ctx w c None).

(** acontext.rs:75-82 [AContext::from_cid] *)
Definition from_cid (c : nat) : M (world F) (option nat) := fun w =>
  Ok (match w_ctx w c with Some _ => Some c | None => None end, w).

(** Access through a handle ([self.inner.lock().unwrap()]).  A handle keeps its context alive,
    so the failing branch cannot happen for a handle that exists. *)
Definition with_ctx {A : Type} (c : nat) (f : inner F -> res (A * inner F)) : M (world F) A :=
  fun w =>
    match w_ctx w c with
    | None => Panic PUnwrap
    | Some i => match f i with
                | Ok (a, i') => Ok (a, upd_ctx w c (Some i'))
                | Panic p => Panic p
                end
    end.

(** acontext.rs:91-97 [AContext::set_indep]; returns the updated variable *)
Definition set_indep (c : nat) (x : AF S) : M (world F) (AF S) :=
  with_ctx c (fun i =>
    let v := length (i_vals i) in
    val <- unwrap (tof (af_v x)) ;;
    Ok (mkAF (af_v x) (af_dv x) (Some (c, v)),
        mkInner (i_indeps i ++ [v]) (i_deps i) (i_ops i) (i_vals i ++ [val]))).

(** acontext.rs:100-121 [AContext::set_dep] *)
Definition set_dep (c : nat) (x : AF S) : M (world F) unit :=
  with_ctx c (fun i =>
    match af_ctx x with
    | Some (cid, v) =>
        _ <- assert (cid =? c) ;;
        Ok (tt, mkInner (i_indeps i) (i_deps i ++ [v]) (i_ops i) (i_vals i))
    | None =>
        let v := length (i_vals i) in
        val <- unwrap (tof (af_v x)) ;;
        Ok (tt, mkInner (i_indeps i) (i_deps i ++ [v])
                        (i_ops i ++ [mkOp Const v None None]) (i_vals i ++ [val]))
    end).

(** acontext.rs:124-128 [AContext::new_indep] *)
Definition new_indep (c : nat) (value : S) : M (world F) (AF S) :=
  set_indep c (af_new value (f_zero So)).

(** [for x in vec.iter_mut() { self.set_indep(x); }] *)
Fixpoint set_indeps (c : nat) (xs : list (AF S)) : M (world F) (list (AF S)) :=
  match xs with
  | [] => mret []
  | x :: xs' => y <~ set_indep c x ;; ys <~ set_indeps c xs' ;; mret (y :: ys)
  end.

(** acontext.rs:131-137 [AContext::new_indep_vec] *)
Definition new_indep_vec (c : nat) (len : nat) (value : S) : M (world F) (list (AF S)) :=
  set_indeps c (repeat (af_new value (f_zero So)) len).

(** acontext.rs:140-144 [AContext::set_dep_slice] *)
Fixpoint set_dep_slice (c : nat) (xs : list (AF S)) : M (world F) unit :=
  match xs with
  | [] => mret tt
  | x :: xs' => _ <~ set_dep c x ;; set_dep_slice c xs'
  end.

(** acontext.rs:147-164 [AContext::record] *)
Definition record (c : nat) (oc : OpCode) (val : S) (a1 a2 : option nat) : M (world F) nat :=
  with_ctx c (fun i =>
    let v := length (i_vals i) in
    fval <- unwrap (tof val) ;;
    Ok (v, mkInner (i_indeps i) (i_deps i) (i_ops i ++ [mkOp oc v a1 a2]) (i_vals i ++ [fval]))).

(** acontext.rs:191-198 [AContext::tape] (with 167-188) *)
Definition ctx_tape (c : nat) : M (world F) (tape F) :=
  with_ctx c (fun i => Ok (mkTape (i_indeps i) (i_deps i) (i_ops i) (i_vals i), i)).

(** afloat.rs:76-79 and 81-84: give a detached operand an id by recording it as a constant *)
Definition ensure_id (c : nat) (x : AF S) : M (world F) nat :=
  match af_ctx x with
  | Some (_, v) => mret v
  | None => record c Const (af_v x) None None
  end.

(** afloat.rs:58-71: the context an operation records to *)
Definition pick_cid (x : AF S) (y : option (AF S)) : res (option nat) :=
  let c1 := match af_ctx x with Some (c, _) => Some c | None => None end in
  match y with
  | Some y' =>
      match af_ctx y' with
      | Some (c2, _) =>
          match c1 with
          | Some c => _ <- assert (c2 =? c) ;; Ok (Some c)
          | None => Ok (Some c2)
          end
      | None => Ok c1
      end
  | None => Ok c1
  end.

(** afloat.rs:47-95 [AFloat::from_op] *)
Definition from_op (oc : OpCode) (x : AF S) (y : option (AF S)) : M (world F) (AF S) :=
  v <~ mlift (zero_order_value So oc (af_v x) (option_map af_v y)) ;;
  dv <~ mlift (first_order_value So oc (af_v x) (option_map af_v y)
                                 (af_dv x) (option_map af_dv y)) ;;
  cid <~ mlift (pick_cid x y) ;;
  match cid with
  | None => mret (mkAF v dv None)
  | Some c =>
      ctx <~ from_cid c ;;
      match ctx with
      | None => mret (mkAF v dv None)
      | Some c =>
          i1 <~ ensure_id c x ;;
          i2 <~ match y with
                | None => mret None
                | Some y' => j <~ ensure_id c y' ;; mret (Some j)
                end ;;
          i <~ record c oc v (Some i1) i2 ;;
          mret (mkAF v dv (Some (c, i)))
      end
  end.

(** afloat.rs:98-104 [AFloat::cast], value conversions [conv = T::from] *)
Definition af_cast {T : Type} (conv : S -> option T) (x : AF S) : res (AF T) :=
  v <- unwrap (conv (af_v x)) ;;
  dv <- unwrap (conv (af_dv x)) ;;
  Ok (mkAF v dv (af_ctx x)).

(** afloat.rs:115-125 [PartialEq], [PartialOrd]: only values are compared *)
Definition af_eqb (x y : AF S) : bool := f_eqb So (af_v x) (af_v y).
Definition af_ltb (x y : AF S) : bool := f_ltb So (af_v x) (af_v y).

End AContext.
