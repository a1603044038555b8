(** Several threads: model of src/acontext.rs and of AFloat::from_op (src/afloat.rs:47-95) at the
    granularity of lock operations and atomic instructions.

    Every API call is a tree of micro-instructions ([code]); threads take turns, one
    micro-instruction at a time, in any order.  The shared state is the registry CONTEXT_MAP with
    its mutex, the id counter, and the contexts (Arc<Mutex<AContextInner>>) with their mutexes.

    Simplifications.  (1) The strong count of an Arc is not a number in the state: it is the
    number of occurrences of the Arc in the [t_refs] of all threads, which is what the standard
    library guarantees.  (2) Interleaving semantics: the code synchronises by mutexes, a SeqCst
    counter and Arc only.  (3) The mutex of CONTEXT_MAP cannot be poisoned: nothing inside its
    critical sections panics.  (4) A borrowed handle used by another thread counts as a handle of
    that thread.  (5) As in AContext.v ids are unbounded. *)
From Coq Require Import List Arith ZArith Bool Lia.
From Verif Require Import Base Float Operation Tape AContext Spec Ffi.
Import ListNotations.

(** What an API call hands back: nothing (or a handle, which is in [t_refs]), a variable, a
    tape, or a panic. *)
Inductive ret (S F : Type) : Type :=
| RUnit
| RVar (x : AF S)
| RTape (t : tape F)
| RPanic (p : panic).
Arguments RUnit {S F}. Arguments RVar {S F}. Arguments RTape {S F}. Arguments RPanic {S F}.

(** Micro-instructions; [a] is the address of a context (Arc).
    [Fetch]: NEXT_CONTEXT_ID.fetch_add; [Alloc c]: Arc::new(Mutex::new(construct(c))), downgrade;
    [MLock], [MUnlock]: the registry's mutex; [MInsert], [MGet], [MRemove]: HashMap methods;
    [Upgrade]: Weak::upgrade; [Decr]: an Arc is dropped, the continuation learns whether it was
    the last; [Lock a]: the continuation learns whether the mutex is poisoned; [Access a f]: the
    contents are replaced by [f] of the context id and the contents, the continuation learns
    both; [Unlock a p]: unlock, poisoning the mutex if [p]. *)
Inductive code (S F : Type) : Type :=
| Ret (r : ret S F)
| Fetch (k : nat -> code S F)
| Alloc (c : nat) (k : nat -> code S F)
| MLock (k : code S F)
| MInsert (c a : nat) (k : code S F)
| MGet (c : nat) (k : option nat -> code S F)
| MRemove (a : nat) (k : code S F)
| MUnlock (k : code S F)
| Upgrade (a : nat) (k : bool -> code S F)
| Decr (a : nat) (k : bool -> code S F)
| Lock (a : nat) (k : bool -> code S F)
| Access (a : nat) (f : nat -> inner F -> inner F) (k : nat -> inner F -> code S F)
| Unlock (a : nat) (p : bool) (k : code S F).
Arguments Ret {S F}. Arguments Fetch {S F}. Arguments Alloc {S F}. Arguments MLock {S F}.
Arguments MInsert {S F}. Arguments MGet {S F}. Arguments MRemove {S F}. Arguments MUnlock {S F}.
Arguments Upgrade {S F}. Arguments Decr {S F}. Arguments Lock {S F}. Arguments Access {S F}.
Arguments Unlock {S F}.

(** acontext.rs:15-21 and the mutex around it.  [a_lock]: the thread holding it. *)
Record arc (F : Type) : Type := mkArc {
  a_cid : nat;
  a_inner : inner F;
  a_lock : option nat;
  a_poison : bool
}.
Arguments mkArc {F}. Arguments a_cid {F}. Arguments a_inner {F}. Arguments a_lock {F}.
Arguments a_poison {F}.

(** A thread: the Arcs it owns and the API call it is in. *)
Record thread (S F : Type) : Type := mkThread {
  t_refs : list nat;
  t_code : option (code S F)
}.
Arguments mkThread {S F}. Arguments t_refs {S F}. Arguments t_code {S F}.

(** The process: acontext.rs:7-12 ([g_next], [g_map], [g_mlock]), the heap of contexts
    ([g_arc], addresses below [g_anext] are allocated), [g_n] threads, and everything API calls
    have returned so far: variables are plain data, so any thread may come to know any. *)
Record sys (S F : Type) : Type := mkSys {
  g_next : nat;
  g_map : nat -> option nat;
  g_mlock : option nat;
  g_anext : nat;
  g_arc : nat -> option (arc F);
  g_n : nat;
  g_thr : nat -> thread S F;
  g_vars : list (AF S);
  g_tapes : list (tape F)
}.
Arguments mkSys {S F}. Arguments g_next {S F}. Arguments g_map {S F}. Arguments g_mlock {S F}.
Arguments g_anext {S F}. Arguments g_arc {S F}. Arguments g_n {S F}. Arguments g_thr {S F}.
Arguments g_vars {S F}. Arguments g_tapes {S F}.

Section Concurrent.
Context {S F : Type} (So : Fops S) (tof : S -> option F).
Notation code := (code S F). Notation sys := (sys S F).

(** *** The API calls *)

(** A critical section of a context: [self.inner.lock().unwrap()], the body, unlock.  A panic
    of the body poisons the mutex; the bodies below panic before they change anything. *)
Definition crit {B : Type} (a : nat) (body : nat -> inner F -> res (B * inner F))
  (k : res B -> code) : code :=
  Lock a (fun poisoned =>
    if poisoned then Unlock a false (k (Panic PUnwrap))
    else Access a (fun c i => match body c i with Ok (_, i') => i' | Panic _ => i end)
           (fun c i => match body c i with
                       | Ok (b, _) => Unlock a false (k (Ok b))
                       | Panic p => Unlock a true (k (Panic p))
                       end)).

(** Bodies, the same as in AContext.v: acontext.rs:92-96 *)
Definition body_indep (x : AF S) (c : nat) (i : inner F) : res (AF S * inner F) :=
  let v := length (i_vals i) in
  (val <- unwrap (tof (af_v x)) ;;
   Ok (mkAF (af_v x) (af_dv x) (Some (c, v)),
       mkInner (i_indeps i ++ [v]) (i_deps i) (i_ops i) (i_vals i ++ [val])))%res.
(** acontext.rs:101-120 *)
Definition body_dep (x : AF S) (c : nat) (i : inner F) : res (unit * inner F) :=
  (match af_ctx x with
   | Some (cid, v) =>
       _ <- assert (cid =? c) ;;
       Ok (tt, mkInner (i_indeps i) (i_deps i ++ [v]) (i_ops i) (i_vals i))
   | None =>
       let v := length (i_vals i) in
       val <- unwrap (tof (af_v x)) ;;
       Ok (tt, mkInner (i_indeps i) (i_deps i ++ [v])
                       (i_ops i ++ [mkOp Const v None None]) (i_vals i ++ [val]))
   end)%res.
(** acontext.rs:154-163 *)
Definition body_record (oc : OpCode) (val : S) (a1 a2 : option nat) (c : nat) (i : inner F)
  : res (nat * inner F) :=
  let v := length (i_vals i) in
  (fval <- unwrap (tof val) ;;
   Ok (v, mkInner (i_indeps i) (i_deps i) (i_ops i ++ [mkOp oc v a1 a2]) (i_vals i ++ [fval])))%res.
(** acontext.rs:167-188 *)
Definition body_get {B : Type} (get : inner F -> B) (c : nat) (i : inner F) : res (B * inner F) :=
  Ok (get i, i).

Definition finish {B : Type} (out : B -> ret S F) (r : res B) : code :=
  match r with Ok b => Ret (out b) | Panic p => Ret (RPanic p) end.

(** acontext.rs:36-46, 68-72; the handle ends up in the thread's [t_refs] *)
Definition c_new : code :=
  Fetch (fun c => Alloc c (fun a => MLock (MInsert c a (MUnlock (Ret RUnit))))).

(** acontext.rs:75-82 *)
Definition c_from_cid (c : nat) (k : option nat -> code) : code :=
  MLock (MGet c (fun w =>
    match w with
    | None => MUnlock (k None)
    | Some a => Upgrade a (fun ok => if ok then MUnlock (k (Some a)) else MUnlock (k None))
    end)).

(** A handle goes out of scope; the last one runs acontext.rs:54-59 *)
Definition c_drop (a : nat) (k : code) : code :=
  Decr a (fun last => if last then MLock (MRemove a (MUnlock k)) else k).

(** acontext.rs:91-97, 100-121, 191-198 *)
Definition c_set_indep (a : nat) (x : AF S) : code := crit a (body_indep x) (finish RVar).
Definition c_set_dep (a : nat) (x : AF S) : code := crit a (body_dep x) (finish (fun _ => RUnit)).
Definition c_tape (a : nat) : code :=
  crit a (body_get i_indeps) (fun r => match r with Panic p => Ret (RPanic p) | Ok indeps =>
  crit a (body_get i_deps) (fun r => match r with Panic p => Ret (RPanic p) | Ok deps =>
  crit a (body_get i_ops) (fun r => match r with Panic p => Ret (RPanic p) | Ok ops =>
  crit a (body_get i_vals) (fun r => match r with Panic p => Ret (RPanic p) | Ok vals =>
  Ret (RTape (mkTape indeps deps ops vals)) end) end) end) end).

(** afloat.rs:76-79, 81-84 *)
Definition c_ensure (a : nat) (x : AF S) (k : res nat -> code) : code :=
  match af_ctx x with
  | Some (_, v) => k (Ok v)
  | None => crit a (body_record Const (af_v x) None None) k
  end.

(** afloat.rs:47-95; the handle [ctx] is dropped at the end of its block, also by a panic *)
Definition c_from_op (oc : OpCode) (x : AF S) (y : option (AF S)) : code :=
  match zero_order_value So oc (af_v x) (option_map af_v y) with
  | Panic p => Ret (RPanic p)
  | Ok v =>
  match first_order_value So oc (af_v x) (option_map af_v y) (af_dv x) (option_map af_dv y) with
  | Panic p => Ret (RPanic p)
  | Ok dv =>
  match pick_cid x y with
  | Panic p => Ret (RPanic p)
  | Ok None => Ret (RVar (mkAF v dv None))
  | Ok (Some c) =>
      c_from_cid c (fun ctx =>
        match ctx with
        | None => Ret (RVar (mkAF v dv None))
        | Some a =>
            c_ensure a x (fun r1 =>
            match r1 with
            | Panic p => c_drop a (Ret (RPanic p))
            | Ok i1 =>
                let last i2 :=
                  crit a (body_record oc v (Some i1) i2) (fun r =>
                    match r with
                    | Panic p => c_drop a (Ret (RPanic p))
                    | Ok vid => c_drop a (Ret (RVar (mkAF v dv (Some (c, vid)))))
                    end) in
                match y with
                | None => last None
                | Some y' =>
                    c_ensure a y' (fun r2 =>
                    match r2 with
                    | Panic p => c_drop a (Ret (RPanic p))
                    | Ok i2 => last (Some i2)
                    end)
                end
            end)
        end)
  end end end.

(** *** Execution *)
Definition remove1 (a : nat) : list nat -> list nat :=
  fix go l := match l with
              | [] => []
              | b :: l' => if a =? b then l' else b :: go l'
              end.

(** Some thread owns the context. *)
Definition owned (g : sys) (a : nat) : bool :=
  existsb (fun i => existsb (Nat.eqb a) (t_refs (g_thr g i))) (seq 0 (g_n g)).

Definition set_thr (g : sys) (i : nat) (t : thread S F) : sys :=
  mkSys (g_next g) (g_map g) (g_mlock g) (g_anext g) (g_arc g) (g_n g) (upd (g_thr g) i t)
        (g_vars g) (g_tapes g).
Definition set_arc (g : sys) (a : nat) (r : arc F) : sys :=
  mkSys (g_next g) (g_map g) (g_mlock g) (g_anext g) (upd (g_arc g) a (Some r)) (g_n g) (g_thr g)
        (g_vars g) (g_tapes g).
Definition set_map (g : sys) (c : nat) (v : option nat) : sys :=
  mkSys (g_next g) (upd (g_map g) c v) (g_mlock g) (g_anext g) (g_arc g) (g_n g) (g_thr g)
        (g_vars g) (g_tapes g).
Definition set_mlock (g : sys) (v : option nat) : sys :=
  mkSys (g_next g) (g_map g) v (g_anext g) (g_arc g) (g_n g) (g_thr g) (g_vars g) (g_tapes g).

(** One micro-instruction of thread [i]; [None]: it has to wait. *)
Definition micro (g : sys) (i : nat) : option sys :=
  let refs := t_refs (g_thr g i) in
  let go g k := Some (set_thr g i (mkThread refs (Some k))) in
  match t_code (g_thr g i) with
  | None => None
  | Some (Ret r) =>
      Some (mkSys (g_next g) (g_map g) (g_mlock g) (g_anext g) (g_arc g) (g_n g)
              (upd (g_thr g) i (mkThread refs None))
              (match r with RVar x => g_vars g ++ [x] | _ => g_vars g end)
              (match r with RTape t => g_tapes g ++ [t] | _ => g_tapes g end))
  | Some (Fetch k) =>
      Some (mkSys (g_next g + 1) (g_map g) (g_mlock g) (g_anext g) (g_arc g) (g_n g)
              (upd (g_thr g) i (mkThread refs (Some (k (g_next g))))) (g_vars g) (g_tapes g))
  | Some (Alloc c k) =>
      Some (mkSys (g_next g) (g_map g) (g_mlock g) (g_anext g + 1)
              (upd (g_arc g) (g_anext g) (Some (mkArc c (mkInner [] [] [] []) None false))) (g_n g)
              (upd (g_thr g) i (mkThread (g_anext g :: refs) (Some (k (g_anext g)))))
              (g_vars g) (g_tapes g))
  | Some (MLock k) =>
      match g_mlock g with None => go (set_mlock g (Some i)) k | Some _ => None end
  | Some (MInsert c a k) => go (set_map g c (Some a)) k
  | Some (MGet c k) => go g (k (g_map g c))
  | Some (MRemove a k) =>
      match g_arc g a with Some r => go (set_map g (a_cid r) None) k | None => None end
  | Some (MUnlock k) => go (set_mlock g None) k
  | Some (Upgrade a k) =>
      if owned g a then Some (set_thr g i (mkThread (a :: refs) (Some (k true)))) else go g (k false)
  | Some (Decr a k) =>
      let g' := set_thr g i (mkThread (remove1 a refs) None) in
      Some (set_thr g' i (mkThread (remove1 a refs) (Some (k (negb (owned g' a))))))
  | Some (Lock a k) =>
      match g_arc g a with
      | Some r => match a_lock r with
                  | None => go (set_arc g a (mkArc (a_cid r) (a_inner r) (Some i) (a_poison r)))
                               (k (a_poison r))
                  | Some _ => None
                  end
      | None => None
      end
  | Some (Access a f k) =>
      match g_arc g a with
      | Some r => go (set_arc g a (mkArc (a_cid r) (f (a_cid r) (a_inner r)) (a_lock r) (a_poison r)))
                     (k (a_cid r) (a_inner r))
      | None => None
      end
  | Some (Unlock a p k) =>
      match g_arc g a with
      | Some r => go (set_arc g a (mkArc (a_cid r) (a_inner r) None (a_poison r || p))) k
      | None => None
      end
  end.

(** What a thread can do.  [Go]: the next micro-instruction of the call it is in.  Otherwise it
    is between calls and starts one, using contexts it owns and variables it knows:
    AContext::new, from_cid, drop, set_indep, set_dep, tape, an operation; or it creates a
    variable (AFloat::new), changes a derivative (dvalue_mut), passes a handle to another thread,
    or spawns a thread.  value_mut is added in ConcWrite.v. *)
Inductive move : Type :=
| Go
| DoNew
| DoLookup (c : nat)
| DoDrop (a : nat)
| DoIndep (a x : nat)
| DoDep (a x : nat)
| DoTape (a : nat)
| DoOp (oc : OpCode) (x : nat) (y : option nat)
| DoVar (v dv : S)
| DoSeed (x : nat) (dv : S)
| DoSend (a j : nat)
| DoSpawn.

(** The methods of afloat.rs call from_op with as many operands as the operation needs. *)
Definition right_arity (oc : OpCode) (y : option nat) : bool :=
  match y with None => unary_oc oc | Some _ => binary_oc oc end.

Definition has (a : nat) (l : list nat) : bool := existsb (Nat.eqb a) l.

(** Thread [i] begins the call [c], if it is between calls. *)
Definition begin (g : sys) (i : nat) (c : code) : option sys :=
  match t_code (g_thr g i) with
  | None => Some (set_thr g i (mkThread (t_refs (g_thr g i)) (Some c)))
  | Some _ => None
  end.
Definition add_var (g : sys) (x : AF S) : sys :=
  mkSys (g_next g) (g_map g) (g_mlock g) (g_anext g) (g_arc g) (g_n g) (g_thr g) (g_vars g ++ [x])
        (g_tapes g).

Definition step (g : sys) (i : nat) (m : move) : option sys :=
  if i <? g_n g then
    let refs := t_refs (g_thr g i) in
    match m with
    | Go => micro g i
    | DoNew => begin g i c_new
    | DoLookup c => begin g i (c_from_cid c (fun _ => Ret RUnit))
    | DoDrop a => if has a refs then begin g i (c_drop a (Ret RUnit)) else None
    | DoIndep a x =>
        match nth_error (g_vars g) x with
        | Some x' => if has a refs then begin g i (c_set_indep a x') else None
        | None => None
        end
    | DoDep a x =>
        match nth_error (g_vars g) x with
        | Some x' => if has a refs then begin g i (c_set_dep a x') else None
        | None => None
        end
    | DoTape a => if has a refs then begin g i (c_tape a) else None
    | DoOp oc x y =>
        if right_arity oc y then
          match nth_error (g_vars g) x with
          | Some x' =>
              match y with
              | None => begin g i (c_from_op oc x' None)
              | Some y =>
                  match nth_error (g_vars g) y with
                  | Some y' => begin g i (c_from_op oc x' (Some y'))
                  | None => None
                  end
              end
          | None => None
          end
        else None
    | DoVar v dv =>
        match t_code (g_thr g i) with
        | None => Some (add_var g (mkAF v dv None))
        | Some _ => None
        end
    | DoSeed x dv =>
        match t_code (g_thr g i), nth_error (g_vars g) x with
        | None, Some x' => Some (add_var g (mkAF (af_v x') dv (af_ctx x')))
        | _, _ => None
        end
    | DoSend a j =>
        match t_code (g_thr g i), t_code (g_thr g j) with
        | None, None =>
            if has a refs && (j <? g_n g) then
              let g' := set_thr g i (mkThread (remove1 a refs) None) in
              Some (set_thr g' j (mkThread (a :: t_refs (g_thr g' j)) None))
            else None
        | _, _ => None
        end
    | DoSpawn =>
        match t_code (g_thr g i) with
        | None => Some (mkSys (g_next g) (g_map g) (g_mlock g) (g_anext g) (g_arc g) (g_n g + 1)
                          (upd (g_thr g) (g_n g) (mkThread [] None)) (g_vars g) (g_tapes g))
        | Some _ => None
        end
    end
  else None.

(** A schedule: which thread does what. *)
Fixpoint play (g : sys) (s : list (nat * move)) : option sys :=
  match s with
  | [] => Some g
  | (i, m) :: s' => match step g i m with Some g' => play g' s' | None => None end
  end.

(** The process at its start: one thread, acontext.rs:7-12 *)
Definition sys0 : sys :=
  mkSys 1 (fun _ => None) None 0 (fun _ => None) 1 (fun _ => mkThread [] None) [] [].

Definition reachable (g : sys) : Prop := exists s, play sys0 s = Some g.

End Concurrent.
Arguments Go {S}. Arguments DoNew {S}. Arguments DoLookup {S}. Arguments DoDrop {S}.
Arguments DoIndep {S}. Arguments DoDep {S}. Arguments DoTape {S}. Arguments DoOp {S}.
Arguments DoVar {S}. Arguments DoSeed {S}. Arguments DoSend {S}. Arguments DoSpawn {S}.
