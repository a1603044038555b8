(** Histories of API calls, one thread: contexts are created, looked up, dropped; variables are
    created, copied, overwritten, marked and combined; panics may be caught and execution goes
    on. *)
From Coq Require Import List Arith ZArith Bool Lia.
From Verif Require Import Base Float Operation Tape AContext Param.
Import ListNotations.

(** One call.  Handles ([AContext] values) and variables ([AFloat] values) are referred to by
    the order in which they came into being.
    [CNew]: AContext::new; [CDrop]: a handle goes out of scope; [CLookup]: AContext::from_cid;
    [CIndep]: set_indep; [CDep]: set_dep; [CTape]: tape; [CVar]: AFloat::new; [CCopy]: Copy;
    [CSetV], [CSetD]: assignment through value_mut, dvalue_mut; [COp]: an elementary operation
    or comparison-free method ([AFloat::from_op]).  new_indep, new_indep_vec and set_dep_slice
    (acontext.rs:124-144) are sequences of these; so are all derived methods and user functions
    (theorem [run_is_history]).  AContext::record is left out: called directly it can store
    anything. *)
Inductive call (S : Type) : Type :=
| CNew
| CDrop (h : nat)
| CLookup (cid : nat)
| CIndep (h x : nat)
| CDep (h x : nat)
| CTape (h : nat)
| CVar (v dv : S)
| CCopy (x : nat)
| CSetV (x : nat) (v : S)
| CSetD (x : nat) (dv : S)
| COp (oc : OpCode) (x : nat) (y : option nat).
Arguments CNew {S}. Arguments CDrop {S}. Arguments CLookup {S}. Arguments CIndep {S}.
Arguments CDep {S}. Arguments CTape {S}. Arguments CVar {S}. Arguments CCopy {S}.
Arguments CSetV {S}. Arguments CSetD {S}. Arguments COp {S}.

(** [a_handles]: for every handle so far the context it owns, [None] once dropped (or for a
    lookup that found nothing).  [a_poison c]: the mutex of context [c] is poisoned, i.e. a
    panic happened while it was held.  [a_dirty] is a ghost: which variables were overwritten
    through value_mut since their value was recorded.  [a_created] is a ghost: the ids returned
    by AContext::new so far. *)
Record api (S F : Type) : Type := mkApi {
  a_world : world F;
  a_handles : list (option nat);
  a_poison : nat -> bool;
  a_vars : list (AF S);
  a_dirty : list bool;
  a_tapes : list (tape F);
  a_created : list nat
}.
Arguments mkApi {S F}. Arguments a_world {S F}. Arguments a_handles {S F}.
Arguments a_poison {S F}. Arguments a_vars {S F}. Arguments a_dirty {S F}.
Arguments a_tapes {S F}. Arguments a_created {S F}.

Section Api.
Context {S F : Type} (So : Fops S) (tof : S -> option F).

Definition api0 : api S F := mkApi world0 [] (fun _ => false) [] [] [] [].

Definition set_world (s : api S F) (w : world F) : api S F :=
  mkApi w (a_handles s) (a_poison s) (a_vars s) (a_dirty s) (a_tapes s) (a_created s).
Definition set_poison (s : api S F) (c : nat) : api S F :=
  mkApi (a_world s) (a_handles s) (fun k => (k =? c) || a_poison s k) (a_vars s) (a_dirty s)
        (a_tapes s) (a_created s).
Definition push_var (s : api S F) (x : AF S) (d : bool) : api S F :=
  mkApi (a_world s) (a_handles s) (a_poison s) (a_vars s ++ [x]) (a_dirty s ++ [d])
        (a_tapes s) (a_created s).
Definition put_var (s : api S F) (i : nat) (x : AF S) (d : bool) : api S F :=
  mkApi (a_world s) (a_handles s) (a_poison s) (update (a_vars s) i x) (update (a_dirty s) i d)
        (a_tapes s) (a_created s).
Definition push_handle (s : api S F) (h : option nat) : api S F :=
  mkApi (a_world s) (a_handles s ++ [h]) (a_poison s) (a_vars s) (a_dirty s) (a_tapes s)
        (a_created s).

(** Is a handle to context [c] alive? ([Arc] strong count > 0) *)
Definition owned (hs : list (option nat)) (c : nat) : bool :=
  existsb (fun h => match h with Some c' => c' =? c | None => false end) hs.

(** The context a handle owns, for handles that exist. *)
Definition handle (s : api S F) (h : nat) : option nat :=
  match nth_error (a_handles s) h with
  | Some (Some c) => Some c
  | _ => None
  end.

(** What a from_op (afloat.rs:47-95) that panicked leaves behind.  [None]: it panicked before
    line 73 and changed nothing.  [Some (c, w')]: the conversion in AContext::record
    (acontext.rs:154-156) failed while the mutex of context [c] was held; operands that had
    been recorded as constants by then stay. *)
Definition from_op_left (oc : OpCode) (x : AF S) (y : option (AF S)) (w : world F)
  : option (nat * world F) :=
  match zero_order_value So oc (af_v x) (option_map af_v y),
        first_order_value So oc (af_v x) (option_map af_v y) (af_dv x) (option_map af_dv y),
        pick_cid x y with
  | Ok _, Ok _, Ok (Some c) =>
      match w_ctx w c with
      | None => None
      | Some _ =>
          match ensure_id tof c x w with
          | Panic _ => Some (c, w)
          | Ok (_, w1) =>
              match y with
              | None => Some (c, w1)
              | Some y' => match ensure_id tof c y' w1 with
                           | Panic _ => Some (c, w1)
                           | Ok (_, w2) => Some (c, w2)
                           end
              end
          end
      end
  | _, _, _ => None
  end.

(** [step s k = Some (s', r)]: call [k] in state [s] leads to [s'] and panics with [r] if
    [r = Some p].  [None]: the call cannot be written (no such handle or variable). *)
Definition step (s : api S F) (k : call S) : option (api S F * option panic) :=
  match k with
  | CNew =>                                             (* acontext.rs:68-72 *)
      match ctx_new (a_world s) with
      | Ok (c, w') =>
          let s1 := push_handle (set_world s w') (Some c) in
          Some (mkApi (a_world s1) (a_handles s1) (a_poison s1) (a_vars s1) (a_dirty s1)
                      (a_tapes s1) (a_created s1 ++ [c]), None)
      | Panic p => Some (s, Some p)
      end
  | CDrop h =>                                          (* Arc::drop, acontext.rs:54-59 *)
      match handle s h with
      | None => None
      | Some c =>
          let hs := update (a_handles s) h None in
          let w' := if owned hs c then a_world s else upd_ctx (a_world s) c None in
          Some (mkApi w' hs (a_poison s) (a_vars s) (a_dirty s) (a_tapes s) (a_created s), None)
      end
  | CLookup cid =>                                      (* acontext.rs:75-82 *)
      match from_cid cid (a_world s) with
      | Ok (r, _) => Some (push_handle s r, None)
      | Panic p => Some (s, Some p)
      end
  | CIndep h x =>                                       (* acontext.rs:91-97 *)
      match handle s h, nth_error (a_vars s) x with
      | Some c, Some v =>
          if a_poison s c then Some (s, Some PUnwrap)
          else match set_indep tof c v (a_world s) with
               | Ok (v', w') => Some (put_var (set_world s w') x v' false, None)
               | Panic p => Some (set_poison s c, Some p)
               end
      | _, _ => None
      end
  | CDep h x =>                                         (* acontext.rs:100-121 *)
      match handle s h, nth_error (a_vars s) x with
      | Some c, Some v =>
          if a_poison s c then Some (s, Some PUnwrap)
          else match set_dep tof c v (a_world s) with
               | Ok (_, w') => Some (set_world s w', None)
               | Panic p => Some (set_poison s c, Some p)   (* the lock is held *)
               end
      | _, _ => None
      end
  | CTape h =>                                          (* acontext.rs:191-198 *)
      match handle s h with
      | None => None
      | Some c =>
          if a_poison s c then Some (s, Some PUnwrap)
          else match ctx_tape c (a_world s) with
               | Ok (t, _) => Some (mkApi (a_world s) (a_handles s) (a_poison s) (a_vars s)
                                          (a_dirty s) (a_tapes s ++ [t]) (a_created s), None)
               | Panic p => Some (s, Some p)
               end
      end
  | CVar v dv => Some (push_var s (af_new v dv) false, None)   (* afloat.rs:22-24 *)
  | CCopy x =>                                          (* afloat.rs:10 #[derive(Copy)] *)
      match nth_error (a_vars s) x, nth_error (a_dirty s) x with
      | Some v, Some d => Some (push_var s v d, None)
      | _, _ => None
      end
  | CSetV x v =>                                        (* afloat.rs:32-34 *)
      match nth_error (a_vars s) x with
      | Some a => Some (put_var s x (mkAF v (af_dv a) (af_ctx a))
                                (match af_ctx a with Some _ => true | None => false end), None)
      | None => None
      end
  | CSetD x dv =>                                       (* afloat.rs:42-44 *)
      match nth_error (a_vars s) x, nth_error (a_dirty s) x with
      | Some a, Some d => Some (put_var s x (mkAF (af_v a) dv (af_ctx a)) d, None)
      | _, _ => None
      end
  | COp oc x y =>                                       (* afloat.rs:47-95 *)
      match nth_error (a_vars s) x,
            (match y with
             | None => Some None
             | Some j => match nth_error (a_vars s) j with Some b => Some (Some b) | None => None end
             end) with
      | Some a, Some b =>
          (* the lock taken by [record] (acontext.rs:154) fails on a poisoned context *)
          let poisoned := match pick_cid a b with
                          | Ok (Some c) => match w_ctx (a_world s) c with
                                           | Some _ => a_poison s c
                                           | None => false
                                           end
                          | _ => false
                          end in
          if poisoned then Some (s, Some PUnwrap)
          else match from_op So tof oc a b (a_world s) with
               | Ok (r, w') => Some (push_var (set_world s w') r false, None)
               | Panic p => match from_op_left oc a b (a_world s) with
                            | None => Some (s, Some p)
                            | Some (c, w') => Some (set_poison (set_world s w') c, Some p)
                            end
               end
      | _, _ => None
      end
  end.

(** Operations are only reachable with the number of operands of their method. *)
Definition wf_call (k : call S) : Prop :=
  match k with
  | COp oc _ y => arity_ok oc y
  | _ => True
  end.

(** The states some history of calls leads from [s] to. *)
Inductive history (s : api S F) : list (call S) -> api S F -> Prop :=
| hist_nil : history s [] s
| hist_step ks s1 k s2 r :
    history s ks s1 -> wf_call k -> step s1 k = Some (s2, r) -> history s (ks ++ [k]) s2.

Definition reachable (s : api S F) : Prop := exists ks, history api0 ks s.

(** A history that never writes through value_mut into a variable attached to a context. *)
Inductive clean_history (s : api S F) : list (call S) -> api S F -> Prop :=
| clean_nil : clean_history s [] s
| clean_step ks s1 k s2 r :
    clean_history s ks s1 -> wf_call k -> step s1 k = Some (s2, r) ->
    (forall x v a, k = CSetV x v -> nth_error (a_vars s1) x = Some a -> af_ctx a = None) ->
    clean_history s (ks ++ [k]) s2.

End Api.

Arguments owned : simpl never.
