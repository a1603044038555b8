(** A thread that keeps its contexts and variables to itself: any terminating program that
    chooses its API calls from what it has seen so far, run alone (on Api.v) and run as one of
    the threads of Concurrent.v. *)
From Coq Require Import List Arith ZArith Bool Lia.
From Verif Require Import Base Float Operation Tape AContext Spec Param Api Ffi Concurrent.
Import ListNotations.

(** What a program sees: whether the last call panicked, the values and derivatives of its
    variables, and the tapes it has taken. *)
Record seen (S F : Type) : Type := mkSeen {
  s_panic : option panic;
  s_vars : list (S * S);
  s_tapes : list (tape F)
}.
Arguments mkSeen {S F}. Arguments s_panic {S F}. Arguments s_vars {S F}. Arguments s_tapes {S F}.

(** A program: it stops with a result, or makes a call and goes on depending on what it sees. *)
Inductive client (S F : Type) : Type :=
| Stop (r : ret S F)
| Call (k : call S) (next : seen S F -> client S F).
Arguments Stop {S F}. Arguments Call {S F}.

(** It does not look up contexts by number, and does not publish a variable. *)
Fixpoint private {S F : Type} (p : client S F) : Prop :=
  match p with
  | Stop (RVar _) => False
  | Stop _ => True
  | Call (CLookup _) _ => False
  | Call k next => wf_call k /\ forall o, private (next o)
  end.

(** The program that makes a fixed list of calls and returns the last tape it has taken. *)
Fixpoint calls {S F : Type} (ks : list (call S)) (o : seen S F) : client S F :=
  match ks with
  | [] => Stop (match rev (s_tapes o) with t :: _ => RTape t | [] => RUnit end)
  | k :: ks' => Call k (calls ks')
  end.

Section Client.
Context {S F : Type} (So : Fops S) (tof : S -> option F).
Notation code := (code S F).

(** *** Alone: the program is the only user of the library in its process. *)
Definition looks (s : api S F) (p : option panic) : seen S F :=
  mkSeen p (map (fun x => (af_v x, af_dv x)) (a_vars s)) (a_tapes s).

(** A call that cannot be written (no such handle or variable) ends the program. *)
Fixpoint alone (p : client S F) (s : api S F) : ret S F :=
  match p with
  | Stop r => r
  | Call k next =>
      match Api.step So tof s k with
      | None => RUnit
      | Some (s', r) => alone (next (looks s' r)) s'
      end
  end.

(** *** As one of many threads. *)

(** The call [m], then [k] with its result. *)
Fixpoint cbind (m : code) (k : ret S F -> code) : code :=
  match m with
  | Ret r => k r
  | Fetch f => Fetch (fun c => cbind (f c) k)
  | Alloc c f => Alloc c (fun a => cbind (f a) k)
  | MLock m' => MLock (cbind m' k)
  | MInsert c a m' => MInsert c a (cbind m' k)
  | MGet c f => MGet c (fun o => cbind (f o) k)
  | MRemove a m' => MRemove a (cbind m' k)
  | MUnlock m' => MUnlock (cbind m' k)
  | Upgrade a f => Upgrade a (fun b => cbind (f b) k)
  | Decr a f => Decr a (fun b => cbind (f b) k)
  | Lock a f => Lock a (fun b => cbind (f b) k)
  | Access a g f => Access a g (fun c i => cbind (f c i) k)
  | Unlock a p m' => Unlock a p (cbind m' k)
  end.

(** The thread's own variables: handles (addresses of contexts), AFloats, tapes. *)
Record locals : Type := mkLoc {
  l_handles : list (option nat);
  l_vars : list (AF S);
  l_tapes : list (tape F)
}.
Definition locals0 : locals := mkLoc [] [] [].

Definition lhandle (l : locals) (h : nat) : option nat :=
  match nth_error (l_handles l) h with Some (Some a) => Some a | _ => None end.
Definition lput (l : locals) (x : nat) (v : AF S) : locals :=
  mkLoc (l_handles l) (update (l_vars l) x v) (l_tapes l).
Definition lpush (l : locals) (v : AF S) : locals :=
  mkLoc (l_handles l) (l_vars l ++ [v]) (l_tapes l).

(** The micro-instructions of one call ([Concurrent.c_new] etc.), then [go] with the thread's
    variables after the call and the panic, if any. *)
Definition c_call (k : call S) (l : locals) (go : locals -> option panic -> code) : code :=
  match k with
  | CNew =>                         (* [Concurrent.c_new], keeping the handle *)
      Fetch (fun c => Alloc c (fun a => MLock (MInsert c a (MUnlock
        (go (mkLoc (l_handles l ++ [Some a]) (l_vars l) (l_tapes l)) None)))))
  | CDrop h =>
      match lhandle l h with
      | Some a => c_drop a (go (mkLoc (update (l_handles l) h None) (l_vars l) (l_tapes l)) None)
      | None => Ret RUnit
      end
  | CLookup _ => Ret RUnit
  | CIndep h x =>
      match lhandle l h, nth_error (l_vars l) x with
      | Some a, Some v =>
          cbind (c_set_indep tof a v) (fun r =>
            match r with RVar v' => go (lput l x v') None | RPanic p => go l (Some p) | _ => Ret RUnit end)
      | _, _ => Ret RUnit
      end
  | CDep h x =>
      match lhandle l h, nth_error (l_vars l) x with
      | Some a, Some v =>
          cbind (c_set_dep tof a v) (fun r =>
            match r with RUnit => go l None | RPanic p => go l (Some p) | _ => Ret RUnit end)
      | _, _ => Ret RUnit
      end
  | CTape h =>
      match lhandle l h with
      | Some a =>
          cbind (c_tape a) (fun r =>
            match r with
            | RTape t => go (mkLoc (l_handles l) (l_vars l) (l_tapes l ++ [t])) None
            | RPanic p => go l (Some p)
            | _ => Ret RUnit
            end)
      | None => Ret RUnit
      end
  | CVar v dv => go (lpush l (af_new v dv)) None
  | CCopy x =>
      match nth_error (l_vars l) x with
      | Some v => go (lpush l v) None
      | None => Ret RUnit
      end
  | CSetV x v =>
      match nth_error (l_vars l) x with
      | Some a => go (lput l x (mkAF v (af_dv a) (af_ctx a))) None
      | None => Ret RUnit
      end
  | CSetD x dv =>
      match nth_error (l_vars l) x with
      | Some a => go (lput l x (mkAF (af_v a) dv (af_ctx a))) None
      | None => Ret RUnit
      end
  | COp oc x y =>
      match nth_error (l_vars l) x,
            (match y with
             | None => Some None
             | Some j => match nth_error (l_vars l) j with Some b => Some (Some b) | None => None end
             end) with
      | Some a, Some b =>
          cbind (c_from_op So tof oc a b) (fun r =>
            match r with RVar v => go (lpush l v) None | RPanic p => go l (Some p) | _ => Ret RUnit end)
      | _, _ => Ret RUnit
      end
  end.

Definition lseen (l : locals) (p : option panic) : seen S F :=
  mkSeen p (map (fun x => (af_v x, af_dv x)) (l_vars l)) (l_tapes l).

(** The whole program as micro-instructions. *)
Fixpoint c_client (p : client S F) (l : locals) : code :=
  match p with
  | Stop r => Ret r
  | Call k next => c_call k l (fun l' r => c_client (next (lseen l' r)) l')
  end.

(** Thread [i] begins the program. *)
Definition start (g : sys S F) (i : nat) (p : client S F) : sys S F :=
  set_thr g i (mkThread (t_refs (g_thr g i)) (Some (c_client p locals0))).

(** *** The other threads *)

(** [ids g c] is satisfied whenever a context is looked up by its number [c] in state [g]. *)
Fixpoint lookups_ok (ids : sys S F -> nat -> Prop) (g : sys S F) (s : list (nat * move)) : Prop :=
  match s with
  | [] => True
  | (i, m) :: s' =>
      (forall c, m = DoLookup c -> ids g c) /\
      match Concurrent.step So tof g i m with
      | Some g' => lookups_ok ids g' s'
      | None => True
      end
  end.

(** Numbers that have been given out: ids are not guessed. *)
Definition given_out (g : sys S F) (c : nat) : Prop := c < g_next g.

(** Numbers given out before thread [i] began its program, or of contexts that other threads own:
    nobody looks up a context of thread [i]. *)
Definition not_of (i n : nat) (g : sys S F) (c : nat) : Prop :=
  c < n \/ exists j a r, j <> i /\ In a (t_refs (g_thr g j)) /\ g_arc g a = Some r /\ a_cid r = c.

End Client.
