(** Context ids on a machine whose [usize] is bounded.

    AContext.v and Concurrent.v count contexts with unbounded numbers and take a context's id for the
    context.  Here ids are words below [W] (2^32 or 2^64), contexts are objects with an address of their
    own, and the registry maps ids to addresses, as the code does.  What a context records is left out. *)
From Coq Require Import List Arith Lia.
From Verif Require Import Base AContext.
Import ListNotations.

(** [g_next]: NEXT_CONTEXT_ID (acontext.rs:7); [g_map]: CONTEXT_MAP (acontext.rs:9-12), weak references;
    [g_obj a]: the id of the context at [a] while it has an owner (acontext.rs:14-21, 62-64);
    [g_free]: addresses from here on are unused. *)
Record registry : Type := mkReg { g_next : nat; g_map : nat -> option nat; g_obj : nat -> option nat; g_free : nat }.
Definition reg0 : registry := mkReg 1 (fun _ => None) (fun _ => None) 0.
Definition put {A : Type} (f : nat -> option A) (k : nat) (v : option A) : nat -> option A :=
  fun i => if i =? k then v else f i.

Section Ids.
Context (W : nat).

(** acontext.rs:36-47 [AContextInner::new]: [fetch_add] wraps around; the assertion comes after it.
    The result is the address and the id, [None] for a panic. *)
Definition r_new (g : registry) : option (nat * nat) * registry :=
  let id := g_next g in
  let next := (id + 1) mod W in
  if id <? W - 1
  then (Some (g_free g, id), mkReg next (put (g_map g) id (Some (g_free g))) (put (g_obj g) (g_free g) (Some id)) (g_free g + 1))
  else (None, mkReg next (g_map g) (g_obj g) (g_free g)).
(** acontext.rs:55-60 [Drop]: removes whatever is registered under the id *)
Definition r_drop (a : nat) (g : registry) : registry :=
  match g_obj g a with
  | Some id => mkReg (g_next g) (put (g_map g) id None) (put (g_obj g) a None) (g_free g)
  | None => g
  end.
(** acontext.rs:76-83 [AContext::from_cid] *)
Definition r_lookup (id : nat) (g : registry) : option nat :=
  match g_map g id with
  | Some a => match g_obj g a with Some _ => Some a | None => None end
  | None => None
  end.

(** What a process does with contexts: create one, or drop the last owner of the one at [a].  Panics are
    caught or end another thread; the process goes on. *)
Inductive event : Type := New | Drop (a : nat).
Fixpoint happen (es : list event) (g : registry) : list (option (nat * nat)) * registry :=
  match es with
  | [] => ([], g)
  | New :: es => let '(r, g1) := r_new g in let '(rs, g2) := happen es g1 in (r :: rs, g2)
  | Drop a :: es => happen es (r_drop a g)
  end.
End Ids.

(** The same events in AContext.v, where a context is its id: [Drop a] drops the context that was
    created as number [a], if there is one. *)
Fixpoint happen0 {F : Type} (es : list event) (w : world F) : res (list nat * world F) :=
  match es with
  | [] => Ok ([], w)
  | New :: es =>
      match ctx_new w with
      | Ok (c, w1) => match happen0 es w1 with Ok (cs, w2) => Ok (c :: cs, w2) | Panic p => Panic p end
      | Panic p => Panic p
      end
  | Drop a :: es =>
      match (if a + 1 <? w_next w then ctx_drop (a + 1) w else Ok (tt, w)) with
      | Ok (_, w1) => happen0 es w1
      | Panic p => Panic p
      end
  end.

(** ** Specification *)
(** how many contexts are created *)
Fixpoint news (es : list event) : nat := match es with [] => 0 | New :: es => news es + 1 | Drop _ :: es => news es end.
(** Every context that has an owner is found under its id. *)
Definition all_found (g : registry) : Prop := forall a id, g_obj g a = Some id -> r_lookup id g = Some a.
(** No two contexts that have owners share an id. *)
Definition ids_unique (g : registry) : Prop := forall a b id, g_obj g a = Some id -> g_obj g b = Some id -> a = b.
(** A process that keeps its first context, creates and drops others one after the other until the
    assertion fails, and then creates two more *)
Definition long_run (W : nat) : list event :=
  New :: concat (map (fun i => [New; Drop i]) (seq 1 (W - 3))) ++ [New; New; New].
