(** Property theorems C100: context ids on machines with bounded words. *)
From Coq Require Import List Arith.
From Verif Require Import Base AContext CtxIds CtxIdFacts.
Import ListNotations.

(** *** C100 With words below W, the k-th context created gets the id k mod W, whatever is dropped in
    between; exactly the creations that would get W - 1 panic. *)
Theorem C100_ids :
  forall (W : nat) (es : list event) (k : nat) (r : option (nat * nat)),
  2 <= W -> nth_error (fst (happen W es reg0)) k = Some r ->
  let id := (k + 1) mod W in if id =? W - 1 then r = None else exists a, r = Some (a, id).
Proof. exact ids_exact. Qed.
Print Assumptions C100_ids.

(** For up to W - 2 creations nothing panics, every context that has an owner is found under its id,
    and no two share one: *)
Theorem C100_before_overflow :
  forall (W : nat) (es : list event), news es <= W - 2 ->
  fst (happen W es reg0) = map (fun k => Some (k, k + 1)) (seq 0 (news es)) /\
  all_found (snd (happen W es reg0)) /\ ids_unique (snd (happen W es reg0)).
Proof. exact before_overflow. Qed.
Print Assumptions C100_before_overflow.

(** so far the model with unbounded ids, which all other properties use, agrees. *)
Theorem C100_unbounded_model :
  forall (W : nat) (F : Type) (es : list event), news es <= W - 2 ->
  exists w : world F, happen0 es world0 = Ok (map (fun k => k + 1) (seq 0 (news es)), w) /\
    w_next w = g_next (snd (happen W es reg0)) /\
    forall c, w_ctx w c = None <-> r_lookup c (snd (happen W es reg0)) = None.
Proof. exact @unbounded_right. Qed.
Print Assumptions C100_unbounded_model.

(** A lookup never returns a context with another id or one without owner, however long the run. *)
Theorem C100_lookup_sound :
  forall (W : nat) (es : list event) (id a : nat),
  r_lookup id (snd (happen W es reg0)) = Some a -> g_obj (snd (happen W es reg0)) a = Some id.
Proof. exact lookup_sound. Qed.
Print Assumptions C100_lookup_sound.

(** But the assertion fails only once: the counter goes on from 0.  A process that survives the panic
    (with at most three contexts at a time) gets the id of its first context again; lookups then find
    the other context, and after that one is dropped none. *)
Theorem C100_unique_refuted :
  forall W : nat, 3 <= W ->
  let g := snd (happen W (long_run W) reg0) in
  let g' := snd (happen W (long_run W ++ [Drop (W - 1)]) reg0) in
  g_obj g 0 = Some 1 /\ g_obj g (W - 1) = Some 1 /\ W - 1 <> 0 /\
  r_lookup 1 g = Some (W - 1) /\ r_lookup 1 g' = None /\ g_obj g' 0 = Some 1.
Proof. exact after_overflow. Qed.
Print Assumptions C100_unique_refuted.

(** On a machine with 3-bit words: six creations succeed, the seventh panics, the ninth has the id of the first. *)
Example C100_example :
  news (long_run 8) = 9 /\
  fst (happen 8 (long_run 8) reg0) =
    [Some (0, 1); Some (1, 2); Some (2, 3); Some (3, 4); Some (4, 5); Some (5, 6); None; Some (6, 0); Some (7, 1)] /\
  news [New; New; Drop 0; New] <= 8 - 2 /\
  r_lookup 1 (snd (happen 8 [New; New; Drop 0; New] reg0)) = None /\
  r_lookup 3 (snd (happen 8 [New; New; Drop 0; New] reg0)) = Some 2.
Proof. repeat split; repeat constructor. Qed.
