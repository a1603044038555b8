(** Property theorems C90: threads that record by hand (vocabulary in ConcHand.v, ConcSpec.v). *)
From Coq Require Import List Arith ZArith Bool Lia SpecFloat.
From Verif Require Import Base Float Operation Tape AContext AContextFacts Spec FloatInst Concurrent ConcSpec ConcWrite ConcHand
  ConcHandMain.
Import ListNotations.

(** *** C90 Recording by hand cannot disturb other contexts, the registry or progress.
    Any number of threads, under every schedule, call the API, assign to value_mut() of any variable,
    and call the public method record on their handles with whatever operation, value and operand
    ids.  Nothing recorded is ever changed or lost. *)
Theorem C90_recordings_only_grow :
  forall (S F : Type) (So : Fops S) (tof : S -> option F) (s : list (nat * hmove S)) (g g' : sys S F) (a : nat) (r : arc F),
  hreachable So tof g -> hplay So tof g s = Some g' -> g_arc g a = Some r ->
  exists r', g_arc g' a = Some r' /\ a_cid r' = a_cid r /\
    prefix (i_indeps (a_inner r)) (i_indeps (a_inner r')) /\ prefix (i_deps (a_inner r)) (i_deps (a_inner r')) /\
    prefix (i_ops (a_inner r)) (i_ops (a_inner r')) /\ prefix (i_vals (a_inner r)) (i_vals (a_inner r')).
Proof. exact @h_grow. Qed.
Print Assumptions C90_recordings_only_grow.

(** Every tape any thread has obtained consists of initial parts of what one context recorded. *)
Theorem C90_snapshots :
  forall (S F : Type) (So : Fops S) (tof : S -> option F) (g : sys S F) (t : tape F),
  hreachable So tof g -> In t (g_tapes g) -> exists a r, g_arc g a = Some r /\ snapshot_of t r.
Proof. exact @h_snapshots. Qed.
Print Assumptions C90_snapshots.

(** Ids stay unique, and lookups exact, whatever the other threads assign and record meanwhile. *)
Theorem C90_ids_are_unique :
  forall (S F : Type) (So : Fops S) (tof : S -> option F), (forall s, tof s <> None) ->
  forall (g : sys S F) (a b : nat) (r s : arc F),
  hreachable So tof g -> g_arc g a = Some r -> g_arc g b = Some s -> a_cid r = a_cid s -> a = b.
Proof. exact @h_ids. Qed.
Print Assumptions C90_ids_are_unique.

Theorem C90_lookups_are_exact :
  forall (S F : Type) (So : Fops S) (tof : S -> option F), (forall s, tof s <> None) ->
  forall (g g1 g2 : sys S F) (i c : nat) (s : list (nat * hmove S)),
  hreachable So tof g -> hstep So tof g i (Api (Plain (DoLookup c))) = Some g1 -> hcarries_on i s ->
  hplay So tof g1 s = Some g2 -> idle g2 i ->
  t_refs (g_thr g2 i) = t_refs (g_thr g i) \/
  exists a r, t_refs (g_thr g2 i) = a :: t_refs (g_thr g i) /\ g_arc g2 a = Some r /\ a_cid r = c.
Proof. exact @h_lookup_exact. Qed.
Print Assumptions C90_lookups_are_exact.

Theorem C90_lookups_succeed :
  forall (S F : Type) (So : Fops S) (tof : S -> option F), (forall s, tof s <> None) ->
  forall (g g1 g2 : sys S F) (i c : nat) (s : list (nat * hmove S)) (k a : nat) (r : arc F),
  hreachable So tof g -> hstep So tof g i (Api (Plain (DoLookup c))) = Some g1 -> hcarries_on i s ->
  hplay So tof g1 s = Some g2 -> idle g2 i ->
  idle g k -> In a (t_refs (g_thr g k)) -> g_arc g a = Some r -> a_cid r = c -> k = i \/ hrests k s ->
  t_refs (g_thr g2 i) = a :: t_refs (g_thr g i).
Proof. exact @h_lookup_succeeds. Qed.
Print Assumptions C90_lookups_succeed.

(** The registry lists exactly the contexts somebody owns, but for calls in progress. *)
Theorem C90_registry_entries :
  forall (S F : Type) (So : Fops S) (tof : S -> option F), (forall s, tof s <> None) ->
  forall g : sys S F, hreachable So tof g ->
  (forall c a, g_map g c = Some a ->
     exists r, g_arc g a = Some r /\ a_cid r = c /\ (live g a \/ exists i, destroying g i a)) /\
  (forall a, live g a -> exists r, g_arc g a = Some r /\
     (g_map g (a_cid r) = Some a \/ exists i, constructing g i a)).
Proof. exact @h_registry. Qed.
Print Assumptions C90_registry_entries.

Theorem C90_no_entry_survives :
  forall (S F : Type) (So : Fops S) (tof : S -> option F), (forall s, tof s <> None) ->
  forall g : sys S F, hreachable So tof g -> (forall i, idle g i) ->
  forall c a, g_map g c = Some a <-> (live g a /\ exists r, g_arc g a = Some r /\ a_cid r = c).
Proof. exact @h_quiescent. Qed.
Print Assumptions C90_no_entry_survives.

(** No deadlock, no long calls, no livelock. *)
Theorem C90_no_deadlock :
  forall (S F : Type) (So : Fops S) (tof : S -> option F), (forall s, tof s <> None) ->
  forall (g : sys S F) (i : nat),
  hreachable So tof g -> ~ idle g i ->
  (exists g', hstep So tof g i go = Some g') \/
  (exists j g', j <> i /\ waits_for g i j /\ hstep So tof g j go = Some g').
Proof. exact @h_no_deadlock. Qed.
Print Assumptions C90_no_deadlock.

Theorem C90_locks_are_released :
  forall (S F : Type) (So : Fops S) (tof : S -> option F), (forall s, tof s <> None) ->
  forall (g : sys S F) (j : nat),
  hreachable So tof g -> holds g j ->
  exists m g', m <= 3 /\ hplay So tof g (repeat (j, go) m) = Some g' /\ ~ holds g' j.
Proof. exact @h_released. Qed.
Print Assumptions C90_locks_are_released.

Theorem C90_every_call_can_finish :
  forall (S F : Type) (So : Fops S) (tof : S -> option F), (forall s, tof s <> None) ->
  forall g : sys S F, hreachable So tof g ->
  exists s g', honly_go s /\ hplay So tof g s = Some g' /\ forall i, idle g' i.
Proof. exact @h_finish. Qed.
Print Assumptions C90_every_call_can_finish.

Theorem C90_calls_are_short :
  forall (S F : Type) (So : Fops S) (tof : S -> option F), (forall s, tof s <> None) ->
  forall (g g1 g' : sys S F) (i : nat) (m : hmove S) (s : list (nat * hmove S)),
  hreachable So tof g -> hstep So tof g i m = Some g1 -> hcarries_on i s ->
  hplay So tof g1 s = Some g' -> hown_steps i s <= 15.
Proof. exact @h_short. Qed.
Print Assumptions C90_calls_are_short.

Theorem C90_no_livelock :
  forall (S F : Type) (So : Fops S) (tof : S -> option F), (forall s, tof s <> None) ->
  forall (g g' : sys S F) (s : list (nat * hmove S)),
  hreachable So tof g -> honly_go s -> hplay So tof g s = Some g' ->
  length s <= 15 * g_n g /\ ((forall i, hstep So tof g' i go = None) -> forall i, idle g' i).
Proof. exact @h_no_livelock. Qed.
Print Assumptions C90_no_livelock.

(** Thread 0 creates a context with an independent variable and spawns thread 1; thread 1 looks the
    context up while thread 0 records by hand a sum with an operand that does not exist; then thread 0
    takes the tape. *)
Definition plain (s : list (nat * @move spec_float)) : list (nat * hmove spec_float) := map (fun m => (fst m, Api (Plain (snd m)))) s.
Definition ex_own : list (nat * hmove spec_float) :=
  plain ((0, DoNew) :: repeat (0, Go) 6 ++ [(0, DoVar (lit 2) (lit 0)); (0, DoIndep 0 0)] ++ repeat (0, Go) 4 ++ [(0, DoSpawn)]).
Definition ex_meanwhile : list (nat * hmove spec_float) :=
  [(0, ByHand 0 Add (lit 5) (Some 0) (Some 7)); (1, go); (0, go); (1, go); (0, go); (1, go); (0, go); (1, go); (0, go); (1, go)].
Definition ex_tape : list (nat * hmove spec_float) :=
  ex_own ++ [(1, Api (Plain (DoLookup 1)))] ++ ex_meanwhile ++ plain ((0, DoTape 0) :: repeat (0, Go) 13).
Definition ex_run (s : list (nat * hmove spec_float)) : sys spec_float spec_float :=
  match hplay d64 Some sys0 s with Some g => g | None => sys0 end.

Example C90_example :
  let g := ex_run ex_tape in
  (forall s : spec_float, Some s <> None) /\ hreachable d64 Some g /\ (forall i, idle g i) /\
  (exists t, g_tapes g = [t] /\ t_ops t = [mkOp Add 1 (Some 0) (Some 7)] /\ t_vals t = [lit 2; lit 5]) /\
  exists g0 g1 g2 r, hplay d64 Some sys0 ex_own = Some g0 /\ hstep d64 Some g0 1 (Api (Plain (DoLookup 1))) = Some g1 /\
    hcarries_on 1 ex_meanwhile /\ hplay d64 Some g1 ex_meanwhile = Some g2 /\ idle g2 1 /\
    idle g0 1 /\ In 0 (t_refs (g_thr g0 0)) /\ g_arc g0 0 = Some r /\ a_cid r = 1 /\
    hown_steps 1 ex_meanwhile = 5 /\ In 0 (t_refs (g_thr g2 1)).
Proof.
  cbv zeta. split; [discriminate|]. split; [exists ex_tape; vm_compute; reflexivity|].
  split; [intros [|[|i]]; vm_compute; reflexivity|].
  split; [eexists; vm_compute; split; [reflexivity|split; reflexivity]|].
  destruct (hplay d64 Some sys0 ex_own) as [g|] eqn:E; [|vm_compute in E; discriminate E].
  vm_compute in E. injection E as E. subst g. do 4 eexists. split; [reflexivity|]. split; [vm_compute; reflexivity|].
  split; [unfold hcarries_on, ex_meanwhile; repeat first [apply Forall_nil | apply Forall_cons; [unfold go; cbn; split; congruence|]]|].
  split; [vm_compute; reflexivity|]. split; [reflexivity|].
  split; [reflexivity|]. split; [left; reflexivity|]. split; [reflexivity|]. split; [reflexivity|].
  split; [reflexivity|]. left. reflexivity.
Qed.

(** Thread 0 holds the context while it records by hand, and thread 1 waits for it. *)
Definition ex_wait : list (nat * hmove spec_float) :=
  ex_own ++ plain ((1, DoLookup 1) :: repeat (1, Go) 5) ++
  [(0, ByHand 0 Add (lit 5) (Some 0) (Some 7)); (0, go); (1, ByHand 0 Sin (lit 5) (Some 0) None)].
Example C90_waiting_example :
  let g := ex_run ex_wait in hreachable d64 Some g /\ holds g 0 /\ ~ idle g 1 /\ waits_for g 1 0.
Proof.
  cbv zeta. split; [exists ex_wait; vm_compute; reflexivity|].
  split; [right; exists 0; eexists; split; vm_compute; reflexivity|]. split; [vm_compute; discriminate|].
  right. exists 0. do 2 eexists. split; [vm_compute; reflexivity|]. split; vm_compute; reflexivity.
Qed.

(** What recording by hand can break is the context itself: the tape above refers to an operand that
    does not exist, and replaying it panics for every point. *)
Theorem C90_snapshots_are_safe_refuted :
  exists (g : sys spec_float spec_float) (t : tape spec_float),
  hreachable d64 Some g /\ In t (g_tapes g) /\ ~ wf_tape t /\ forall x, exists p, tape_zero_order d64 t x = Panic p.
Proof.
  exists (ex_run ex_tape). destruct (g_tapes (ex_run ex_tape)) as [|t l] eqn:E; [vm_compute in E; discriminate E|].
  exists t. split; [exists ex_tape; vm_compute; reflexivity|]. split; [left; reflexivity|].
  vm_compute in E. injection E as <- <-. split.
  - intros [W _ _ _ _ _]. specialize (W _ (or_introl eq_refl)). cbn in W. unfold wf_op in W. cbn in W.
    destruct W as (_ & _ & (j & Ej & Hj)). injection Ej as <-. lia.
  - intros [|a [|b x]]; cbn; eauto.
Qed.
Print Assumptions C90_snapshots_are_safe_refuted.
