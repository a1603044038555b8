(** Property theorems C46-C48: several threads (vocabulary in ConcSpec.v). *)
From Coq Require Import List Arith ZArith Bool Lia SpecFloat.
From Verif Require Import Base Float Operation Tape AContext AContextFacts Spec SweepFacts FloatInst Concurrent ConcSpec ConcInv
  ConcMain ConcBound Props1.
Import ListNotations.

(** *** C46 Concurrent recording keeps tapes well formed.
    In every state that any number of threads can reach, under every schedule, every context
    ever created holds a well formed recording in which each result is the elementary function of
    its operands' values. *)
Theorem C46_contexts_stay_well_formed :
  forall (S F : Type) (So : Fops S) (tof : S -> option F) (g : sys S F) (a : nat) (r : arc F),
  Concurrent.reachable So tof g -> g_arc g a = Some r -> good_inner So tof (a_inner r).
Proof. exact (fun S F So tof g a r R => contexts_good So tof g a r (reachable_inv So tof g R)). Qed.
Print Assumptions C46_contexts_stay_well_formed.

(** Every variable any thread has obtained agrees with the context it belongs to. *)
Theorem C46_variables_agree :
  forall (S F : Type) (So : Fops S) (tof : S -> option F) (g : sys S F) (x : AF S),
  Concurrent.reachable So tof g -> In x (g_vars g) -> agrees tof g x.
Proof. exact (fun S F So tof g x R => variables_agree So tof g x (reachable_inv So tof g R)). Qed.
Print Assumptions C46_variables_agree.

(** Nothing recorded is ever changed or lost. *)
Theorem C46_recordings_only_grow :
  forall (S F : Type) (So : Fops S) (tof : S -> option F) (s : list (nat * move)) (g g' : sys S F) (a : nat) (r : arc F),
  Concurrent.reachable So tof g -> play So tof g s = Some g' -> g_arc g a = Some r ->
  exists r', g_arc g' a = Some r' /\ a_cid r' = a_cid r /\
    prefix (i_indeps (a_inner r)) (i_indeps (a_inner r')) /\ prefix (i_deps (a_inner r)) (i_deps (a_inner r')) /\
    prefix (i_ops (a_inner r)) (i_ops (a_inner r')) /\ prefix (i_vals (a_inner r)) (i_vals (a_inner r')).
Proof. exact (fun S F So tof s g g' a r R => recordings_grow So tof s g g' a r (reachable_inv So tof g R)). Qed.
Print Assumptions C46_recordings_only_grow.

(** Two threads record on the same context at the same time: thread 0 creates context 0 and an
    independent variable, thread 1 looks the context up and creates another; then they add and
    multiply in alternation. *)
Definition ex_setup : list (nat * @move spec_float) :=
  (0, DoNew) :: repeat (0, Go) 6 ++ [(0, DoVar (lit 2) (lit 0)); (0, DoIndep 0 0)] ++ repeat (0, Go) 4 ++
  [(0, DoSpawn); (1, DoLookup 1)] ++ repeat (1, Go) 5 ++ [(1, DoIndep 0 0)] ++ repeat (1, Go) 4.
Definition ex_race : list (nat * @move spec_float) :=
  ex_setup ++ [(0, DoOp Add 1 (Some 2)); (1, DoOp Mul 1 (Some 0))] ++
  (* thread 1 has to wait for the registry while 0 holds it *)
  [(0, Go); (0, Go); (0, Go); (0, Go); (1, Go); (1, Go); (0, Go); (1, Go); (1, Go); (0, Go); (0, Go); (1, Go); (0, Go);
   (1, Go); (1, Go); (1, Go); (0, Go); (1, Go); (1, Go); (1, Go); (1, Go)].

Example C46_example :
  exists g r x y, play d64 Some sys0 ex_race = Some g /\ g_arc g 0 = Some r /\ length (i_ops (a_inner r)) = 3 /\
    length (i_vals (a_inner r)) = 5 /\ g_vars g = [mkAF (lit 2) (lit 0) None; x; y; mkAF (lit 4) (lit 0) (Some (1, 2));
      mkAF (lit 4) (lit 0) (Some (1, 4))] /\ forall i, idle g i.
Proof.
  destruct (play d64 Some sys0 ex_race) as [g|] eqn:E; [|vm_compute in E; discriminate E].
  exists g. vm_compute in E. injection E as <-. do 3 eexists. repeat split; try reflexivity.
  intros [|[|i]]; reflexivity.
Qed.

(** *** C47 A tape snapshot taken while others record is safe.
    Every tape any thread has ever obtained can be swept: all ids in range, operands before
    results; and it consists of initial parts of what its context recorded. *)
Theorem C47_snapshots_are_safe :
  forall (S F : Type) (So : Fops S) (tof : S -> option F) (g : sys S F) (t : tape F),
  Concurrent.reachable So tof g -> In t (g_tapes g) ->
  wf_tape t /\ exists a r, g_arc g a = Some r /\ snapshot_of t r.
Proof. exact (fun S F So tof g t R => tapes_ok So tof g t (reachable_inv So tof g R)). Qed.
Print Assumptions C47_snapshots_are_safe.

(** So no sweep over it panics for another reason than a vector of the wrong length or Abs in
    reverse mode. *)
Theorem C47_sweeps_in_bounds :
  forall (S F : Type) (So : Fops S) (Fo : Fops F) (tof : S -> option F) (g : sys S F) (t : tape F),
  Concurrent.reachable So tof g -> In t (g_tapes g) ->
  (exists x, tape_x t = Ok x) /\ (exists y, tape_y t = Ok y) /\
  (forall x, panics (tape_zero_order Fo t x) <-> length x <> num_indeps t) /\
  (forall dx, panics (tape_forward Fo t dx) <-> length dx < num_indeps t) /\
  (forall ybar, panics (tape_reverse Fo t ybar) <-> length ybar < num_deps t \/ has_abs t).
Proof.
  exact (fun S F So Fo tof g t R H => C05_sweeps_in_bounds F Fo t (proj1 (C47_snapshots_are_safe S F So tof g t R H))).
Qed.
Print Assumptions C47_sweeps_in_bounds.

(** But it need not be a state the context was ever in: an operation on the snapshot may depend
    on an independent variable that the snapshot does not list. *)
Definition ex_torn : list (nat * @move spec_float) :=
  ex_setup ++ [(0, DoTape 0); (0, Go); (0, Go); (0, Go); (1, DoIndep 0 0)] ++ repeat (1, Go) 4 ++
  [(1, DoOp Mul 3 (Some 1))] ++ repeat (1, Go) 9 ++ [(1, DoDep 0 4)] ++ repeat (1, Go) 4 ++ repeat (0, Go) 10.

Theorem C47_snapshot_consistent_refuted :
  exists (g : sys spec_float spec_float) t o k,
  Concurrent.reachable d64 Some g /\ In t (g_tapes g) /\ In o (t_ops t) /\ arg1 o = Some k /\
  ~ In k (t_indeps t) /\ ~ In k (def_ids (t_ops t)) /\ In (vid o) (t_deps t) /\ ~ recorded_tape t.
Proof.
  destruct (play d64 Some sys0 ex_torn) as [g|] eqn:E; [|vm_compute in E; discriminate E].
  assert (Concurrent.reachable d64 Some g) as R by (exists ex_torn; auto).
  vm_compute in E. injection E as E. subst g.
  do 4 eexists. split; [exact R|]. cbn. split; [left; reflexivity|]. cbn. split; [left; reflexivity|].
  cbn. split; [reflexivity|]. split; [intuition discriminate|]. unfold def_ids. cbn.
  split; [intuition discriminate|]. split; [left; reflexivity|].
  intros [_ _ _ C]. specialize (C 2). cbn in C. unfold def_ids in C. cbn in C.
  destruct C as [C|C]; [lia| |]; intuition discriminate.
Qed.
Print Assumptions C47_snapshot_consistent_refuted.

Example C47_example :
  exists g t, play d64 Some sys0 ex_torn = Some g /\ g_tapes g = [t] /\ length (t_vals t) = 4 /\ t_indeps t = [0; 1].
Proof.
  destruct (play d64 Some sys0 ex_torn) as [g|] eqn:E; [|vm_compute in E; discriminate E].
  exists g. vm_compute in E. injection E as <-. eexists. repeat split; reflexivity.
Qed.

(** *** C48 Registry correctness and deadlock freedom.
    No two contexts ever created have the same id. *)
Theorem C48_ids_are_unique :
  forall (S F : Type) (So : Fops S) (tof : S -> option F) (g : sys S F) (a b : nat) (r s : arc F),
  Concurrent.reachable So tof g -> g_arc g a = Some r -> g_arc g b = Some s -> a_cid r = a_cid s -> a = b.
Proof. exact (fun S F So tof g a b r s R => ids_unique So tof g a b r s (reachable_inv So tof g R)). Qed.
Print Assumptions C48_ids_are_unique.

(** A lookup, whatever the other threads do meanwhile, returns nothing or a handle to the context
    with the requested id ... *)
Theorem C48_lookups_are_exact :
  forall (S F : Type) (So : Fops S) (tof : S -> option F) (g g1 g2 : sys S F) (i c : nat) (s : list (nat * move)),
  Concurrent.reachable So tof g -> step So tof g i (DoLookup c) = Some g1 -> carries_on i s ->
  play So tof g1 s = Some g2 -> idle g2 i ->
  t_refs (g_thr g2 i) = t_refs (g_thr g i) \/
  exists a r, t_refs (g_thr g2 i) = a :: t_refs (g_thr g i) /\ g_arc g2 a = Some r /\ a_cid r = c.
Proof. exact (fun S F So tof g g1 g2 i c s R => lookup_exact So tof g i c s g1 g2 (reachable_inv So tof g R)). Qed.
Print Assumptions C48_lookups_are_exact.

(** ... and it returns the handle if some thread holds one all along. *)
Theorem C48_lookups_succeed :
  forall (S F : Type) (So : Fops S) (tof : S -> option F) (g g1 g2 : sys S F) (i c : nat) (s : list (nat * move))
    (k a : nat) (r : arc F),
  Concurrent.reachable So tof g -> step So tof g i (DoLookup c) = Some g1 -> carries_on i s ->
  play So tof g1 s = Some g2 -> idle g2 i ->
  idle g k -> In a (t_refs (g_thr g k)) -> g_arc g a = Some r -> a_cid r = c -> k = i \/ rests k s ->
  t_refs (g_thr g2 i) = a :: t_refs (g_thr g i).
Proof.
  exact (fun S F So tof g g1 g2 i c s k a r R =>
    lookup_succeeds So tof g i c s g1 g2 k a r (reachable_inv So tof g R)).
Qed.
Print Assumptions C48_lookups_succeed.

(** Every entry of the registry leads to a context with that id which somebody owns or which is
    just being destroyed; and every context that somebody owns has its entry, except while it is
    being created. *)
Theorem C48_registry_entries :
  forall (S F : Type) (So : Fops S) (tof : S -> option F) (g : sys S F), Concurrent.reachable So tof g ->
  (forall c a, g_map g c = Some a ->
     exists r, g_arc g a = Some r /\ a_cid r = c /\ (live g a \/ exists i, destroying g i a)) /\
  (forall a, live g a -> exists r, g_arc g a = Some r /\
     (g_map g (a_cid r) = Some a \/ exists i, constructing g i a)).
Proof.
  exact (fun S F So tof g R => let I := reachable_inv So tof g R in
    conj (fun c a => entries_exact So tof g c a I)
         (fun a L => match live_exists So tof g a I L with
                     | ex_intro _ r H => ex_intro _ r (conj H (live_found So tof g a r I L H))
                     end)).
Qed.
Print Assumptions C48_registry_entries.

(** Between calls, the registry lists exactly the contexts that somebody owns; when nobody owns
    any, it is empty. *)
Theorem C48_no_entry_survives :
  forall (S F : Type) (So : Fops S) (tof : S -> option F) (g : sys S F),
  Concurrent.reachable So tof g -> (forall i, idle g i) ->
  forall c a, g_map g c = Some a <-> (live g a /\ exists r, g_arc g a = Some r /\ a_cid r = c).
Proof. exact (fun S F So tof g R => quiescent_registry So tof g (reachable_inv So tof g R)). Qed.
Print Assumptions C48_no_entry_survives.

(** A thread inside a call can always take its next step, or it waits for a lock whose holder,
    another thread, can. *)
Theorem C48_no_deadlock :
  forall (S F : Type) (So : Fops S) (tof : S -> option F) (g : sys S F) (i : nat),
  Concurrent.reachable So tof g -> ~ idle g i ->
  (exists g', step So tof g i Go = Some g') \/
  (exists j g', j <> i /\ waits_for g i j /\ step So tof g j Go = Some g').
Proof. exact (fun S F So tof g i R => no_deadlock So tof g i (reachable_inv So tof g R)). Qed.
Print Assumptions C48_no_deadlock.

(** A thread that holds a lock has released it after at most three steps of its own, during which
    it never has to wait. *)
Theorem C48_locks_are_released :
  forall (S F : Type) (So : Fops S) (tof : S -> option F) (g : sys S F) (j : nat),
  Concurrent.reachable So tof g -> holds g j ->
  exists m g', m <= 3 /\ play So tof g (repeat (j, Go) m) = Some g' /\ ~ holds g' j.
Proof. exact (fun S F So tof g j R => lock_released So tof g j (reachable_inv So tof g R)). Qed.
Print Assumptions C48_locks_are_released.

(** From every reachable state all calls in progress can be completed without starting others. *)
Theorem C48_every_call_can_finish :
  forall (S F : Type) (So : Fops S) (tof : S -> option F) (g : sys S F),
  Concurrent.reachable So tof g ->
  exists s g', only_go s /\ play So tof g s = Some g' /\ forall i, idle g' i.
Proof. exact (fun S F So tof g R => everything_can_finish So tof g (reachable_inv So tof g R)). Qed.
Print Assumptions C48_every_call_can_finish.

(** No call takes more than 15 steps of its own thread (taking or releasing a lock, an access, ...),
    whatever the other threads do ... *)
Theorem C48_calls_are_short :
  forall (S F : Type) (So : Fops S) (tof : S -> option F) (g g1 g' : sys S F) (i : nat) m (s : list (nat * move)),
  Concurrent.reachable So tof g -> step So tof g i m = Some g1 -> carries_on i s ->
  play So tof g1 s = Some g' -> own_steps i s <= 15.
Proof. exact (fun S F So tof g g1 g' i m s => calls_are_short So tof g i m g1 s g'). Qed.
Print Assumptions C48_calls_are_short.

(** ... so threads cannot keep each other busy: when no new calls are begun, every schedule comes to
    an end, and where it cannot go on all calls have returned. *)
Theorem C48_no_livelock :
  forall (S F : Type) (So : Fops S) (tof : S -> option F) (g g' : sys S F) (s : list (nat * move)),
  Concurrent.reachable So tof g -> only_go s -> play So tof g s = Some g' ->
  length s <= 15 * g_n g /\ ((forall i, step So tof g' i Go = None) -> forall i, idle g' i).
Proof. exact (fun S F So tof g g' s => no_livelock So tof g s g'). Qed.
Print Assumptions C48_no_livelock.

(** Thread 1 multiplies by a constant; thread 0 drops the last handle meanwhile, so the operation
    destroys the context in the end: 15 steps. *)
Definition ex_own : list (nat * @move spec_float) :=
  (0, DoNew) :: repeat (0, Go) 6 ++ [(0, DoVar (lit 2) (lit 0)); (0, DoIndep 0 0)] ++ repeat (0, Go) 4 ++ [(0, DoSpawn)].
Definition ex_slow : list (nat * @move spec_float) :=
  repeat (1, Go) 4 ++ [(0, DoDrop 0); (0, Go); (0, Go)] ++ repeat (1, Go) 11.
Example C48_slowest_example :
  exists g g1 g2, play d64 Some sys0 ex_own = Some g /\ step d64 Some g 1 (DoOp Mul 1 (Some 0)) = Some g1 /\
    carries_on 1 ex_slow /\ play d64 Some g1 ex_slow = Some g2 /\ (forall i, idle g2 i) /\ own_steps 1 ex_slow = 15 /\
    g_map g2 1 = None.
Proof.
  destruct (play d64 Some sys0 ex_own) as [g|] eqn:E; [|vm_compute in E; discriminate E].
  vm_compute in E. injection E as E. subst g. eexists. eexists. eexists. split; [reflexivity|].
  split; [vm_compute; reflexivity|]. split; [repeat constructor; cbn; congruence|].
  split; [vm_compute; reflexivity|]. split; [intros [|[|i]]; reflexivity|]. split; reflexivity.
Qed.

(** Thread 1 looks a context up while thread 0 drops the last handle; thread 0 holds the registry
    lock and thread 1 waits. *)
Definition ex_wait : list (nat * @move spec_float) :=
  (0, DoNew) :: repeat (0, Go) 6 ++ [(0, DoSpawn); (0, DoDrop 0); (0, Go); (0, Go); (1, DoLookup 1)].

Example C48_example :
  exists g, play d64 Some sys0 ex_wait = Some g /\ waits_for g 1 0 /\ holds g 0 /\ ~ idle g 1 /\ destroying g 0 0.
Proof.
  destruct (play d64 Some sys0 ex_wait) as [g|] eqn:E; [|vm_compute in E; discriminate E].
  exists g. vm_compute in E. injection E as E. subst g. split; [reflexivity|].
  split; [left; eexists; split; reflexivity|]. split; [left; reflexivity|]. split; [discriminate|].
  eexists. right. reflexivity.
Qed.

Definition ex_lookup : list (nat * @move spec_float) :=
  (0, DoNew) :: repeat (0, Go) 6 ++ [(0, DoSpawn)].
Definition ex_meanwhile : list (nat * @move spec_float) := [(1, Go); (1, Go); (1, Go); (1, Go); (1, Go)].
Example C48_lookup_example :
  exists g g1 g2 r, play d64 Some sys0 ex_lookup = Some g /\ step d64 Some g 1 (DoLookup 1) = Some g1 /\
    carries_on 1 ex_meanwhile /\ play d64 Some g1 ex_meanwhile = Some g2 /\ idle g2 1 /\
    idle g 0 /\ In 0 (t_refs (g_thr g 0)) /\ g_arc g 0 = Some r /\ a_cid r = 1 /\ rests 0 ex_meanwhile.
Proof.
  destruct (play d64 Some sys0 ex_lookup) as [g|] eqn:E; [|vm_compute in E; discriminate E].
  destruct (step d64 Some g 1 (DoLookup 1)) as [g1|] eqn:E1; [|vm_compute in E; injection E as <-; vm_compute in E1; discriminate E1].
  destruct (play d64 Some g1 ex_meanwhile) as [g2|] eqn:E2;
    [|vm_compute in E; injection E as <-; vm_compute in E1; injection E1 as <-; vm_compute in E2; discriminate E2].
  exists g, g1, g2. vm_compute in E. injection E as E. subst g. vm_compute in E1. injection E1 as E1. subst g1.
  vm_compute in E2. injection E2 as E2. subst g2.
  eexists. split; [reflexivity|]. split; [reflexivity|].
  split; [repeat constructor; cbn; congruence|]. split; [reflexivity|]. split; [reflexivity|].
  split; [reflexivity|]. split; [left; reflexivity|]. split; [reflexivity|]. split; [reflexivity|].
  repeat constructor; cbn; congruence.
Qed.

(** All threads between calls, with a context that is owned. *)
Example C48_quiet_example :
  exists g, play d64 Some sys0 ex_lookup = Some g /\ (forall i, idle g i) /\ g_map g 1 = Some 0.
Proof.
  destruct (play d64 Some sys0 ex_lookup) as [g|] eqn:E; [|vm_compute in E; discriminate E].
  exists g. vm_compute in E. injection E as <-. split; [reflexivity|]. split; [|reflexivity].
  intros [|[|i]]; reflexivity.
Qed.
