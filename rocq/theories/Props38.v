(** Property theorems C89: threads that overwrite values (vocabulary in ConcWrite.v, ConcSpec.v). *)
From Coq Require Import List Arith ZArith Bool Lia SpecFloat.
From Verif Require Import Base Float Operation Tape AContext AContextFacts Spec SweepFacts FloatInst Concurrent ConcSpec ConcWrite
  ConcWriteMain Props1.
Import ListNotations.

(** *** C89 Overwriting values breaks nothing but values.
    Any number of threads, under every schedule, call the API and at any time assign to value_mut()
    of any variable.  Every context ever created still holds a well formed recording. *)
Theorem C89_contexts_stay_well_formed :
  forall (S F : Type) (So : Fops S) (tof : S -> option F), (forall s, tof s <> None) ->
  forall (g : sys S F) (a : nat) (r : arc F),
  wreachable So tof g -> g_arc g a = Some r -> recorded_tape (tape_of (a_inner r)).
Proof. exact @w_contexts. Qed.
Print Assumptions C89_contexts_stay_well_formed.

(** Every attached variable, overwritten or not, refers to an existing value of its context. *)
Theorem C89_variables_in_range :
  forall (S F : Type) (So : Fops S) (tof : S -> option F), (forall s, tof s <> None) ->
  forall (g : sys S F) (x : AF S) (c v : nat),
  wreachable So tof g -> In x (g_vars g) -> af_ctx x = Some (c, v) ->
  exists a r, g_arc g a = Some r /\ a_cid r = c /\ v < length (i_vals (a_inner r)).
Proof. exact @w_variables. Qed.
Print Assumptions C89_variables_in_range.

(** An assignment reaches no recording: what was recorded, values included, is never changed or lost. *)
Theorem C89_recordings_only_grow :
  forall (S F : Type) (So : Fops S) (tof : S -> option F) (s : list (nat * wmove S)) (g g' : sys S F) (a : nat) (r : arc F),
  wreachable So tof g -> wplay So tof g s = Some g' -> g_arc g a = Some r ->
  exists r', g_arc g' a = Some r' /\ a_cid r' = a_cid r /\
    prefix (i_indeps (a_inner r)) (i_indeps (a_inner r')) /\ prefix (i_deps (a_inner r)) (i_deps (a_inner r')) /\
    prefix (i_ops (a_inner r)) (i_ops (a_inner r')) /\ prefix (i_vals (a_inner r)) (i_vals (a_inner r')).
Proof. exact @w_grow. Qed.
Print Assumptions C89_recordings_only_grow.

(** Every tape any thread has obtained is safe to sweep, and consists of initial parts of what its
    context recorded. *)
Theorem C89_snapshots_are_safe :
  forall (S F : Type) (So : Fops S) (tof : S -> option F), (forall s, tof s <> None) ->
  forall (g : sys S F) (t : tape F),
  wreachable So tof g -> In t (g_tapes g) ->
  wf_tape t /\ exists a r, g_arc g a = Some r /\ snapshot_of t r.
Proof. exact @w_snapshots. Qed.
Print Assumptions C89_snapshots_are_safe.

Theorem C89_sweeps_in_bounds :
  forall (S F : Type) (So : Fops S) (Fo : Fops F) (tof : S -> option F), (forall s, tof s <> None) ->
  forall (g : sys S F) (t : tape F),
  wreachable So tof g -> In t (g_tapes g) ->
  (exists x, tape_x t = Ok x) /\ (exists y, tape_y t = Ok y) /\
  (forall x, panics (tape_zero_order Fo t x) <-> length x <> num_indeps t) /\
  (forall dx, panics (tape_forward Fo t dx) <-> length dx < num_indeps t) /\
  (forall ybar, panics (tape_reverse Fo t ybar) <-> length ybar < num_deps t \/ has_abs t).
Proof.
  exact (fun S F So Fo tof T g t R H => C05_sweeps_in_bounds F Fo t (proj1 (C89_snapshots_are_safe S F So tof T g t R H))).
Qed.
Print Assumptions C89_sweeps_in_bounds.

(** Ids stay unique, and lookups exact, whatever the other threads assign meanwhile. *)
Theorem C89_ids_are_unique :
  forall (S F : Type) (So : Fops S) (tof : S -> option F), (forall s, tof s <> None) ->
  forall (g : sys S F) (a b : nat) (r s : arc F),
  wreachable So tof g -> g_arc g a = Some r -> g_arc g b = Some s -> a_cid r = a_cid s -> a = b.
Proof. exact @w_ids. Qed.
Print Assumptions C89_ids_are_unique.

Theorem C89_lookups_are_exact :
  forall (S F : Type) (So : Fops S) (tof : S -> option F), (forall s, tof s <> None) ->
  forall (g g1 g2 : sys S F) (i c : nat) (s : list (nat * wmove S)),
  wreachable So tof g -> wstep So tof g i (Plain (DoLookup c)) = Some g1 -> wcarries_on i s ->
  wplay So tof g1 s = Some g2 -> idle g2 i ->
  t_refs (g_thr g2 i) = t_refs (g_thr g i) \/
  exists a r, t_refs (g_thr g2 i) = a :: t_refs (g_thr g i) /\ g_arc g2 a = Some r /\ a_cid r = c.
Proof. exact @w_lookup_exact. Qed.
Print Assumptions C89_lookups_are_exact.

Theorem C89_lookups_succeed :
  forall (S F : Type) (So : Fops S) (tof : S -> option F), (forall s, tof s <> None) ->
  forall (g g1 g2 : sys S F) (i c : nat) (s : list (nat * wmove S)) (k a : nat) (r : arc F),
  wreachable So tof g -> wstep So tof g i (Plain (DoLookup c)) = Some g1 -> wcarries_on i s ->
  wplay So tof g1 s = Some g2 -> idle g2 i ->
  idle g k -> In a (t_refs (g_thr g k)) -> g_arc g a = Some r -> a_cid r = c -> k = i \/ wrests k s ->
  t_refs (g_thr g2 i) = a :: t_refs (g_thr g i).
Proof. exact @w_lookup_succeeds. Qed.
Print Assumptions C89_lookups_succeed.

(** The registry lists exactly the contexts somebody owns, but for calls in progress. *)
Theorem C89_registry_entries :
  forall (S F : Type) (So : Fops S) (tof : S -> option F), (forall s, tof s <> None) ->
  forall g : sys S F, wreachable So tof g ->
  (forall c a, g_map g c = Some a ->
     exists r, g_arc g a = Some r /\ a_cid r = c /\ (live g a \/ exists i, destroying g i a)) /\
  (forall a, live g a -> exists r, g_arc g a = Some r /\
     (g_map g (a_cid r) = Some a \/ exists i, constructing g i a)).
Proof. exact @w_registry. Qed.
Print Assumptions C89_registry_entries.

Theorem C89_no_entry_survives :
  forall (S F : Type) (So : Fops S) (tof : S -> option F), (forall s, tof s <> None) ->
  forall g : sys S F, wreachable So tof g -> (forall i, idle g i) ->
  forall c a, g_map g c = Some a <-> (live g a /\ exists r, g_arc g a = Some r /\ a_cid r = c).
Proof. exact @w_quiescent. Qed.
Print Assumptions C89_no_entry_survives.

(** No deadlock, no long calls, no livelock. *)
Theorem C89_no_deadlock :
  forall (S F : Type) (So : Fops S) (tof : S -> option F), (forall s, tof s <> None) ->
  forall (g : sys S F) (i : nat),
  wreachable So tof g -> ~ idle g i ->
  (exists g', wstep So tof g i (Plain Go) = Some g') \/
  (exists j g', j <> i /\ waits_for g i j /\ wstep So tof g j (Plain Go) = Some g').
Proof. exact @w_no_deadlock. Qed.
Print Assumptions C89_no_deadlock.

Theorem C89_locks_are_released :
  forall (S F : Type) (So : Fops S) (tof : S -> option F), (forall s, tof s <> None) ->
  forall (g : sys S F) (j : nat),
  wreachable So tof g -> holds g j ->
  exists m g', m <= 3 /\ wplay So tof g (repeat (j, Plain Go) m) = Some g' /\ ~ holds g' j.
Proof. exact @w_released. Qed.
Print Assumptions C89_locks_are_released.

Theorem C89_every_call_can_finish :
  forall (S F : Type) (So : Fops S) (tof : S -> option F), (forall s, tof s <> None) ->
  forall g : sys S F, wreachable So tof g ->
  exists s g', wonly_go s /\ wplay So tof g s = Some g' /\ forall i, idle g' i.
Proof. exact @w_finish. Qed.
Print Assumptions C89_every_call_can_finish.

Theorem C89_calls_are_short :
  forall (S F : Type) (So : Fops S) (tof : S -> option F), (forall s, tof s <> None) ->
  forall (g g1 g' : sys S F) (i : nat) (m : wmove S) (s : list (nat * wmove S)),
  wreachable So tof g -> wstep So tof g i m = Some g1 -> wcarries_on i s ->
  wplay So tof g1 s = Some g' -> wown_steps i s <= 15.
Proof. exact @w_short. Qed.
Print Assumptions C89_calls_are_short.

Theorem C89_no_livelock :
  forall (S F : Type) (So : Fops S) (tof : S -> option F), (forall s, tof s <> None) ->
  forall (g g' : sys S F) (s : list (nat * wmove S)),
  wreachable So tof g -> wonly_go s -> wplay So tof g s = Some g' ->
  length s <= 15 * g_n g /\ ((forall i, wstep So tof g' i (Plain Go) = None) -> forall i, idle g' i).
Proof. exact @w_no_livelock. Qed.
Print Assumptions C89_no_livelock.

(** Thread 0 creates a context and an independent variable of value 2, and spawns thread 1; thread 1
    makes it 7 and squares it, while thread 0 takes the tape. *)
Definition plain (s : list (nat * @move spec_float)) : list (nat * wmove spec_float) := map (fun m => (fst m, Plain (snd m))) s.
Definition ex_own : list (nat * wmove spec_float) :=
  plain ((0, DoNew) :: repeat (0, Go) 6 ++ [(0, DoVar (lit 2) (lit 0)); (0, DoIndep 0 0)] ++ repeat (0, Go) 4 ++ [(0, DoSpawn)]).
Definition ex_overwrite : list (nat * wmove spec_float) :=
  ex_own ++ [(1, SetValue 1 (lit 7)); (1, Plain (DoOp Mul 2 (Some 2))); (0, Plain (DoTape 0))] ++
  plain (repeat (1, Go) 8 ++ repeat (0, Go) 13 ++ [(1, Go)]).
Definition ex_run (s : list (nat * wmove spec_float)) : sys spec_float spec_float :=
  match wplay d64 Some sys0 s with Some g => g | None => sys0 end.

Example C89_example :
  let g := ex_run ex_overwrite in
  (forall s : spec_float, Some s <> None) /\ wreachable d64 Some g /\ (forall i, idle g i) /\
  (exists r, g_arc g 0 = Some r /\ i_vals (a_inner r) = [lit 2; lit 49] /\ length (i_ops (a_inner r)) = 1) /\
  (exists t, g_tapes g = [t] /\ length (t_ops t) = 1) /\
  nth_error (g_vars g) 2 = Some (mkAF (lit 7) (lit 0) (Some (1, 0))).
Proof.
  cbv zeta. assert (wreachable d64 Some (ex_run ex_overwrite)) as R by (exists ex_overwrite; vm_compute; reflexivity).
  split; [discriminate|]. split; [exact R|]. split; [intros [|[|i]]; vm_compute; reflexivity|].
  split; [eexists; vm_compute; split; [reflexivity|split; reflexivity]|].
  split; [eexists; vm_compute; split; reflexivity|vm_compute; reflexivity].
Qed.

(** So the recording is no longer consistent, nor does the variable agree with it (C46 without
    value_mut): 49 is recorded as the square of 2. *)
Theorem C89_values_agree_refuted :
  exists (g : sys spec_float spec_float) (a : nat) (r : arc spec_float) (x : AF spec_float),
  wreachable d64 Some g /\ g_arc g a = Some r /\ ~ good_inner d64 Some (a_inner r) /\
  In x (g_vars g) /\ ~ agrees Some g x.
Proof.
  exists (ex_run ex_overwrite), 0. destruct (g_arc (ex_run ex_overwrite) 0) as [r|] eqn:E; [|vm_compute in E; discriminate E].
  exists r, (mkAF (lit 7) (lit 0) (Some (1, 0))).
  split; [exists ex_overwrite; vm_compute; reflexivity|]. split; [reflexivity|].
  assert (i_vals (a_inner r) = [lit 2; lit 49] /\ i_ops (a_inner r) = [mkOp Mul 1 (Some 0) (Some 0)] /\ a_cid r = 1) as (V & O & C)
    by (vm_compute in E; injection E as <-; vm_compute; auto).
  split; [|split].
  - intros [_ H]. specialize (H (mkOp Mul 1 (Some 0) (Some 0))). rewrite O in H. specialize (H (or_introl eq_refl)).
    destruct H as [H|(i & u & w & A & (f1 & E1 & N1) & (f2 & E2 & N2) & (b & (f3 & E3 & N3) & Z))]; [discriminate H|].
    rewrite V in *. cbn in A. injection A as <-. cbn in N1, N2, N3. injection E1 as <-. injection E2 as <-. injection E3 as <-.
    injection N1 as <-. injection N2 as <-. injection N3 as <-. vm_compute in Z. discriminate Z.
  - vm_compute. auto.
  - intros (a & s & A & X & (fv & E1 & N)). injection E1 as <-. destruct a as [|a]; [|vm_compute in A; discriminate A].
    rewrite E in A. injection A as <-. rewrite V in N. vm_compute in N. discriminate N.
Qed.
Print Assumptions C89_values_agree_refuted.

(** Thread 1 waits for the registry while thread 0 holds it; then it looks the context up. *)
Definition ex_held : list (nat * wmove spec_float) :=
  ex_own ++ [(1, SetValue 1 (lit 7)); (1, Plain (DoLookup 1)); (0, Plain (DoOp Mul 1 (Some 1))); (0, Plain Go)].
Definition ex_meanwhile : list (nat * wmove spec_float) := (0, SetValue 1 (lit 9)) :: plain (repeat (1, Go) 5).
Example C89_threads_example :
  let g := ex_run ex_held in
  wreachable d64 Some g /\ holds g 0 /\ ~ idle g 1 /\ waits_for g 1 0 /\
  exists g0 g1 g2 r, wplay d64 Some sys0 ex_own = Some g0 /\ wstep d64 Some g0 1 (Plain (DoLookup 1)) = Some g1 /\
    wcarries_on 1 ex_meanwhile /\ wplay d64 Some g1 ex_meanwhile = Some g2 /\ idle g2 1 /\
    idle g0 1 /\ idle g0 0 /\ In 0 (t_refs (g_thr g0 0)) /\ g_arc g0 0 = Some r /\ a_cid r = 1 /\ ~ wrests 0 ex_meanwhile /\
    wown_steps 1 ex_meanwhile = 5 /\ In 0 (t_refs (g_thr g2 1)).
Proof.
  cbv zeta. split; [exists ex_held; vm_compute; reflexivity|]. split; [left; vm_compute; reflexivity|].
  split; [vm_compute; discriminate|]. split; [left; eexists; split; vm_compute; reflexivity|].
  destruct (wplay d64 Some sys0 ex_own) as [g|] eqn:E; [|vm_compute in E; discriminate E].
  vm_compute in E. injection E as E. subst g. do 4 eexists. split; [reflexivity|]. split; [vm_compute; reflexivity|].
  split; [repeat constructor; cbn; congruence|]. split; [vm_compute; reflexivity|]. split; [reflexivity|].
  split; [reflexivity|]. split; [reflexivity|]. split; [left; reflexivity|]. split; [reflexivity|]. split; [reflexivity|].
  split; [intros H; inversion H; subst; cbn in *; congruence|]. split; [reflexivity|]. left. reflexivity.
Qed.
