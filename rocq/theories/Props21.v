(** Property theorems C51 for several threads: a panic while a context is locked. *)
From Coq Require Import List Arith ZArith Bool SpecFloat.
From Verif Require Import Base Float Operation Tape AContext FloatInst Concurrent ConcSpec JointSpec ConcPoison PanicConc.
Import ListNotations.

(** *** C51 When a call of any thread through a handle of a context panics, whatever the other threads
    do meanwhile, the context is poisoned by then. *)
Theorem C51_panics_freeze_for_all_threads :
  forall (S F : Type) (So : Fops S) (tof : S -> option F) (g : sys S F) (i : nat) (m : @move S) (p : panic) (g' : sys S F)
    (a : nat),
  returns So tof g i m (RPanic p) g' -> (m = DoTape a \/ exists n, m = DoIndep a n \/ m = DoDep a n) ->
  exists r, g_arc g' a = Some r /\ a_poison r = true.
Proof. exact @call_panic_freezes. Qed.
Print Assumptions C51_panics_freeze_for_all_threads.

(** When an operation of any thread panics, its operands are variables of two contexts, or the context
    of one of them is poisoned by then. *)
Theorem C51_operation_panics_of_all_threads :
  forall (S F : Type) (So : Fops S) (tof : S -> option F) (g : sys S F) (i : nat) (oc : OpCode) (n : nat) (y : option nat)
    (p : panic) (g' : sys S F),
  returns So tof g i (DoOp oc n y) (RPanic p) g' ->
  (exists x z c1 k1 c2 k2, operand g n y x /\ operand g n y z /\ af_ctx x = Some (c1, k1) /\ af_ctx z = Some (c2, k2) /\
     c1 <> c2) \/
  (exists z c k a r, operand g n y z /\ af_ctx z = Some (c, k) /\ g_arc g' a = Some r /\ a_cid r = c /\ a_poison r = true).
Proof. exact @op_panic_freezes. Qed.
Print Assumptions C51_operation_panics_of_all_threads.

(** *** C51 Whatever the threads do, and however they interleave, a context that was poisoned stays
    poisoned, and what it recorded stays as it is. *)
Theorem C51_frozen_for_all_threads :
  forall (S F : Type) (So : Fops S) (tof : S -> option F) (g g' : sys S F) (a : nat) (r : arc F),
  later So tof g g' -> g_arc g a = Some r -> a_poison r = true ->
  exists r', g_arc g' a = Some r' /\ a_cid r' = a_cid r /\ a_inner r' = a_inner r /\ a_poison r' = true.
Proof. exact @poisoned_frozen. Qed.
Print Assumptions C51_frozen_for_all_threads.

(** Every call of any thread through a handle of it, begun from then on, ends in that panic. *)
Theorem C51_calls_of_all_threads_panic :
  forall (S F : Type) (So : Fops S) (tof : S -> option F) (g : sys S F) (i : nat) (m : @move S) (p : ret S F) (g' : sys S F)
    (a : nat) (r : arc F),
  returns So tof g i m p g' -> g_arc g a = Some r -> a_poison r = true ->
  (m = DoTape a \/ exists n, m = DoIndep a n \/ m = DoDep a n) -> p = RPanic PUnwrap.
Proof. exact @call_panics. Qed.
Print Assumptions C51_calls_of_all_threads_panic.

(** An operation of any thread on one of its variables, begun from then on, panics, or, if the last
    handle is gone by then, returns a detached variable. *)
Theorem C51_operations_of_all_threads :
  forall (S F : Type) (So : Fops S) (tof : S -> option F) (g : sys S F) (i : nat) (oc : OpCode) (n : nat) (y : option nat)
    (p : ret S F) (g' : sys S F) (a : nat) (r : arc F) (x : AF S),
  returns So tof g i (DoOp oc n y) p g' -> g_arc g a = Some r -> a_poison r = true ->
  (y = None /\ nth_error (g_vars g) n = Some x \/
   exists m, y = Some m /\ (nth_error (g_vars g) n = Some x \/ nth_error (g_vars g) m = Some x)) ->
  (exists k, af_ctx x = Some (a_cid r, k)) ->
  (exists q, p = RPanic q) \/ exists v, p = RVar v /\ af_ctx v = None.
Proof. exact @op_lost. Qed.
Print Assumptions C51_operations_of_all_threads.

(** Thread 0 creates two contexts, each with an independent variable; thread 1 looks the first one
    up; thread 0 designates the second context's variable as an output of the first.  Then thread 1
    asks for the tape, and multiplies the variables. *)
Definition ex_poison : list (nat * @move spec_float) :=
  (0, DoNew) :: repeat (0, Go) 6 ++ (0, DoNew) :: repeat (0, Go) 6 ++ (0, DoVar (lit 5) (lit 1)) ::
  (0, DoIndep 0 0) :: repeat (0, Go) 4 ++ (0, DoIndep 1 0) :: repeat (0, Go) 4 ++
  (0, DoSpawn) :: (1, DoLookup 1) :: repeat (1, Go) 5 ++ (0, DoDep 0 2) :: repeat (0, Go) 4.
Definition ex_run (s : list (nat * @move spec_float)) : sys spec_float spec_float :=
  match play d64 Some sys0 s with Some g => g | None => sys0 end.

Example C51_threads_example :
  let g := ex_run ex_poison in
  reachable d64 Some g /\
  (exists r, g_arc g 0 = Some r /\ a_poison r = true /\ a_cid r = 1 /\ i_vals (a_inner r) = [lit 5]) /\
  (exists x, nth_error (g_vars g) 1 = Some x /\ af_ctx x = Some (1, 0)) /\
  (exists g', returns d64 Some g 1 (DoTape 0) (RPanic PUnwrap) g') /\
  (exists g', returns d64 Some g 1 (DoOp Mul 1 (Some 1)) (RPanic PUnwrap) g').
Proof.
  cbv zeta. assert (reachable d64 Some (ex_run ex_poison)) as R by (exists ex_poison; vm_compute; reflexivity).
  split; [exact R|]. split; [eexists; vm_compute; split; [reflexivity|split; [reflexivity|split; reflexivity]]|].
  split; [eexists; vm_compute; split; reflexivity|]. split.
  - eexists. split; [exact R|]. eexists _, (repeat (1, Go) 2). split; [vm_compute; reflexivity|].
    split; [repeat constructor; cbn; congruence|]. split; vm_compute; reflexivity.
  - eexists. split; [exact R|]. eexists _, (repeat (1, Go) 7). split; [vm_compute; reflexivity|].
    split; [repeat constructor; cbn; congruence|]. split; vm_compute; reflexivity.
Qed.

(** The call that poisons the first context, made in the state before it. *)
Example C51_threads_panic_example :
  let g := ex_run (firstn (length ex_poison - 5) ex_poison) in
  (exists g', returns d64 Some g 0 (DoDep 0 2) (RPanic PAssert) g') /\
  exists r, g_arc g 0 = Some r /\ a_poison r = false.
Proof.
  cbv zeta. set (l := firstn _ _). vm_compute in l. subst l. match goal with |- context [ex_run ?l] => set (s := l) end.
  assert (reachable d64 Some (ex_run s)) as R by (exists s; vm_compute; reflexivity).
  split.
  - eexists. split; [exact R|]. eexists _, (repeat (0, Go) 3). split; [vm_compute; reflexivity|].
    split; [repeat constructor; cbn; congruence|]. split; vm_compute; reflexivity.
  - eexists. split; vm_compute; reflexivity.
Qed.
