(** Property theorems C69 (vocabulary in JointSpec.v). *)
From Coq Require Import List Arith ZArith Bool SpecFloat.
From Verif Require Import Base Float Operation Tape AContext FloatInst Concurrent ConcSpec JointSpec JointFacts JointExample Props1.
Import ListNotations.

(** *** C69 Joint recordings replay every thread's computation.
    Threads share a context, use each other's variables and interleave in any way.  If a variable
    has been computed as [e] from independent variables and constants, each operation by whichever
    thread, then a tape taken afterwards by any thread, while others may go on recording, computes
    [e] for it at every new input. *)
Theorem C69_values :
  forall (S F : Type) (So : Fops S) (tof : S -> option F) (Fo : Fops F)
    (g : sys S F) z e c k a j t g' x,
  computed So tof g z e -> af_ctx z = Some (c, k) -> number g a c ->
  returns So tof g j (DoTape a) (RTape t) g' -> length x = num_indeps t ->
  exists t' v, tape_zero_order Fo t x = Ok t' /\ nth_error (t_vals t') k = Some v /\
    has_value Fo tof (t_indeps t) x e v /\ NoDup (t_indeps t).
Proof. exact @joint_values. Qed.
Print Assumptions C69_values.

(** If moreover a thread has designated the variable a dependent one, its value is among the
    outputs of the replay, and its derivative, in every direction, at the same place among those of
    the forward sweep. *)
Theorem C69_outputs :
  forall (S F : Type) (So : Fops S) (tof : S -> option F) (Fo : Fops F)
    (g : sys S F) n z e i a g1 g2 j t g' x dx,
  nth_error (g_vars g) n = Some z -> computed So tof g z e ->
  returns So tof g i (DoDep a n) RUnit g1 -> later So tof g1 g2 ->
  returns So tof g2 j (DoTape a) (RTape t) g' -> length x = num_indeps t -> length dx = num_indeps t ->
  exists t' y dy q v d, tape_zero_order Fo t x = Ok t' /\ tape_y t' = Ok y /\ tape_forward Fo t' dx = Ok dy /\
    nth_error y q = Some v /\ nth_error dy q = Some d /\ has_tangent Fo tof (t_indeps t) x dx e v d.
Proof. exact @joint_outputs. Qed.
Print Assumptions C69_outputs.

(** An expression has at most one value. *)
Theorem C69_one_value :
  forall (S F : Type) (tof : S -> option F) (Fo : Fops F) ids x e v v',
  NoDup ids -> has_value Fo tof ids x e v -> has_value Fo tof ids x e v' -> v = v'.
Proof. exact @one_value. Qed.
Print Assumptions C69_one_value.

(** (x + y) - x * 2, the sum computed by thread 0 while thread 1 computes the product, the
    difference by thread 0; thread 1 takes the tape. *)
Example C69_example :
  computed d64 Some (after 58) ex_diff ex_expr /\ nth_error (g_vars (after 58)) 5 = Some ex_diff /\
  returns d64 Some (after 58) 0 (DoDep 0 5) RUnit (after 62) /\ later d64 Some (after 62) (after 63) /\
  computed d64 Some (after 63) ex_diff ex_expr /\ number (after 63) 0 1 /\
  (exists t, returns d64 Some (after 63) 1 (DoTape 0) (RTape t) (after 76) /\ num_indeps t = 2) /\
  has_value d64 Some [0; 1] [lit 7; lit 3] ex_expr (lit (-4)).
Proof.
  split; [exact ex_computed|]. split; [apply ex_designated|]. split; [apply ex_designated|].
  split; [exact (after_later 62 1)|].
  split; [eapply co_later; [exact ex_computed|exact (after_later 58 5)]|].
  split; [eexists; split; vm_compute; reflexivity|].
  split; [destruct ex_tape as (t & H & L & _); exists t; auto|].
  eapply hv_op2; [eapply hv_op2|eapply hv_op2; [|apply hv_const; reflexivity|]|];
    try (eapply (hv_indep _ _ _ _ 0); reflexivity); try (eapply (hv_indep _ _ _ _ 1); reflexivity); vm_compute; reflexivity.
Qed.
