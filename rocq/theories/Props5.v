(** Property theorems C36-C41: checkpointing (vocabulary in CheckSpec.v). *)
From Coq Require Import Reals Lra List Arith ZArith Bool Lia.
From Verif Require Import Base AContext Checkpoint CheckSpec CheckFacts CheckRun CheckLoop Stirling CheckMain CheckGen
  CheckLimit.
Import ListNotations.

(** *** C36 reverse_sequence computes the reverse fold.
    [accurate est N]: for sequences up to length N the floating point estimate (before rounding up)
    is within one half of the real number it approximates.  [acts I f g]: the closure f, which may
    act on a state satisfying I, returns what the function g returns, panics included. *)
Theorem C36_reverse_sequence_is_reverse_fold :
  forall (est : Z -> Z -> Z) (T R St : Type)
    (forward : T -> M St T) (reverse : T -> R -> M St R) (identity : T -> M St R)
    (fw : T -> res T) (rv : T -> R -> res R) (id : T -> res R) (I : St -> Prop),
  acts I forward fw -> acts2 I reverse rv -> acts I identity id ->
  forall n c, accurate est (Z.of_nat n + 1) -> (Z.of_nat n + 1 <= 2 ^ 32)%Z -> 2 <= c ->
  acts I (fun x => reverse_sequence est forward reverse identity x n c) (reverse_fold fw rv id n).
Proof. exact @reverse_sequence_spec. Qed.
Print Assumptions C36_reverse_sequence_is_reverse_fold.

(** Whatever the estimate yields: if reverse_sequence returns, it returns the reverse fold. *)
Theorem C36_whatever_the_estimate :
  forall (est : Z -> Z -> Z) (T R St : Type)
    (forward : T -> M St T) (reverse : T -> R -> M St R) (identity : T -> M St R)
    (fw : T -> res T) (rv : T -> R -> res R) (id : T -> res R) (I : St -> Prop),
  acts I forward fw -> acts2 I reverse rv -> acts I identity id ->
  forall x n c s y s', I s ->
  reverse_sequence est forward reverse identity x n c s = Ok (y, s') ->
  reverse_fold fw rv id n x = Ok y /\ I s'.
Proof. exact @reverse_sequence_any. Qed.
Print Assumptions C36_whatever_the_estimate.

Theorem C36_too_few_checkpoints :
  forall (est : Z -> Z -> Z) (T R St : Type)
    (forward : T -> M St T) (reverse : T -> R -> M St R) (identity : T -> M St R) x n c s,
  c < 2 -> reverse_sequence est forward reverse identity x n c s = Panic PAssert.
Proof.
  intros est T R St forward reverse identity x n c s H. rewrite log_result, log_few by exact H. reflexivity.
Qed.
Print Assumptions C36_too_few_checkpoints.

(** The hypotheses hold for the exact estimate; and a computed case, the library's own unit test. *)
Example C36_example_estimate : forall N, accurate (fun c r => up (estimate c r)) N.
Proof. exact accurate_up. Qed.
Example C36_example_acts : acts (fun _ : nat => True) (fun x s => Ok (x + 1, s + 1)) (fun x => Ok (x + 1)).
Proof. intros a s _. cbn. eauto. Qed.
Example C36_example_computed :
  reverse_sequence (fun _ _ => 1%Z) (fun x s => Ok (x + 1, s + 1)) (fun x y s => Ok (x + y, s))
    (fun x s => Ok (x, s)) 0 37 9 0 = Ok (703, 66).
Proof. vm_compute. reflexivity. Qed.

(** *** C37 Checkpoint memory bound.  The ghost list holds the number of stored checkpoints
    after each time one was stored. *)
Theorem C37_never_more_than_c_checkpoints :
  forall (est : Z -> Z -> Z) (T R St : Type)
    (forward : T -> M St T) (reverse : T -> R -> M St R) (identity : T -> M St R)
    (fw : T -> res T) (rv : T -> R -> res R) (id : T -> res R) (I : St -> Prop) x n c s y peak s',
  acts I forward fw -> acts2 I reverse rv -> acts I identity id -> I s ->
  reverse_sequence_log est forward reverse identity x n c s = Ok ((y, peak), s') ->
  reverse_sequence est forward reverse identity x n c s = Ok (y, s') /\ forall k, In k peak -> k <= c.
Proof. exact @peak_bound. Qed.
Print Assumptions C37_never_more_than_c_checkpoints.

(** Three checkpoints for ten steps: every state is stored once, never more than three at a time. *)
Example C37_example : exists y peak s',
  reverse_sequence_log (fun _ _ => 1%Z) (fun x s => Ok (x + 1, s + 1)) (fun x y s => Ok (x + y, s))
    (fun x s => Ok (x, s)) 0 10 3 0 = Ok ((y, peak), s') /\ length peak = 11 /\ In 3 peak.
Proof. eexists _, _, _. split; [vm_compute; reflexivity|]. split; [reflexivity|]. cbn. auto. Qed.

(** *** C38 The schedule is well formed. *)
Theorem C38_schedule_well_formed :
  forall (est : Z -> Z -> Z) c r l, schedule est c r = Ok l ->
  increasing l /\ length l <= c /\ (forall k, In k l -> 1 <= k <= r - 1) /\
  (2 <= r -> 1 <= c -> last l 0 = r - 1).
Proof. exact schedule_wf. Qed.
Print Assumptions C38_schedule_well_formed.

Theorem C38_tail_is_schedule_of_the_rest :
  forall (est : Z -> Z -> Z) c r k l, schedule est c r = Ok (k :: l) ->
  exists l', schedule est (c - 1) (r - k) = Ok l' /\ l = map (Nat.add k) l'.
Proof. exact schedule_tail. Qed.
Print Assumptions C38_tail_is_schedule_of_the_rest.

Theorem C38_every_state_when_memory_suffices :
  forall (est : Z -> Z -> Z) c r, r <= c + 1 -> schedule est c r = Ok (seq 1 (r - 1)).
Proof. exact schedule_full. Qed.
Print Assumptions C38_every_state_when_memory_suffices.

(** the library's own unit tests *)
Example C38_example :
  map (fun c => schedule (fun _ _ => 1%Z) c 100) [0; 1; 2; 3; 4; 5] =
  [Ok []; Ok [99]; Ok [87; 99]; Ok [65; 93; 99]; Ok [50; 80; 95; 99]; Ok [45; 70; 86; 96; 99]].
Proof. vm_compute. reflexivity. Qed.

(** *** C39 The schedule never panics: the loop terminates, the assertions hold, nothing
    overflows (all of these would be panics of the model). *)
Theorem C39_schedule_never_panics :
  forall (est : Z -> Z -> Z) c r, accurate est (Z.of_nat r) -> (Z.of_nat r <= 2 ^ 32)%Z ->
  exists l, schedule est c r = Ok l.
Proof. exact schedule_never_panics. Qed.
Print Assumptions C39_schedule_never_panics.

(** The real number the code estimates with is at least (c-1)/2 below every sufficient t. *)
Theorem C39_estimate_never_overshoots :
  forall (c : nat) (r : Z) (t : nat), 1 <= c -> (1 <= r)%Z -> (r <= binom (c + t) c)%Z ->
  (estimate (Z.of_nat c) r <= INR t - (INR c - 1) / 2)%R.
Proof. exact estimate_under. Qed.
Print Assumptions C39_estimate_never_overshoots.

(** find_t finds the least sufficient number of repetitions. *)
Theorem C39_find_t :
  forall (est : Z -> Z -> Z) c r, accurate est (Z.of_nat r) -> (Z.of_nat r <= 2 ^ 32)%Z -> 1 <= c -> c + 1 < r ->
  exists t, find_t est (Z.of_nat c) (Z.of_nat r) = Ok (Z.of_nat t) /\ 1 <= t /\
    (binom (c + (t - 1)) c < Z.of_nat r <= binom (c + t) c)%Z.
Proof. exact find_t_spec. Qed.
Print Assumptions C39_find_t.

(** The bound 2^32 is sharp: with c at least 2^32 - 1 and more than c + 1 states the schedule panics,
    whatever the estimate yields, and so does reverse_sequence with 2^32 checkpoints or more,
    before it calls a closure. *)
Theorem C39_longer_sequences_refuted :
  forall (est : Z -> Z -> Z) c r,
  (2 ^ 32 - 1 <= Z.of_nat c)%Z -> c + 1 < r -> (Z.of_nat r < 2 ^ 63)%Z ->
  schedule est c r = Panic PUnwrap.
Proof. exact lim_schedule. Qed.
Print Assumptions C39_longer_sequences_refuted.

Theorem C36_longer_sequences_refuted :
  forall (est : Z -> Z -> Z) (T R St : Type)
    (forward : T -> M St T) (reverse : T -> R -> M St R) (identity : T -> M St R) x n c s,
  (2 ^ 32 <= Z.of_nat c)%Z -> c <= n -> (Z.of_nat n + 1 < 2 ^ 63)%Z ->
  reverse_sequence est forward reverse identity x n c s = Panic PUnwrap.
Proof. exact @lim_reverse. Qed.
Print Assumptions C36_longer_sequences_refuted.
Example C39_example_longer :
  let c := Z.to_nat (2 ^ 32 - 1) in let r := Z.to_nat (2 ^ 32 + 1) in
  (2 ^ 32 - 1 <= Z.of_nat c)%Z /\ c + 1 < r /\ (Z.of_nat r < 2 ^ 63)%Z.
Proof. intros c r. unfold c, r. rewrite !Z2Nat.id by lia. lia. Qed.

Example C39_example : forall N, accurate (fun c r => up (estimate c r)) N.
Proof. exact accurate_up. Qed.
(** Accuracy is needed: an estimate that overshoots makes the assertion fail. *)
Example C39_example_overshoot : find_t (fun _ _ => 1%Z) 3 100 = Ok 7%Z /\
  find_t (fun _ _ => 8%Z) 3 100 = Panic PAssert.
Proof. split; vm_compute; reflexivity. Qed.

(** *** C40 How often the closures are called.
    [counted]: reverse_sequence with closures that count their calls (forward, reverse, identity). *)
Theorem C40_reverse_n_times_identity_once :
  forall (est : Z -> Z -> Z) (T R : Type) (fw : T -> T) (rv : T -> R -> R) (id : T -> R) x n c y a b d,
  counted est fw rv id x n c = Ok (y, (a, b, d)) -> b = n /\ d = 1.
Proof. exact @counted_reverse. Qed.
Print Assumptions C40_reverse_n_times_identity_once.

Theorem C40_no_recomputation :
  forall (est : Z -> Z -> Z) (T R : Type) (fw : T -> T) (rv : T -> R -> R) (id : T -> R) x n c y a b d,
  counted est fw rv id x n c = Ok (y, (a, b, d)) -> n + 1 <= c -> a = n.
Proof. exact @counted_plenty. Qed.
Print Assumptions C40_no_recomputation.

Theorem C40_returns :
  forall (est : Z -> Z -> Z) (T R : Type) (fw : T -> T) (rv : T -> R -> R) (id : T -> R) x n c,
  accurate est (Z.of_nat n + 1) -> (Z.of_nat n + 1 <= 2 ^ 32)%Z -> 2 <= c ->
  exists y k, counted est fw rv id x n c = Ok (y, k).
Proof. exact @counted_total. Qed.
Print Assumptions C40_returns.

Example C40_example :
  counted (fun _ _ => 1%Z) S Nat.add (fun x => x) 0 10 11 = Ok (55, (10, 10, 1)) /\
  counted (fun _ _ => 1%Z) S Nat.add (fun x => x) 0 10 2 = Ok (55, (55, 10, 1)).
Proof. split; vm_compute; reflexivity. Qed.

(** *** C41 The schedule is optimal.
    [strategy c r a]: see CheckSpec.v; the first state is stored, c - 1 more checkpoints are free,
    n + 1 states are to be visited. *)
Theorem C41_fewest_forward_calls :
  forall (est : Z -> Z -> Z) (T R : Type) (fw : T -> T) (rv : T -> R -> R) (id : T -> R) x n c y a b d,
  accurate est (Z.of_nat n + 1) -> (Z.of_nat n + 1 <= 2 ^ 32)%Z ->
  counted est fw rv id x n c = Ok (y, (a, b, d)) ->
  strategy (c - 1) (n + 1) a /\ forall a', strategy (c - 1) (n + 1) a' -> a <= a'.
Proof. exact @counted_optimal. Qed.
Print Assumptions C41_fewest_forward_calls.

(** Not only among strategies of this form: no way whatsoever of visiting the states with at most c
    of them in memory (machine [reverses], CheckSpec.v) needs fewer forward calls. *)
Theorem C41_fewest_among_all_machines :
  forall (est : Z -> Z -> Z) (T R : Type) (fw : T -> T) (rv : T -> R -> R) (id : T -> R) x n c y a b d,
  accurate est (Z.of_nat n + 1) -> (Z.of_nat n + 1 <= 2 ^ 32)%Z ->
  counted est fw rv id x n c = Ok (y, (a, b, d)) ->
  reverses c ([0], n + 1) a /\ forall a', reverses c ([0], n + 1) a' -> a <= a'.
Proof. exact @counted_fewest. Qed.
Print Assumptions C41_fewest_among_all_machines.

(** Strategies and machines have the same least cost. *)
Theorem C41_strategies_suffice :
  forall c n, 1 <= c ->
  (forall a, strategy (c - 1) (n + 1) a -> reverses c ([0], n + 1) a) /\
  (forall a, reverses c ([0], n + 1) a -> exists a', strategy (c - 1) (n + 1) a' /\ a' <= a).
Proof. exact (fun c n H => conj (fun a => strategy_reverses c n a H) (fun a => reverses_lower c n a H)). Qed.
Print Assumptions C41_strategies_suffice.

(** Two states in memory, three to visit: three forward calls; a detour (a step too far that is
    forgotten again) costs more. *)
Example C41_example_machine : reverses 2 ([0], 3) 3 /\ reverses 2 ([0], 3) 6.
Proof.
  assert (reverses 2 ([0], 3) 3) as H.
  { apply (r_copy _ [] 0 []); [cbn; auto|]. do 2 (apply (r_forward _ []); cbn [app]).
    apply r_visit; [cbn; auto|]. apply (r_forget _ [] 2 [0]). cbn [app].
    apply (r_copy _ [] 0 []); [cbn; auto|]. apply (r_forward _ []). cbn [app].
    apply r_visit; [cbn; auto|]. apply r_visit; [cbn; auto|]. constructor. }
  split; [exact H|]. apply (r_copy _ [] 0 []); [cbn; auto|].
  do 3 (apply (r_forward _ []); cbn [app]). apply (r_forget _ [] 3 [0]). exact H.
Qed.

Theorem C41_closed_form :
  forall (est : Z -> Z -> Z) (T R : Type) (fw : T -> T) (rv : T -> R -> R) (id : T -> R) x n c y a b d t,
  accurate est (Z.of_nat n + 1) -> (Z.of_nat n + 1 <= 2 ^ 32)%Z ->
  counted est fw rv id x n c = Ok (y, (a, b, d)) -> 1 <= t ->
  (binom (c - 1 + (t - 1)) (c - 1) < Z.of_nat n + 1 <= binom (c - 1 + t) (c - 1))%Z ->
  (Z.of_nat a = Z.of_nat t * (Z.of_nat n + 1) - binom (c + (t - 1)) c)%Z.
Proof. exact @counted_formula. Qed.
Print Assumptions C41_closed_form.

(** [accurate] holds for the exact estimate, and the driver returns then: both hypotheses are met
    for every n, c. *)
Example C41_example : forall n c, (Z.of_nat n + 1 <= 2 ^ 32)%Z -> 2 <= c -> exists y k,
  counted (fun c r => up (estimate c r)) S Nat.add (fun x => x) 0 n c = Ok (y, k).
Proof. intros n c H1 H2. apply counted_total; auto. apply accurate_up. Qed.
