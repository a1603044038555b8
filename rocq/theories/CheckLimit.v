(** Sequences too long for checkpointing: with 2^32 checkpoints or more and more than that many
    states, the binomial coefficients the schedule compares with do not fit the machine words. *)
From Coq Require Import List Arith ZArith Bool Lia.
From Verif Require Import Base AContext Checkpoint CheckFacts CheckRun.
Import ListNotations.

Section Limit.
Local Open Scope Z_scope.
Context (est : Z -> Z -> Z) (c r : nat).
Context (Hc : 2 ^ 32 - 1 <= Z.of_nat c) (Hr : (c + 1 < r)%nat) (H63 : Z.of_nat r < 2 ^ 63).

Lemma lim_2 : two63 <= Bn c 2.
Proof.
  pose proof (Bn_ratio c 1) as H. rewrite Bn_1r in H. rewrite two63_val.
  change (Z.of_nat 1) with 1 in H. nia.
Qed.
Lemma lim_3 : two64 <= Bn c 3.
Proof.
  pose proof (Bn_ratio c 2) as H. pose proof lim_2 as H2. rewrite two63_val in H2. rewrite two64_val.
  change (Z.of_nat 2) with 2 in H. nia.
Qed.
Lemma lim_t t : 3 <= t -> beta (Z.of_nat c) t = Panic PUnwrap.
Proof.
  intros Ht. unfold beta. destruct (Z.leb_spec (Z.of_nat c) 0); [lia|].
  destruct (Z.leb_spec t 0); [lia|]. cbn [orb].
  replace (Z.to_nat (Z.of_nat c + t)) with (c + Z.to_nat t)%nat by lia. rewrite Nat2Z.id.
  change (binom (c + Z.to_nat t) c) with (Bn c (Z.to_nat t)).
  pose proof (Bn_mono_ts c 3 (Z.to_nat t) ltac:(lia)). pose proof lim_3.
  destruct (Z.ltb_spec (Bn c (Z.to_nat t)) two64); [lia|reflexivity].
Qed.

Lemma lim_loop : forall fuel t, 3 - t < Z.of_nat fuel -> (0 < fuel)%nat ->
  find_loop fuel (Z.of_nat c) (Z.of_nat r) t = Panic PUnwrap.
Proof.
  induction fuel as [|fuel IH]; intros t L1 L2; [lia|]. cbn [find_loop].
  destruct (Z_lt_ge_dec t 3) as [Lt|Lt]; [|rewrite lim_t by lia; reflexivity].
  assert (beta (Z.of_nat c) t = Panic PUnwrap \/
          exists b, beta (Z.of_nat c) t = Ok b /\ as_isize b < Z.of_nat r) as [->|(b & -> & Hb)].
  { unfold beta. destruct (Z.leb_spec (Z.of_nat c) 0); [lia|].
    destruct (Z.leb_spec t 0); cbn [orb].
    { right. exists 0. split; auto. rewrite as_isize_small; rewrite ?two63_val; lia. }
    replace (Z.to_nat (Z.of_nat c + t)) with (c + Z.to_nat t)%nat by lia. rewrite Nat2Z.id.
    change (binom (c + Z.to_nat t) c) with (Bn c (Z.to_nat t)).
    destruct (Z.ltb_spec (Bn c (Z.to_nat t)) two64) as [Hb|Hb]; auto. right. eexists. split; [reflexivity|].
    assert (t = 1 \/ t = 2) as [->| ->] by lia.
    - change (Z.to_nat 1) with 1%nat. rewrite Bn_1r. rewrite as_isize_small by (rewrite two63_val; lia). lia.
    - change (Z.to_nat 2) with 2%nat in *. pose proof lim_2. unfold as_isize.
      destruct (Z.ltb_spec (Bn c 2) two63); [lia|]. lia. }
  - reflexivity.
  - cbn [bind]. destruct (Z.ltb_spec (as_isize b) (Z.of_nat r)); [|lia].
    destruct (Z.ltb_spec (t + 1) two63); [|rewrite two63_val in *; lia].
    apply IH; lia.
Qed.

Lemma lim_find : find_t est (Z.of_nat c) (Z.of_nat r) = Panic PUnwrap.
Proof.
  unfold find_t. rewrite !as_isize_small by (rewrite two63_val; lia).
  destruct (Z.eqb_spec (Z.of_nat c) 1); [lia|].
  rewrite lim_loop; [reflexivity|lia|lia].
Qed.

Lemma lim_next b : sched_next est b (sched_init c r) = Panic PUnwrap.
Proof.
  unfold sched_next, sched_init.
  destruct (Nat.ltb_spec 1 r); [|lia]. destruct (Nat.ltb_spec 0 c); [|lia]. cbn [andb].
  destruct (Nat.leb_spec (r - 1) c); [lia|]. destruct (Nat.eqb_spec c 1); [lia|].
  destruct (Nat.ltb_spec 2 r); [|lia].
  unfold next_checkpoint. rewrite lim_find. reflexivity.
Qed.

Lemma lim_schedule : schedule est c r = Panic PUnwrap.
Proof. unfold schedule. cbn [sched_collect]. rewrite lim_next. reflexivity. Qed.
End Limit.

Lemma lim_reverse est {T R St : Type} (forward : T -> M St T) (reverse : T -> R -> M St R)
  (identity : T -> M St R) x n c s :
  (2 ^ 32 <= Z.of_nat c)%Z -> c <= n -> (Z.of_nat n + 1 < 2 ^ 63)%Z ->
  reverse_sequence est forward reverse identity x n c s = Panic PUnwrap.
Proof.
  intros H1 H2 H3. unfold reverse_sequence, reverse_sequence_log, mbind, mlift.
  destruct (Nat.leb_spec 2 c); [|lia]. cbn [assert].
  destruct (Z.ltb_spec (Z.of_nat n + 1) two64); [|rewrite two64_val in *; lia].
  replace (n + 1) with (S n) by lia. cbn [reverse_loop]. unfold mbind, mlift.
  cbn [hd_error unwrap length]. unfold nsub at 1. destruct (Nat.leb_spec 0 (S n)); [|lia].
  unfold nsub at 1. destruct (Nat.leb_spec 1 c); [|lia].
  destruct (Nat.ltb_spec 0 (S n - 0)); [|lia].
  cbn [run_schedule]. unfold mbind, mlift. rewrite lim_next by lia. reflexivity.
Qed.
