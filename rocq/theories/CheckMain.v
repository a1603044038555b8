(** The statements about checkpointing that the property theorems use. *)
From Coq Require Import Reals Lra List Arith ZArith Bool Lia.
From Verif Require Import Base AContext Checkpoint CheckSpec CheckFacts CheckRun CheckLoop CheckGen Stirling.
Import ListNotations.

Section Main.
Context (est : Z -> Z -> Z) {T R St : Type}.
Context (forward : T -> M St T) (reverse : T -> R -> M St R) (identity : T -> M St R).

Lemma log_result x n c s : reverse_sequence est forward reverse identity x n c s =
  match reverse_sequence_log est forward reverse identity x n c s with
  | Ok (r, s') => Ok (fst r, s')
  | Panic p => Panic p
  end.
Proof.
  unfold reverse_sequence, mbind at 1.
  destruct (reverse_sequence_log _ _ _ _ _ _ _ _) as [[r s']|p]; reflexivity.
Qed.

Lemma log_overflow x n c s : (two64 <= Z.of_nat n + 1)%Z -> 2 <= c ->
  reverse_sequence_log est forward reverse identity x n c s = Panic POverflow.
Proof.
  intros Hn Hc. unfold reverse_sequence_log, mbind, mlift. destruct (Nat.leb_spec 2 c); [|lia]. cbn [assert].
  destruct (Z.ltb_spec (Z.of_nat n + 1) two64); [lia|reflexivity].
Qed.

Lemma log_few x n c s : c < 2 ->
  reverse_sequence_log est forward reverse identity x n c s = Panic PAssert.
Proof.
  intros Hc. unfold reverse_sequence_log, mbind, mlift. destruct (Nat.leb_spec 2 c); [lia|reflexivity].
Qed.

Section Acts.
Context (fw : T -> res T) (rv : T -> R -> res R) (id : T -> res R) (I : St -> Prop).
Context (AF : acts I forward fw) (AR : acts2 I reverse rv) (AI : acts I identity id).

Lemma acts_all x n c s : 2 <= c -> (Z.of_nat n + 1 < two64)%Z -> I s ->
  (exists y peak s', reverse_sequence_log est forward reverse identity x n c s = Ok ((y, peak), s') /\
     reverse_fold fw rv id n x = Ok y /\ Forall (fun k => k <= c) peak /\ I s')
  \/ (exists p, reverse_sequence_log est forward reverse identity x n c s = Panic p /\
        (reverse_fold fw rv id n x = Panic p \/ ~ safe est (n + 1))).
Proof.
  intros Hc Hn HI.
  destruct (reverse_sequence_all est forward reverse identity fw rv id (fun _ _ _ => I)) with
    (x0 := x) (n := n) (nck := c) (s := s) as [(y & pk & s' & m & E & HR & HP & HJ & _)|H]; auto.
  - intros a b d x' y' s' Hs. specialize (AR (x', y') s' Hs). exact AR.
  - left. exists y, pk, s'. auto.
Qed.

Theorem reverse_sequence_spec n c : accurate est (Z.of_nat n + 1) -> (Z.of_nat n + 1 <= 2 ^ 32)%Z -> 2 <= c ->
  acts I (fun x => reverse_sequence est forward reverse identity x n c) (reverse_fold fw rv id n).
Proof.
  intros HA HN Hc x s HI. rewrite log_result.
  assert (safe est (n + 1)) as HS.
  { apply (under_safe est (Z.of_nat n + 1)); [apply accurate_under; auto|exact HN|lia]. }
  destruct (acts_all x n c s Hc ltac:(bounds; lia) HI) as [(y & pk & s' & E & -> & _ & HI')|(p & E & [->|H])].
  - rewrite E. eauto.
  - rewrite E. reflexivity.
  - contradiction.
Qed.

Theorem reverse_sequence_any x n c s y s' : I s ->
  reverse_sequence est forward reverse identity x n c s = Ok (y, s') ->
  reverse_fold fw rv id n x = Ok y /\ I s'.
Proof.
  intros HI. rewrite log_result.
  destruct (Nat.le_gt_cases 2 c) as [Hc|Hc]; [|rewrite log_few by auto; discriminate].
  destruct (Z.lt_ge_cases (Z.of_nat n + 1) two64) as [Hn|Hn]; [|rewrite log_overflow by auto; discriminate].
  destruct (acts_all x n c s Hc Hn HI) as [(y0 & pk & s0 & E & HR & _ & HI')|(p & E & _)]; rewrite E.
  - intros [= <- <-]. auto.
  - discriminate.
Qed.
End Acts.

Theorem peak_bound (fw : T -> res T) (rv : T -> R -> res R) (id : T -> res R) (I : St -> Prop) x n c s y peak s' :
  acts I forward fw -> acts2 I reverse rv -> acts I identity id -> I s ->
  reverse_sequence_log est forward reverse identity x n c s = Ok ((y, peak), s') ->
  reverse_sequence est forward reverse identity x n c s = Ok (y, s') /\ forall k, In k peak -> k <= c.
Proof.
  intros AF AR AI HI E. split; [rewrite log_result, E; reflexivity|].
  destruct (Nat.le_gt_cases 2 c) as [Hc|Hc]; [|rewrite log_few in E by auto; discriminate].
  destruct (Z.lt_ge_cases (Z.of_nat n + 1) two64) as [Hn|Hn]; [|rewrite log_overflow in E by auto; discriminate].
  destruct (acts_all fw rv id I AF AR AI x n c s Hc Hn HI) as [(y0 & pk & s0 & E0 & HR & HP & HI')|(p & E0 & _)].
  - rewrite E0 in E. injection E as <- <- <-. rewrite Forall_forall in HP. auto.
  - congruence.
Qed.
End Main.

Section Count.
Context (est : Z -> Z -> Z) {T R : Type} (fw : T -> T) (rv : T -> R -> R) (id : T -> R).

Definition counted (x : T) (n c : nat) : res (R * calls) :=
  reverse_sequence est (count_fw fw) (count_rv rv) (count_id id) x n c (0, 0, 0).

Lemma counted_all x n c y k : counted x n c = Ok (y, k) ->
  exists m, k = (m, n, 1) /\ ccost est (c - 1) (n + 1) m /\ 2 <= c.
Proof.
  unfold counted. rewrite log_result.
  destruct (Nat.le_gt_cases 2 c) as [Hc|Hc]; [|rewrite log_few by auto; discriminate].
  destruct (Z.lt_ge_cases (Z.of_nat n + 1) two64) as [Hn|Hn]; [|rewrite log_overflow by auto; discriminate].
  destruct (reverse_sequence_all est (count_fw fw) (count_rv rv) (count_id id)
              (fun x => Ok (fw x)) (fun x y => Ok (rv x y)) (fun x => Ok (id x)) (fun a b d s => s = (a, b, d)))
    with (x0 := x) (n := n) (nck := c) (s := (0, 0, 0))
    as [(y0 & pk & s' & m & E & _ & _ & HJ & HC)|(p & E & _)]; auto.
  - intros a b d x' s ->. cbn. eauto.
  - intros a b d x' y' s ->. cbn. eauto.
  - intros a b d x' s ->. cbn. eauto.
  - rewrite E. intros [= <- <-]. exists m. auto.
  - rewrite E. discriminate.
Qed.

Lemma counted_total x n c : accurate est (Z.of_nat n + 1) -> (Z.of_nat n + 1 <= 2 ^ 32)%Z -> 2 <= c ->
  exists y k, counted x n c = Ok (y, k).
Proof.
  intros HA HN Hc.
  assert (acts (fun _ => True) (count_fw fw) (fun x => Ok (fw x))) as A1
    by (intros a [[? ?] ?] _; cbn; eauto).
  assert (acts2 (fun _ => True) (count_rv rv) (fun x y => Ok (rv x y))) as A2
    by (intros [a a'] [[? ?] ?] _; cbn; eauto).
  assert (acts (fun _ => True) (count_id id) (fun x => Ok (id x))) as A3
    by (intros a [[? ?] ?] _; cbn; eauto).
  pose proof (reverse_sequence_spec est _ _ _ _ _ _ _ A1 A2 A3 n c HA HN Hc x (0, 0, 0) Logic.I) as H.
  unfold counted. revert H.
  destruct (reverse_fold _ _ _ n x) as [y|p] eqn:E.
  - intros (s' & E' & _). exists y, s'. exact E'.
  - exfalso. clear -E. revert x p E. induction n as [|n IH]; intros x p; cbn [reverse_fold]; [discriminate|].
    cbn [bind]. destruct (reverse_fold _ _ _ n (fw x)) as [|p'] eqn:E; [discriminate|]. intros _. exact (IH _ _ E).
Qed.

Theorem counted_reverse x n c y a b d : counted x n c = Ok (y, (a, b, d)) -> b = n /\ d = 1.
Proof. intros H. destruct (counted_all x n c y _ H) as (m & [= -> -> ->] & _). auto. Qed.

Theorem counted_plenty x n c y a b d : counted x n c = Ok (y, (a, b, d)) -> n + 1 <= c -> a = n.
Proof.
  intros H Hc. destruct (counted_all x n c y _ H) as (m & [= -> -> ->] & HC & H2).
  apply ccost_full in HC; lia.
Qed.

Theorem counted_optimal x n c y a b d : accurate est (Z.of_nat n + 1) -> (Z.of_nat n + 1 <= 2 ^ 32)%Z ->
  counted x n c = Ok (y, (a, b, d)) ->
  strategy (c - 1) (n + 1) a /\ forall a', strategy (c - 1) (n + 1) a' -> a <= a'.
Proof.
  intros HA HN H. destruct (counted_all x n c y _ H) as (m & [= -> -> ->] & HC & H2).
  split; [eapply ccost_strategy; eauto|]. intros a' HS.
  apply (ccost_optimal est (Z.of_nat n + 1)) with (c := c - 1) (r := n + 1); auto; [|lia].
  apply accurate_under; auto.
Qed.

Theorem counted_fewest x n c y a b d : accurate est (Z.of_nat n + 1) -> (Z.of_nat n + 1 <= 2 ^ 32)%Z ->
  counted x n c = Ok (y, (a, b, d)) ->
  reverses c ([0], n + 1) a /\ forall a', reverses c ([0], n + 1) a' -> a <= a'.
Proof.
  intros HA HN H. destruct (counted_all x n c y _ H) as (m & _ & _ & H2).
  destruct (counted_optimal x n c y a b d HA HN H) as [HS HO].
  split; [apply strategy_reverses; auto; lia|]. intros a' Ha.
  destruct (reverses_lower c n a') as (a0 & H0 & Hle); auto; [lia|]. specialize (HO a0 H0). lia.
Qed.

(** In closed form: with t repetitions sufficing and t - 1 not, the number of forward calls is
    t (n + 1) - C(c + t - 1, t - 1). *)
Theorem counted_formula x n c y a b d t : accurate est (Z.of_nat n + 1) -> (Z.of_nat n + 1 <= 2 ^ 32)%Z ->
  counted x n c = Ok (y, (a, b, d)) -> 1 <= t ->
  (binom (c - 1 + (t - 1)) (c - 1) < Z.of_nat n + 1 <= binom (c - 1 + t) (c - 1))%Z ->
  (Z.of_nat a = Z.of_nat t * (Z.of_nat n + 1) - binom (c + (t - 1)) c)%Z.
Proof.
  intros HA HN H Ht HB. destruct (counted_all x n c y _ H) as (m & [= -> -> ->] & HC & H2).
  assert (Z.of_nat m = phi t (c - 1) (n + 1)) as ->.
  { apply (ccost_phi est (Z.of_nat n + 1)); auto; [apply accurate_under; auto|lia|].
    unfold within, Bn. lia. }
  unfold phi. destruct t as [|t]; [lia|]. cbn [D]. unfold Bn.
  replace (S (c - 1)) with c by lia. replace (S t - 1) with t by lia. lia.
Qed.
End Count.

Section Sched.
Context (est : Z -> Z -> Z).
Lemma schedule_never_panics c r : accurate est (Z.of_nat r) -> (Z.of_nat r <= 2 ^ 32)%Z ->
  exists l, schedule est c r = Ok l.
Proof.
  intros HA HR. apply (schedule_total est r); [|lia].
  apply (under_safe est (Z.of_nat r)); [apply accurate_under; auto|auto|lia].
Qed.

Lemma schedule_tail c r k l : schedule est c r = Ok (k :: l) ->
  exists l', schedule est (c - 1) (r - k) = Ok l' /\ l = map (Nat.add k) l'.
Proof.
  intros H. destruct (Nat.le_gt_cases r 1) as [L|L]; [rewrite schedule_nil in H by auto; discriminate|].
  destruct (Nat.eq_dec c 0) as [->|]; [rewrite schedule_nil in H by auto; discriminate|].
  rewrite schedule_unfold in H by lia. destruct (first est c r) as [k'|]; [|discriminate]. cbn [bind] in H.
  destruct (schedule est (c - 1) (r - k')) as [l'|] eqn:E; [|discriminate]. cbn [bind] in H.
  injection H as -> <-. eauto.
Qed.

Lemma find_t_spec c r : accurate est (Z.of_nat r) -> (Z.of_nat r <= 2 ^ 32)%Z -> 1 <= c -> c + 1 < r ->
  exists t, find_t est (Z.of_nat c) (Z.of_nat r) = Ok (Z.of_nat t) /\ 1 <= t /\
    (binom (c + (t - 1)) c < Z.of_nat r <= binom (c + t) c)%Z.
Proof.
  intros HA HR Hc Hr. destruct (Nat.eq_dec c 1) as [->|Hc1].
  { exists (r - 1). assert (forall n, binom n 1 = Z.of_nat n) as B1.
    { induction n as [|n IH]; [reflexivity|]. cbn [binom]. rewrite binom_0, IH. lia. }
    rewrite !B1. split; [|lia]. unfold find_t, as_isize, as_usize, two63.
    replace (Z.of_nat r <? 2 ^ 63)%Z with true by (symmetry; apply Z.ltb_lt; lia). cbn [Z.of_nat Z.ltb Z.eqb].
    change (Z.pos (Pos.of_succ_nat 0) <? 2 ^ 63)%Z with true. cbv iota.
    change (Z.pos (Pos.of_succ_nat 0) =? 1)%Z with true. cbv iota.
    replace (0 <? Z.of_nat r)%Z with true by (symmetry; apply Z.ltb_lt; lia).
    replace (Z.of_nat r - 1 <? 0)%Z with false by (symmetry; apply Z.ltb_ge; lia). f_equal. lia. }
  destruct (find_within c r) as (t & Ht & HB); [lia|lia|].
  exists t. split; [|split; auto]. assert (2 <= c) by lia. apply find_t_ok; auto; [split; auto|].
  apply accurate_under in HA. apply HA; try lia. rewrite Nat2Z.id. apply HB.
Qed.
End Sched.

(** The exact estimate, rounded up, is accurate. *)
Lemma accurate_up N : accurate (fun c r => up (estimate c r)) N.
Proof.
  intros c r _ _ _. destruct (archimed (estimate c r)) as [A1 A2].
  exists (Rmin (estimate c r + 1 / 4) (IZR (up (estimate c r)))).
  pose proof (Rmin_l (estimate c r + 1 / 4) (IZR (up (estimate c r)))).
  pose proof (Rmin_r (estimate c r + 1 / 4) (IZR (up (estimate c r)))).
  unfold Rmin in *. destruct (Rle_dec _ _); (split; [apply Rabs_def1; lra|lra]).
Qed.

(** For computing examples. *)
Lemma under_one N : under (fun _ _ => 1%Z) N.
Proof.
  intros c r Hc Hr _ t HB. destruct t as [|t]; [|lia]. exfalso.
  rewrite Nat.add_0_r, binom_diag in HB. lia.
Qed.
