(** The schedule and [reverse_sequence]. *)
From Coq Require Import List Arith ZArith Bool Lia.
From Verif Require Import Base AContext Checkpoint CheckSpec CheckFacts.
Import ListNotations.

Section Est.
Context (est : Z -> Z -> Z).

(** The first checkpoint: the body of checkpointing.rs:66-74. *)
Definition first (c r : nat) : res nat :=
  if r - 1 <=? c then Ok 1
  else if c =? 1 then Ok (r - 1)
  else if 2 <? r then
    cp <- next_checkpoint est (Z.of_nat c) (Z.of_nat r) ;;
    Ok (Nat.min (Nat.max (Z.to_nat cp) 1) (r - 1))
  else Ok 1.

Lemma first_range c r k : first c r = Ok k -> 2 <= r -> 1 <= c -> 1 <= k < r.
Proof.
  intros E Hr Hc. revert E. unfold first. destruct (Nat.leb_spec (r - 1) c); [intros [= <-]; lia|].
  destruct (Nat.eqb_spec c 1); [intros [= <-]; lia|].
  destruct (Nat.ltb_spec 2 r); [|intros [= <-]; lia].
  destruct (next_checkpoint _ _ _) as [cp|]; cbn [bind]; [|discriminate].
  intros E. apply (f_equal (fun o => match o with Ok a => a | _ => 0 end)) in E. lia.
Qed.

Lemma first_last r k : 2 <= r -> first 1 r = Ok k -> k = r - 1.
Proof.
  intros Hr. unfold first. destruct (Nat.leb_spec (r - 1) 1); [intros [= <-]; lia|].
  cbn. congruence.
Qed.

(** No panic in [next_checkpoint] for sequences up to length [N]. *)
Definition safe (N : nat) : Prop :=
  forall c r, hard c r -> r <= N -> exists k, next_checkpoint est (Z.of_nat c) (Z.of_nat r) = Ok k.

Lemma first_safe N c r : safe N -> 2 <= r <= N -> 1 <= c -> exists k, first c r = Ok k.
Proof.
  intros HS Hr Hc. unfold first. destruct (Nat.leb_spec (r - 1) c); [eauto|].
  destruct (Nat.eqb_spec c 1); [eauto|]. destruct (Nat.ltb_spec 2 r); [|eauto].
  destruct (HS c r) as [k ->]; [split; lia|lia|]. cbn [bind]. eauto.
Qed.

Lemma under_safe N : under est N -> (N <= bound32)%Z -> forall n, (Z.of_nat n <= N)%Z -> safe n.
Proof.
  intros HU HN n Hn c r HH Hr.
  destruct (next_checkpoint_good est c r N HU HN HH ltac:(lia)) as (t & k & _ & _ & E & _). eauto.
Qed.

Lemma sched_next_more r off c r_ : off + r_ = r -> 2 <= r_ -> 1 <= c ->
  sched_next est r (off, c, r_) =
    (k <- first c r_ ;; Ok (Some (off + k, (off + k, c - 1, r_ - k)))).
Proof.
  intros E Hr Hc. unfold sched_next. destruct (Nat.ltb_spec 1 r_); [|lia].
  destruct (Nat.ltb_spec 0 c); [|lia]. cbn [andb]. fold (first c r_).
  destruct (first c r_) as [k|p] eqn:EF; [|reflexivity]. cbn [bind].
  pose proof (first_range c r_ k EF Hr Hc). unfold nsub.
  destruct (Nat.leb_spec (off + k) r); [|lia]. cbn [bind]. do 4 f_equal. lia.
Qed.
Lemma sched_next_done r off c r_ : r_ <= 1 \/ c = 0 -> sched_next est r (off, c, r_) = Ok None.
Proof.
  intros H. unfold sched_next. destruct (Nat.ltb_spec 1 r_), (Nat.ltb_spec 0 c); cbn [andb]; auto; lia.
Qed.

Lemma sched_collect_S fuel r s : sched_collect est (S fuel) r s =
  (nxt <- sched_next est r s ;;
   match nxt with
   | None => Ok []
   | Some (cp, s') => l <- sched_collect est fuel r s' ;; Ok (cp :: l)
   end).
Proof. reflexivity. Qed.

(** The schedule, unfolded once: the first checkpoint, then the schedule of what remains. *)
Lemma schedule_offset c : forall fuel r off, c < fuel -> off <= r ->
  sched_collect est fuel r (off, c, r - off) =
    (l <- schedule est c (r - off) ;; Ok (map (Nat.add off) l)).
Proof.
  induction c as [|c IH]; intros fuel r off Hf Ho; (destruct fuel as [|fuel]; [lia|]).
  - unfold schedule, sched_init. cbn [sched_collect]. rewrite !sched_next_done by auto. reflexivity.
  - destruct (Nat.le_gt_cases (r - off) 1) as [L|L].
    + unfold schedule, sched_init. cbn [sched_collect]. rewrite !sched_next_done by auto. reflexivity.
    + unfold schedule, sched_init. rewrite !sched_collect_S.
      rewrite (sched_next_more r off (S c) (r - off)), (sched_next_more (r - off) 0 (S c) (r - off)) by lia.
      destruct (first (S c) (r - off)) as [k|p] eqn:EF; [|reflexivity]. cbn [bind].
      pose proof (first_range _ _ _ EF ltac:(lia) ltac:(lia)) as HK.
      replace (S c - 1) with c by lia.
      replace (r - off - k) with (r - (off + k)) at 1 by lia.
      rewrite (IH fuel r (off + k)) by lia.
      replace (r - off - k) with (r - off - (0 + k)) by lia.
      rewrite (IH (S c) (r - off) (0 + k)) by lia.
      replace (r - (off + k)) with (r - off - (0 + k)) by lia. cbn [Nat.add].
      destruct (schedule est c (r - off - k)) as [l|p]; [|reflexivity]. cbn [bind map].
      rewrite map_map. do 2 f_equal. apply map_ext. intros; lia.
Qed.

Theorem schedule_unfold c r : 2 <= r -> 1 <= c ->
  schedule est c r =
    (k <- first c r ;; l <- schedule est (c - 1) (r - k) ;; Ok (k :: map (Nat.add k) l)).
Proof.
  intros Hr Hc. unfold schedule at 1, sched_init. cbn [sched_collect].
  rewrite (sched_next_more r 0 c r) by lia.
  destruct (first c r) as [k|p] eqn:EF; [|reflexivity]. cbn [bind Nat.add].
  pose proof (first_range _ _ _ EF Hr Hc) as HK.
  rewrite schedule_offset by lia.
  destruct (schedule est (c - 1) (r - k)); reflexivity.
Qed.
Lemma schedule_nil c r : r <= 1 \/ c = 0 -> schedule est c r = Ok [].
Proof. intros H. unfold schedule, sched_init. cbn [sched_collect]. rewrite sched_next_done; auto. Qed.

Lemma increasing_shift k l : increasing l -> increasing (map (Nat.add k) l).
Proof.
  induction l as [|a l IH]; [auto|]. intros [H1 H2]. cbn [map increasing]. split; [|apply IH; auto].
  destruct l as [|b l]; cbn [map]; auto. lia.
Qed.

Lemma last_shift k q : q <> [] -> last (k :: map (Nat.add k) q) 0 = k + last q 0.
Proof.
  intros Hq. transitivity (last (map (Nat.add k) q) 0); [destruct q; [congruence|reflexivity]|].
  induction q as [|a q IH]; [congruence|]. destruct q as [|a' q]; [reflexivity|].
  change (last (map (Nat.add k) (a' :: q)) 0 = k + last (a' :: q) 0). apply IH. discriminate.
Qed.

Theorem schedule_wf c : forall r l, schedule est c r = Ok l ->
  increasing l /\ length l <= c /\ (forall k, In k l -> 1 <= k <= r - 1) /\
  (2 <= r -> 1 <= c -> last l 0 = r - 1).
Proof.
  induction c as [|c IH]; intros r l.
  - rewrite schedule_nil by auto. intros [= <-]. repeat split; auto; cbn; try contradiction; lia.
  - destruct (Nat.le_gt_cases r 1) as [L|L].
    { rewrite schedule_nil by auto. intros [= <-]. repeat split; auto; cbn; try contradiction; lia. }
    rewrite schedule_unfold by lia. replace (S c - 1) with c by lia.
    destruct (first (S c) r) as [k|p] eqn:EF; [|discriminate]. cbn [bind].
    pose proof (first_range _ _ _ EF ltac:(lia) ltac:(lia)) as HK.
    destruct (schedule est c (r - k)) as [l'|p] eqn:ES; [|discriminate]. cbn [bind]. intros [= <-].
    destruct (IH _ _ ES) as (I1 & I2 & I3 & I4).
    repeat split.
    + destruct l' as [|b l']; cbn [map]; auto. destruct (I3 b (or_introl eq_refl)). lia.
    + apply increasing_shift; auto.
    + cbn [length]. rewrite map_length. lia.
    + destruct H as [<-|H]; [lia|]. apply in_map_iff in H as (j & <- & Hj). apply I3 in Hj. lia.
    + destruct H as [<-|H]; [lia|]. apply in_map_iff in H as (j & <- & Hj). apply I3 in Hj. lia.
    + intros _ _. destruct l' as [|b l'].
      * cbn. destruct (Nat.eq_dec c 0) as [->|].
        { eapply first_last in EF; lia. }
        destruct (Nat.le_gt_cases (r - k) 1); [lia|]. exfalso.
        specialize (I4 ltac:(lia) ltac:(lia)). cbn in I4. lia.
      * assert (last (k :: map (Nat.add k) (b :: l')) 0 = k + last (b :: l') 0) as ->
          by (apply last_shift; discriminate).
        assert (c <> 0) by (intros ->; rewrite schedule_nil in ES by auto; discriminate).
        destruct (Nat.le_gt_cases (r - k) 1).
        { rewrite schedule_nil in ES by auto. discriminate. }
        rewrite I4 by lia. lia.
Qed.

Theorem schedule_total N : safe N -> forall c r, r <= N -> exists l, schedule est c r = Ok l.
Proof.
  intros HS. induction c as [|c IH]; intros r Hr; [rewrite schedule_nil by auto; eauto|].
  destruct (Nat.le_gt_cases r 1); [rewrite schedule_nil by auto; eauto|].
  rewrite schedule_unfold by lia. destruct (first_safe N (S c) r HS) as [k EF]; [lia|lia|].
  rewrite EF. cbn [bind]. pose proof (first_range _ _ _ EF ltac:(lia) ltac:(lia)).
  replace (S c - 1) with c by lia. destruct (IH (r - k)) as [l ->]; [lia|]. cbn [bind]. eauto.
Qed.

Theorem schedule_full c : forall r, r <= c + 1 -> schedule est c r = Ok (seq 1 (r - 1)).
Proof.
  induction c as [|c IH]; intros r Hr.
  - rewrite schedule_nil by auto. replace (r - 1) with 0 by lia. reflexivity.
  - destruct (Nat.le_gt_cases r 1) as [L|L].
    { rewrite schedule_nil by auto. replace (r - 1) with 0 by lia. reflexivity. }
    rewrite schedule_unfold by lia. unfold first. destruct (Nat.leb_spec (r - 1) (S c)); [|lia].
    cbn [bind]. replace (S c - 1) with c by lia. rewrite IH by lia. cbn [bind].
    destruct r as [|[|r]]; [lia|lia|]. replace (S (S r) - 1 - 1) with r by lia.
    replace (S (S r) - 1) with (S r) by lia. cbn [seq]. rewrite seq_shift. reflexivity.
Qed.

(** *** The cost of the code's own strategy *)
Inductive ccost : nat -> nat -> nat -> Prop :=
| cc_visit c : ccost c 1 0
| cc_split c r k a b : 2 <= r -> first (S c) r = Ok k -> ccost c (r - k) a -> ccost (S c) k b ->
    ccost (S c) r (k + a + b).

Lemma ccost_strategy c r n : ccost c r n -> strategy c r n.
Proof.
  induction 1; constructor; auto. eapply first_range in H0; lia.
Qed.

Lemma ccost_fun c r n : ccost c r n -> forall n', ccost c r n' -> n = n'.
Proof.
  induction 1 as [c|c r k a b Hr HF Ha IHa Hb IHb]; intros n' H'; inversion H'; subst; auto; try lia.
  assert (k0 = k) by congruence. subst. f_equal; [f_equal|]; auto.
Qed.

Lemma ccost_full c r n : ccost c r n -> r <= c + 1 -> n = r - 1.
Proof.
  induction 1 as [c|c r k a b Hr HF Ha IHa Hb IHb]; intros HL; [reflexivity|].
  unfold first in HF. destruct (Nat.leb_spec (r - 1) (S c)); [|lia]. injection HF as <-.
  rewrite IHa, IHb by lia. lia.
Qed.

Local Open Scope Z_scope.
Theorem ccost_phi N : under est N -> N <= bound32 -> forall r c n t, ccost c r n ->
  Z.of_nat r <= N -> (1 <= t)%nat -> within c r t -> Z.of_nat n = phi t c r.
Proof.
  intros HU HN r. induction r as [r IH] using lt_wf_ind. intros c n t HC HR Ht HW.
  assert (forall t, (1 <= t)%nat -> Bn c (t - 1) < Z.of_nat r <= Bn c t -> (2 <= r)%nat ->
          Z.of_nat n = phi t c r) as MAIN.
  { clear t Ht HW. intros t Ht HB H2. inversion HC as [|c0 r0 k a b Hr HF Ha Hb]; subst; [lia|].
    pose proof (first_range _ _ _ HF ltac:(lia) ltac:(lia)) as HK.
    assert (forall t, (1 <= t)%nat -> within c0 (r - k) t -> within (S c0) k (t - 1) -> (2 <= t)%nat ->
              Z.of_nat (k + a + b) = phi t (S c0) r) as STEP.
    { intros t0 T0 W1 W2 T2. rewrite <- (phi_split c0 r k t0) by lia.
      rewrite !Nat2Z.inj_add. f_equal; [f_equal|].
      - apply (IH (r - k)%nat ltac:(lia) c0 a t0 Ha); auto; lia.
      - apply (IH k ltac:(lia) (S c0) b (t0 - 1)%nat Hb); auto; lia. }
    unfold first in HF. destruct (Nat.leb_spec (r - 1) (S c0)).
    - (* r <= c + 1: t = 1 *)
      injection HF as <-.
      assert (t = 1)%nat as ->.
      { destruct (Nat.le_gt_cases t 1); [lia|]. exfalso.
        pose proof (Bn_mono_ts (S c0) 1 (t - 1) ltac:(lia)). rewrite Bn_1r in *. lia. }
      assert (b = 0%nat) as -> by (inversion Hb; auto; lia).
      rewrite !Nat2Z.inj_add. rewrite (IH (r - 1)%nat ltac:(lia) c0 a 1%nat Ha); [|lia|lia|].
      + unfold phi. cbn [D]. rewrite !Bn_0r. lia.
      + unfold within. cbn [Nat.sub]. rewrite Bn_0r, Bn_1r. lia.
    - destruct (Nat.eqb_spec (S c0) 1) as [E1|E1].
      + injection HF as <-. assert (c0 = 0%nat) as -> by lia.
        rewrite Bn_1l in HB. rewrite Bn_1l in HB.
        assert (r = S t) as -> by lia.
        apply STEP; try lia.
        * unfold within. rewrite !Bn_0l. lia.
        * unfold within. rewrite !Bn_1l. lia.
      + destruct (Nat.ltb_spec 2 r); [|lia].
        destruct (next_checkpoint_good est (S c0) r N HU HN) as (t' & cp & T2 & TB & EN & K0 & K1 & K2);
          [split; lia|lia|].
        rewrite EN in HF. cbn [bind] in HF.
        assert (t' = t) as ->.
        { destruct (Nat.lt_trichotomy t' t) as [LT|[E|LT]]; auto; exfalso.
          - pose proof (Bn_mono_ts (S c0) t' (t - 1) ltac:(lia)). lia.
          - pose proof (Bn_mono_ts (S c0) t (t' - 1) ltac:(lia)). lia. }
        replace (S c0 - 1)%nat with c0 in K2 by lia.
        pose proof (Bn_pos c0 (t - 1)).
        apply (f_equal (fun o => match o with Ok q => q | _ => 0%nat end)) in HF. cbv beta iota in HF.
        assert (Z.of_nat k = Z.max cp 1) as EK by lia.
        apply STEP; try lia.
        * unfold within. rewrite Nat2Z.inj_sub by lia. rewrite EK. lia.
        * unfold within. rewrite EK. replace (t - 1 - 1)%nat with (t - 2)%nat by lia. lia. }
  assert (1 <= Z.of_nat r) as R1 by (destruct HW as [HW _]; pose proof (Bn_pos c (t - 1)); lia).
  destruct (Nat.eq_dec r 1) as [->|R2].
  - assert (n = 0%nat) as -> by (inversion HC; auto; lia).
    destruct c as [|c].
    + unfold phi. destruct t as [|t]; [lia|]. cbn [D]. rewrite Bn_1l. lia.
    + destruct (Nat.eq_dec t 1) as [->|]; [unfold phi; cbn [D]; rewrite Bn_0r; lia|].
      exfalso. destruct HW as [HW _]. pose proof (Bn_ge_t c (t - 1)). lia.
  - destruct HW as [W1 W2]. destruct (Z.eq_dec (Z.of_nat r) (Bn c (t - 1))) as [E|NE].
    + destruct c as [|c]; [rewrite Bn_0l in E; lia|].
      destruct t as [|[|t]]; [lia|rewrite Bn_0r in E; lia|].
      replace (S (S t) - 1)%nat with (S t) in * by lia.
      rewrite phi_step by (auto; lia). apply MAIN; [lia| |lia].
      replace (S t - 1)%nat with t by lia. rewrite E. split; [apply Bn_strict; lia|lia].
    + apply MAIN; lia.
Qed.

Theorem ccost_optimal N : under est N -> N <= bound32 -> forall c r n n', Z.of_nat r <= N ->
  ccost c r n -> strategy c r n' -> (n <= n')%nat.
Proof.
  intros HU HN c r n n' HR HC HS. pose proof (strategy_pos _ _ _ HS) as R1.
  destruct (Nat.eq_dec r 1) as [->|]; [inversion HC; subst; lia|].
  destruct c as [|c]; [inversion HC; subst; lia|].
  destruct (find_within (S c) r) as (t & Ht & HB); [lia|lia|].
  pose proof (ccost_phi N HU HN r (S c) n t HC HR Ht ltac:(unfold within; lia)) as E.
  pose proof (strategy_lower _ _ _ HS t) as L. unfold phi in E. lia.
Qed.
Local Close Scope Z_scope.

Lemma ccost_exists N : safe N -> forall r c, 1 <= r <= N -> (c = 0 -> r = 1) -> exists n, ccost c r n.
Proof.
  intros HS r. induction r as [r IH] using lt_wf_ind. intros c Hr Hc.
  destruct (Nat.eq_dec r 1) as [->|]; [eexists; constructor|].
  destruct c as [|c]; [lia|].
  destruct (first_safe N (S c) r HS) as [k EF]; [lia|lia|].
  pose proof (first_range _ _ _ EF ltac:(lia) ltac:(lia)) as HK.
  destruct (IH (r - k) ltac:(lia) c) as [a Ha]; [lia| |].
  { intros ->. eapply first_last in EF; lia. }
  destruct (IH k ltac:(lia) (S c)) as [b Hb]; [lia|lia|].
  eexists. econstructor; eauto. lia.
Qed.
End Est.
