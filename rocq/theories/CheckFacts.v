(** Binomial coefficients, the schedule, and the cost of checkpointing. *)
From Coq Require Import List Arith ZArith Bool Lia.
From Verif Require Import Base AContext Checkpoint CheckSpec.
Import ListNotations.
Local Open Scope Z_scope.

Definition Bn (c t : nat) : Z := binom (c + t) c.

Lemma binom_0 n : binom n 0 = 1. Proof. destruct n; reflexivity. Qed.
Lemma binom_lt n : forall k, (n < k)%nat -> binom n k = 0.
Proof.
  induction n as [|n IH]; intros [|k] H; cbn [binom]; try lia.
  rewrite !IH by lia. lia.
Qed.
Lemma binom_diag n : binom n n = 1.
Proof. induction n as [|n IH]; cbn [binom]; auto. rewrite IH, binom_lt by lia. lia. Qed.
Lemma Bn_0l t : Bn 0 t = 1. Proof. apply binom_0. Qed.
Lemma Bn_0r c : Bn c 0 = 1. Proof. unfold Bn. rewrite Nat.add_0_r. apply binom_diag. Qed.
Lemma Bn_S c t : Bn (S c) (S t) = Bn c (S t) + Bn (S c) t.
Proof.
  unfold Bn. rewrite !Nat.add_succ_r. cbn [Nat.add binom]. reflexivity.
Qed.
Lemma Bn_pos c : forall t, 1 <= Bn c t.
Proof.
  induction c as [|c IH]; intros t; [rewrite Bn_0l; lia|].
  induction t as [|t IHt]; [rewrite Bn_0r; lia|]. rewrite Bn_S. specialize (IH (S t)). lia.
Qed.
Lemma Bn_1l t : Bn 1 t = Z.of_nat t + 1.
Proof. induction t as [|t IH]; [apply Bn_0r|]. rewrite Bn_S, Bn_0l, IH. lia. Qed.
Lemma Bn_1r c : Bn c 1 = Z.of_nat c + 1.
Proof. induction c as [|c IH]; [apply Bn_0l|]. rewrite Bn_S, Bn_0r, IH. lia. Qed.
Lemma Bn_ge_t c : forall t, Z.of_nat t + 1 <= Bn (S c) t.
Proof. induction t as [|t IH]; [rewrite Bn_0r; lia|]. rewrite Bn_S. pose proof (Bn_pos c (S t)). lia. Qed.
Lemma Bn_mono_t c t : Bn c t <= Bn c (S t).
Proof. destruct c; [rewrite !Bn_0l; lia|]. rewrite Bn_S. pose proof (Bn_pos c (S t)). lia. Qed.
Lemma Bn_mono_ts c t t' : (t <= t')%nat -> Bn c t <= Bn c t'.
Proof. induction 1; [lia|]. pose proof (Bn_mono_t c m). lia. Qed.
Lemma Bn_strict c t t' : (t < t')%nat -> Bn (S c) t < Bn (S c) t'.
Proof.
  intros H. apply Z.lt_le_trans with (Bn (S c) (S t)); [|apply Bn_mono_ts; lia].
  rewrite Bn_S. pose proof (Bn_pos c (S t)). lia.
Qed.
Lemma Bn_mono_c c t : Bn c t <= Bn (S c) t.
Proof. destruct t; [rewrite !Bn_0r; lia|]. rewrite Bn_S. pose proof (Bn_pos (S c) t). lia. Qed.
Lemma Bn_growth c : forall t, Bn c (S t) <= (Z.of_nat c + 1) * Bn c t.
Proof.
  induction c as [|c IH]; intros t; [rewrite !Bn_0l; lia|].
  rewrite Bn_S. specialize (IH t). pose proof (Bn_mono_c c t). pose proof (Bn_pos c t). nia.
Qed.
Lemma Bn_ratio c t : (Z.of_nat t + 1) * Bn c (S t) = (Z.of_nat c + Z.of_nat t + 1) * Bn c t.
Proof.
  revert t. induction c as [|c IH]; intros t; [rewrite !Bn_0l; lia|].
  induction t as [|t IHt]; [rewrite Bn_0r, Bn_1r; lia|].
  rewrite Bn_S. rewrite (Z.mul_add_distr_l _ (Bn c (S (S t)))). rewrite (IH (S t)).
  rewrite (Bn_S c t) in IHt |- *. pose proof (IH t). nia.
Qed.

(** *** The cost of strategies *)
Definition D (c t : nat) : Z := match t with O => 0 | S t' => Bn c t' end.
Lemma D_S c t : D (S (S c)) (S t) = D (S c) (S t) + D (S (S c)) t.
Proof. destruct t; cbn [D]; [rewrite !Bn_0r; lia|]. rewrite Bn_S. lia. Qed.
Lemma D_diff c t : D (S c) (S (S t)) - D (S c) (S t) = Bn c (S t).
Proof. cbn [D]. rewrite Bn_S. lia. Qed.

(** Every strategy costs at least t * r - D (c+1) t, for every t. *)
Lemma strategy_lower c r n : strategy c r n ->
  forall t, Z.of_nat t * Z.of_nat r - D (S c) t <= Z.of_nat n.
Proof.
  induction 1 as [c|c r k a b Hk Ha IHa Hb IHb]; intros t.
  - destruct t as [|t]; cbn [D]; [lia|]. pose proof (Bn_ge_t c t). lia.
  - destruct t as [|t]; [cbn [D]; lia|].
    specialize (IHa (S t)). specialize (IHb t). rewrite D_S.
    rewrite Nat2Z.inj_sub in IHa by lia. nia.
Qed.

Lemma strategy_pos c r n : strategy c r n -> (1 <= r)%nat.
Proof. destruct 1; lia. Qed.

Definition phi (t c r : nat) : Z := Z.of_nat t * Z.of_nat r - D (S c) t.

(** r is between the largest lengths that t-1 and t repetitions can handle *)
Definition within (c r t : nat) : Prop := Bn c (t - 1) <= Z.of_nat r <= Bn c t.

Lemma phi_step c r t : (1 <= t)%nat -> Z.of_nat r = Bn c t -> phi (S t) c r = phi t c r.
Proof.
  intros H E. destruct t as [|t]; [lia|]. pose proof (D_diff c t). unfold phi. lia.
Qed.

(** A split inside the optimal range is optimal if its parts are. *)
Lemma phi_split c r k t : (1 <= k < r)%nat -> (1 <= t)%nat ->
  Z.of_nat k + phi t c (r - k) + phi (t - 1) (S c) k = phi t (S c) r.
Proof.
  intros Hk Ht. destruct t as [|t]; [lia|]. unfold phi. rewrite D_S.
  replace (S t - 1)%nat with t by lia. rewrite Nat2Z.inj_sub by lia. nia.
Qed.

(** There is a t for every r. *)
Lemma find_within c r : (1 <= c)%nat -> (2 <= r)%nat ->
  exists t, (1 <= t)%nat /\ Bn c (t - 1) < Z.of_nat r <= Bn c t.
Proof.
  intros Hc Hr. destruct c as [|c]; [lia|].
  assert (forall m, Z.of_nat r <= Bn (S c) m -> exists t, (1 <= t)%nat /\ Bn (S c) (t - 1) < Z.of_nat r <= Bn (S c) t) as H.
  { induction m as [|m IH]; intros HB; [rewrite Bn_0r in HB; lia|].
    destruct (Z.le_gt_cases (Z.of_nat r) (Bn (S c) m)) as [L|L]; [auto|].
    exists (S m). split; [lia|]. replace (S m - 1)%nat with m by lia. lia. }
  apply (H r). pose proof (Bn_ge_t c r). lia.
Qed.

(** *** beta *)
Lemma beta_nat c t : (1 <= c)%nat -> (1 <= t)%nat -> Bn c t < two64 ->
  beta (Z.of_nat c) (Z.of_nat t) = Ok (Bn c t).
Proof.
  intros Hc Ht HB. unfold beta.
  destruct (Z.leb_spec (Z.of_nat c) 0); [lia|]. destruct (Z.leb_spec (Z.of_nat t) 0); [lia|]. cbn [orb].
  rewrite <- Nat2Z.inj_add, !Nat2Z.id. fold (Bn c t).
  destruct (Z.ltb_spec (Bn c t) two64); [reflexivity|lia].
Qed.
Lemma beta_le0 c t : c <= 0 \/ t <= 0 -> beta c t = Ok 0.
Proof.
  intros H. unfold beta. destruct (Z.leb_spec c 0); [reflexivity|].
  destruct (Z.leb_spec t 0); [reflexivity|lia].
Qed.

Definition bound32 : Z := 2 ^ 32.
Lemma two63_val : two63 = 9223372036854775808. Proof. reflexivity. Qed.
Lemma two64_val : two64 = 18446744073709551616. Proof. reflexivity. Qed.
Lemma bound32_val : bound32 = 4294967296. Proof. reflexivity. Qed.
Ltac bounds := pose proof two63_val as T63; pose proof two64_val as T64; pose proof bound32_val as T32.
Lemma as_isize_small n : n < two63 -> as_isize n = n.
Proof. intros H. unfold as_isize. destruct (Z.ltb_spec n two63); lia. Qed.
Lemma as_usize_nn n : 0 <= n -> as_usize n = n.
Proof. intros H. unfold as_usize. destruct (Z.ltb_spec n 0); lia. Qed.

(** The range in which the schedule consults [next_checkpoint]. *)
Definition hard (c r : nat) : Prop := (2 <= c)%nat /\ (c + 1 < r)%nat.

(** [beta] below the top, including the zeros on the border *)
Definition beta' (a s : Z) : Z := if (a <=? 0) || (s <=? 0) then 0 else Bn (Z.to_nat a) (Z.to_nat s).
Lemma beta'_nat a s : (1 <= a)%nat -> (1 <= s)%nat -> beta' (Z.of_nat a) (Z.of_nat s) = Bn a s.
Proof.
  intros Ha Hs. unfold beta'. destruct (Z.leb_spec (Z.of_nat a) 0); [lia|].
  destruct (Z.leb_spec (Z.of_nat s) 0); [lia|]. cbn [orb]. rewrite !Nat2Z.id. reflexivity.
Qed.
Lemma beta'_nonneg a s : 0 <= beta' a s.
Proof.
  unfold beta'. destruct (_ || _); [lia|]. pose proof (Bn_pos (Z.to_nat a) (Z.to_nat s)). lia.
Qed.

Section Est.
Context (est : Z -> Z -> Z).

Section Find.
Context (c r t : nat) (H : hard c r) (Hr : Z.of_nat r <= bound32)
  (HE : est (Z.of_nat c) (Z.of_nat r) <= Z.of_nat t)
  (Ht : (1 <= t)%nat) (HB : Bn c (t - 1) < Z.of_nat r <= Bn c t).

Lemma t_ge2 : (2 <= t)%nat.
Proof.
  destruct (Nat.eq_dec t 1) as [->|]; [|lia]. exfalso. destruct H as [H1 H2].
  rewrite Bn_1r in HB. lia.
Qed.
Lemma t_le_r : (t <= r)%nat.
Proof.
  destruct H as [H1 H2]. destruct c as [|c']; [lia|].
  pose proof (Bn_ge_t c' (t - 1)). lia.
Qed.
Lemma Bt_small : Bn c t < 2 ^ 63.
Proof.
  pose proof t_ge2 as T2.
  destruct t as [|t']; [lia|]. replace (S t' - 1)%nat with t' in HB by lia.
  destruct H as [H1 H2]. pose proof (Bn_ratio c t') as G1. pose proof (Bn_pos c t') as G2.
  assert (2 * Bn c (S t') <= (Z.of_nat c + 2) * Bn c t') as G3 by nia.
  assert (Bn c t' <= bound32 - 1) by lia.
  assert (Z.of_nat c + 2 <= bound32) by lia.
  assert ((Z.of_nat c + 2) * Bn c t' <= bound32 * (bound32 - 1)) by (apply Z.mul_le_mono_nonneg; lia).
  rewrite bound32_val in *. lia.
Qed.
Lemma Bn_small a s : (a <= c)%nat -> (s <= t)%nat -> Bn a s < 2 ^ 63.
Proof.
  intros Ha Hs. eapply Z.le_lt_trans; [|apply Bt_small].
  transitivity (Bn a t); [apply Bn_mono_ts; auto|].
  clear -Ha. induction Ha; [lia|]. pose proof (Bn_mono_c m t). lia.
Qed.

Lemma beta_ok a s : a <= Z.of_nat c -> s <= Z.of_nat t -> beta a s = Ok (beta' a s).
Proof.
  intros Ha Hs. unfold beta'. destruct (Z.leb_spec a 0); cbn [orb]; [apply beta_le0; lia|].
  destruct (Z.leb_spec s 0); cbn [orb]; [apply beta_le0; lia|].
  rewrite <- (Z2Nat.id a) at 1 by lia. rewrite <- (Z2Nat.id s) at 1 by lia.
  apply beta_nat; try lia. pose proof (Bn_small (Z.to_nat a) (Z.to_nat s) ltac:(lia) ltac:(lia)).
  bounds. lia.
Qed.
Lemma beta'_small a s : a <= Z.of_nat c -> s <= Z.of_nat t -> beta' a s < 2 ^ 63.
Proof.
  intros Ha Hs. unfold beta'. destruct (Z.leb_spec a 0); cbn [orb]; [lia|].
  destruct (Z.leb_spec s 0); cbn [orb]; [lia|]. apply Bn_small; lia.
Qed.

Lemma find_loop_ok : forall fuel t0, t0 <= Z.of_nat t -> Z.of_nat t - t0 < Z.of_nat fuel ->
  find_loop fuel (Z.of_nat c) (Z.of_nat r) t0 = Ok (Z.of_nat t).
Proof.
  pose proof t_ge2 as TG. pose proof t_le_r as TR. bounds. destruct H as [H1 H2].
  induction fuel as [|fuel IH]; intros t0 L1 L2; [lia|]. cbn [find_loop].
  rewrite beta_ok by lia. cbn [bind].
  pose proof (beta'_small (Z.of_nat c) t0 ltac:(lia) ltac:(lia)).
  rewrite as_isize_small by lia.
  destruct (Z.eq_dec t0 (Z.of_nat t)) as [->|NE].
  - rewrite beta'_nat by lia. destruct (Z.ltb_spec (Bn c t) (Z.of_nat r)); [lia|reflexivity].
  - assert (beta' (Z.of_nat c) t0 < Z.of_nat r) as LT.
    { unfold beta'. destruct (Z.leb_spec (Z.of_nat c) 0); cbn [orb]; [lia|].
      destruct (Z.leb_spec t0 0); cbn [orb]; [lia|]. rewrite Nat2Z.id.
      eapply Z.le_lt_trans; [apply (Bn_mono_ts c (Z.to_nat t0) (t - 1)); lia|lia]. }
    destruct (Z.ltb_spec (beta' (Z.of_nat c) t0) (Z.of_nat r)); [|lia].
    destruct (Z.ltb_spec (t0 + 1) two63); [|lia]. apply IH; lia.
Qed.

Lemma find_t_ok : find_t est (Z.of_nat c) (Z.of_nat r) = Ok (Z.of_nat t).
Proof.
  pose proof t_ge2 as TG. pose proof t_le_r as TR. bounds. pose proof H as [H1 H2]. unfold find_t.
  rewrite !as_isize_small by lia. destruct (Z.eqb_spec (Z.of_nat c) 1); [lia|].
  rewrite find_loop_ok by lia. cbn [bind].
  rewrite !beta_ok by lia. cbn [bind].
  replace (Z.of_nat t - 1) with (Z.of_nat (t - 1)) by lia. rewrite !beta'_nat by lia.
  pose proof (Bn_small c t ltac:(lia) ltac:(lia)). pose proof (Bn_small c (t - 1) ltac:(lia) ltac:(lia)).
  rewrite !as_isize_small by lia.
  destruct (Z.ltb_spec (Bn c (t - 1)) (Z.of_nat r)); [|lia]. cbn [assert bind].
  destruct (Z.leb_spec (Z.of_nat r) (Bn c t)); [|lia]. cbn [assert bind].
  rewrite as_usize_nn by lia. reflexivity.
Qed.

(** The checkpoint is in the range where splitting is optimal. *)
Lemma next_checkpoint_ok :
  exists k, next_checkpoint est (Z.of_nat c) (Z.of_nat r) = Ok k /\ 0 <= k /\
    let k' := Z.max k 1 in
    Bn c (t - 2) <= k' <= Bn c (t - 1) /\
    Bn (c - 1) (t - 1) <= Z.of_nat r - k' <= Bn (c - 1) t.
Proof.
  pose proof t_ge2 as TG. pose proof t_le_r as TR. bounds. pose proof H as [H1 H2].
  unfold next_checkpoint. rewrite find_t_ok. cbn [bind]. rewrite !as_isize_small by lia.
  destruct (Z.leb_spec (Z.of_nat c) 0); [lia|]. destruct (Z.eqb_spec (Z.of_nat r) 0); [lia|]. cbn [orb].
  rewrite !beta_ok by lia. cbn [bind].
  assert (forall a s, a <= Z.of_nat c -> s <= Z.of_nat t -> 0 <= beta' a s < 2 ^ 63) as BS
    by (intros; split; [apply beta'_nonneg|apply beta'_small; auto]).
  pose proof (BS (Z.of_nat c) (Z.of_nat t - 1) ltac:(lia) ltac:(lia)) as B1.
  pose proof (BS (Z.of_nat c - 2) (Z.of_nat t - 1) ltac:(lia) ltac:(lia)) as B2.
  unfold uadd, usub.
  destruct (Z.ltb_spec (beta' (Z.of_nat c) (Z.of_nat t - 1) + beta' (Z.of_nat c - 2) (Z.of_nat t - 1)) two64); [|lia].
  cbn [bind].
  (* everything in terms of Bn *)
  destruct t as [|[|s]]; [lia|lia|]. destruct c as [|[|d]]; [lia|lia|].
  replace (S (S s) - 1)%nat with (S s) in * by lia. replace (S (S s) - 2)%nat with s in * by lia.
  replace (S (S d) - 1)%nat with (S d) in * by lia.
  replace (Z.of_nat (S (S s)) - 1) with (Z.of_nat (S s)) in * by lia.
  replace (Z.of_nat (S (S s)) - 2) with (Z.of_nat s) in * by lia.
  replace (Z.of_nat (S (S d)) - 2) with (Z.of_nat d) in * by lia.
  replace (Z.of_nat (S (S d)) - 1) with (Z.of_nat (S d)) in * by lia.
  rewrite !(beta'_nat (S (S d)) (S s)) in * by lia. rewrite !(beta'_nat (S (S d)) (S (S s))) by lia. rewrite !(beta'_nat (S d)) in * by lia.
  pose proof (Bn_S (S d) (S s)) as P1. pose proof (Bn_S (S d) s) as P2. pose proof (Bn_S d (S s)) as P3.
  pose proof (Bn_S d s) as P4.
  pose proof (Bn_pos (S (S d)) s) as Q1. pose proof (Bn_pos (S d) (S s)) as Q2.
  pose proof (Bn_pos d (S (S s))) as Q3. pose proof (Bn_mono_t d (S s)) as Q4.
  pose proof (Bn_pos d (S s)) as Q5.
  assert (beta' (Z.of_nat d) (Z.of_nat (S s)) <= Bn d (S s)) as B2'
    by (destruct d; [unfold beta'; cbn [orb Z.leb Z.of_nat Z.compare]; lia|rewrite beta'_nat; lia]).
  destruct (Z.leb_spec (Z.of_nat r) (Bn (S (S d)) (S s) + beta' (Z.of_nat d) (Z.of_nat (S s)))) as [L|L].
  { exists (beta' (Z.of_nat (S (S d))) (Z.of_nat s)). split; [reflexivity|]. split; [apply beta'_nonneg|].
    assert (Z.max (beta' (Z.of_nat (S (S d))) (Z.of_nat s)) 1 = Bn (S (S d)) s) as ->.
    { destruct s; [rewrite Bn_0r; unfold beta'; rewrite Bool.orb_true_r; reflexivity|].
      rewrite beta'_nat by lia. lia. }
    cbv zeta. lia. }
  (* beta (c-3, t) *)
  assert (0 <= beta' (Z.of_nat (S (S d)) - 3) (Z.of_nat (S (S s))) <= Bn d (S (S s))
          /\ beta' (Z.of_nat (S (S d)) - 3) (Z.of_nat (S (S s)))
             + beta' (Z.of_nat d) (Z.of_nat (S s)) >= Bn d (S (S s)) - 1) as [B3 B4].
  { destruct d as [|[|e]].
    - replace (Z.of_nat 2 - 3) with (-1) by lia. unfold beta'; cbn [orb Z.leb Z.of_nat Z.compare].
      rewrite Bn_0l. lia.
    - replace (Z.of_nat 3 - 3) with (Z.of_nat 0) by lia.
      assert (beta' (Z.of_nat 0) (Z.of_nat (S (S s))) = 0) as -> by reflexivity.
      rewrite beta'_nat by lia. rewrite !Bn_1l. lia.
    - replace (Z.of_nat (S (S (S (S e)))) - 3) with (Z.of_nat (S e)) by lia.
      rewrite !beta'_nat by lia.
      pose proof (Bn_S (S e) (S s)). pose proof (Bn_pos (S e) (S (S s))). pose proof (Bn_pos (S (S e)) (S s)). lia. }
  destruct (Z.leb_spec (beta' (Z.of_nat (S (S d)) - 3) (Z.of_nat (S (S s)))) (Bn (S (S d)) (S (S s)))) as [L0|L0]; [|lia].
  cbn [bind].
  destruct (Z.leb_spec (Bn (S (S d)) (S (S s)) - beta' (Z.of_nat (S (S d)) - 3) (Z.of_nat (S (S s)))) (Z.of_nat r)) as [L'|L'].
  { exists (Bn (S (S d)) (S s)). split; [reflexivity|]. pose proof (Bn_pos (S (S d)) (S s)).
    split; [lia|]. cbv zeta. rewrite Z.max_l by lia. lia. }
  destruct (Z.leb_spec (Bn (S d) (S s)) (Z.of_nat r)); [|lia]. cbn [bind].
  destruct (Z.leb_spec (beta' (Z.of_nat d) (Z.of_nat (S s))) (Z.of_nat r - Bn (S d) (S s))); [|lia].
  eexists. split; [reflexivity|]. split; [lia|]. cbv zeta. rewrite Z.max_l by lia.
  lia.
Qed.
End Find.

(** The number [t] exists, and a good estimate does not exceed it. *)
Lemma next_checkpoint_good c r N : under est N -> N <= bound32 -> hard c r -> Z.of_nat r <= N ->
  exists t k, (2 <= t)%nat /\ Bn c (t - 1) < Z.of_nat r <= Bn c t /\
    next_checkpoint est (Z.of_nat c) (Z.of_nat r) = Ok k /\ 0 <= k /\
    let k' := Z.max k 1 in
    Bn c (t - 2) <= k' <= Bn c (t - 1) /\
    Bn (c - 1) (t - 1) <= Z.of_nat r - k' <= Bn (c - 1) t.
Proof.
  intros HU HN HH Hr. pose proof HH as [H1 H2].
  destruct (find_within c r) as (t & Ht & HB); [lia|lia|].
  assert (est (Z.of_nat c) (Z.of_nat r) <= Z.of_nat t) as HE.
  { apply HU; try lia. rewrite Nat2Z.id. apply HB. }
  destruct (next_checkpoint_ok c r t HH ltac:(lia) HE Ht HB) as (k & E & K & KK).
  exists t, k. split; [eapply t_ge2; eauto|]. auto.
Qed.
End Est.
