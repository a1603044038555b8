(** [reverse_sequence]: result, memory and number of calls, by one invariant. *)
From Coq Require Import List Arith ZArith Bool Lia.
From Verif Require Import Base AContext Checkpoint CheckSpec CheckFacts CheckRun.
Import ListNotations.

Section Loop.
Context (est : Z -> Z -> Z) {T R St : Type}.
Context (forward : T -> M St T) (reverse : T -> R -> M St R) (identity : T -> M St R).
Context (fw : T -> res T) (rv : T -> R -> res R) (id : T -> res R).
(** [J a b c s]: the state [s] is possible after a forward, b reverse and c identity calls. *)
Context (J : nat -> nat -> nat -> St -> Prop).
Context (HF : forall a b c x s, J a b c s ->
  match fw x with Ok y => exists s', forward x s = Ok (y, s') /\ J (S a) b c s' | Panic p => forward x s = Panic p end).
Context (HR : forall a b c x y s, J a b c s ->
  match rv x y with Ok z => exists s', reverse x y s = Ok (z, s') /\ J a (S b) c s' | Panic p => reverse x y s = Panic p end).
Context (HI : forall a b c x s, J a b c s ->
  match id x with Ok z => exists s', identity x s = Ok (z, s') /\ J a b (S c) s' | Panic p => identity x s = Panic p end).

Fixpoint iter (k : nat) (x : T) : res T :=
  match k with O => Ok x | S k' => y <- fw x ;; iter k' y end.
Lemma iter_add i : forall j x, iter (i + j) x = (y <- iter i x ;; iter j y).
Proof.
  induction i as [|i IH]; intros j x; cbn [iter Nat.add]; [reflexivity|].
  destruct (fw x) as [y|]; cbn [bind]; auto.
Qed.

Lemma advance_ok k : forall a b c x s, J a b c s ->
  match iter k x with
  | Ok y => exists s', advance forward k x s = Ok (y, s') /\ J (k + a) b c s'
  | Panic p => advance forward k x s = Panic p
  end.
Proof.
  induction k as [|k IH]; intros a b c x s HJ; cbn [iter advance]; [exists s; auto|].
  pose proof (HF a b c x s HJ) as H. unfold mbind. destruct (fw x) as [y|p]; cbn [bind].
  - destruct H as (s' & -> & HJ'). specialize (IH (S a) b c y s' HJ').
    replace (S k + a) with (k + S a) by lia. exact IH.
  - rewrite H. reflexivity.
Qed.

Context (x0 : T) (n : nat).
Definition it (i : nat) : res T := iter i x0.
Lemma it_add i j v : it i = Ok v -> it (i + j) = iter j v.
Proof. unfold it. rewrite iter_add. intros ->. reflexivity. Qed.

Fixpoint valid (l : cps (T := T)) : Prop :=
  match l with
  | [] => False
  | (i, v) :: l' =>
      it i = Ok v /\ match l' with [] => i = 0 | (j, _) :: _ => j < i /\ valid l' end
  end.
Lemma valid_push i v j u l : valid ((j, u) :: l) -> j < i -> it i = Ok v -> valid ((i, v) :: (j, u) :: l).
Proof. intros H1 H2 H3. split; auto. Qed.

Inductive pot (nck : nat) : cps (T := T) -> nat -> nat -> Prop :=
| pot_nil : pot nck [] 0 0
| pot_cons i v l rr a p : i < rr -> ccost est (nck - S (length l)) (rr - i) a -> pot nck l i p ->
    pot nck ((i, v) :: l) rr (a + p).

Lemma pot_top nck i v l p : pot nck ((i, v) :: l) (i + 1) p -> pot nck l i p.
Proof.
  inversion 1 as [|i0 v0 l0 rr a q HL HC HP]; subst. replace (i + 1 - i) with 1 in HC by lia.
  inversion HC; subst; [auto|lia].
Qed.

Lemma run_ok nck c : forall fuel r base ci cx l peak a b d s,
  c < fuel -> ci < r -> base + r <= n + 1 -> (c = 0 -> r - ci = 1) ->
  valid ((base + ci, cx) :: l) -> length ((base + ci, cx) :: l) + c = nck ->
  Forall (fun k => k <= nck) peak -> J a b d s ->
  (exists l' v peak' s' m,
     run_schedule est forward fuel r base (ci, c, r - ci) ci cx ((base + ci, cx) :: l) peak s
       = Ok (((base + r - 1, v) :: l', peak'), s') /\
     valid ((base + r - 1, v) :: l') /\ length ((base + r - 1, v) :: l') <= nck /\
     Forall (fun k => k <= nck) peak' /\ J (m + a) b d s' /\
     forall p, pot nck ((base + r - 1, v) :: l') (base + r) p -> pot nck ((base + ci, cx) :: l) (base + r) (m + p))
  \/ (exists p, run_schedule est forward fuel r base (ci, c, r - ci) ci cx ((base + ci, cx) :: l) peak s = Panic p /\
        (it n = Panic p \/ ~ safe est (n + 1))).
Proof.
  induction c as [|c IH]; intros fuel r base ci cx l peak a b d s Hf Hci Hb H0 HV HL HP HJ;
    (destruct fuel as [|fuel]; [lia|]);
    remember (run_schedule est forward _ _ _ _ _ _ _ _ _) as o eqn:Eo;
    cbn [run_schedule] in Eo; unfold mbind at 1, mlift at 1 in Eo.
  - rewrite sched_next_done in Eo by auto. left. specialize (H0 eq_refl).
    assert (base + r - 1 = base + ci) as -> by lia.
    exists l, cx, peak, s, 0. split; [exact Eo|]. split; [exact HV|]. split; [lia|]. auto.
  - destruct (Nat.le_gt_cases (r - ci) 1) as [L|L].
    { rewrite sched_next_done in Eo by auto. left. assert (base + r - 1 = base + ci) as -> by lia.
      exists l, cx, peak, s, 0. split; [exact Eo|]. split; [exact HV|]. split; [lia|]. auto. }
    rewrite sched_next_more in Eo by lia.
    destruct (first est (S c) (r - ci)) as [k|p] eqn:EF; cbn [bind] in Eo.
    2:{ right. exists p. split; [exact Eo|]. right. intros HS.
        destruct (first_safe est (n + 1) (S c) (r - ci) HS) as [k E]; [lia|lia|congruence]. }
    pose proof (first_range _ _ _ _ EF ltac:(lia) ltac:(lia)) as HK.
    unfold mbind at 1 in Eo. replace (ci + k - ci) with k in Eo by lia.
    pose proof (advance_ok k a b d cx s HJ) as HA.
    assert (it (base + ci + k) = iter k cx) as EIT by (apply it_add; apply HV).
    destruct (iter k cx) as [v|p] eqn:EI.
    + destruct HA as (s1 & HA & HJ1). rewrite HA in Eo.
      replace (S c - 1) with c in Eo by lia.
      specialize (IH fuel r base (ci + k) v ((base + ci, cx) :: l)
                    (length ((base + (ci + k), v) :: (base + ci, cx) :: l) :: peak) (k + a) b d s1).
      replace (r - ci - k) with (r - (ci + k)) in Eo by lia.
      destruct IH as [(l' & v' & pk & s' & m & E & V' & L' & P' & J' & POT)|(p & E & HH)].
      * lia.
      * lia.
      * lia.
      * intros ->. apply first_last in EF; lia.
      * apply valid_push; auto; [lia|]. rewrite Nat.add_assoc. exact EIT.
      * cbn [length] in *. lia.
      * constructor; auto. cbn [length] in *. lia.
      * auto.
      * left. exists l', v', pk, s', (m + k). split; [exact (eq_trans Eo E)|]. do 3 (split; [assumption|]).
        split; [replace (m + k + a) with (m + (k + a)) by lia; exact J'|].
        intros p HP'. specialize (POT p HP').
        inversion POT as [|i0 v0 l0 rr a1 q1 HL1 HC1 HP1]; subst.
        inversion HP1 as [|i2 v2 l2 rr2 a2 q2 HL2 HC2 HP2]; subst.
        replace (m + k + p) with ((k + a1 + a2) + q2) by lia.
        constructor; auto; [lia|].
        cbn [length] in *. replace (length l + S (S c) - S (length l)) with (S c) in * by lia.
        replace (S (length l) + S c - S (length l)) with (S c) in * by lia.
        replace (S (length l) + S c - S (S (length l))) with c in * by lia.
        apply cc_split; [lia| | |].
        -- rewrite <- EF. f_equal. lia.
        -- replace (base + r - (base + ci) - k) with (base + r - (base + (ci + k))) by lia. exact HC1.
        -- replace (base + (ci + k) - (base + ci)) with k in HC2 by lia. exact HC2.
      * right. exists p. split; [exact (eq_trans Eo E)|auto].
    + rewrite HA in Eo. right. exists p. split; [exact Eo|]. left.
      replace n with (base + ci + k + (n - (base + ci + k))) by lia.
      unfold it. rewrite iter_add. fold (it (base + ci + k)). rewrite EIT. reflexivity.
Qed.

(** The reference, seen from position i on. *)
Lemma fold_suffix i v : forall x k, iter i x = Ok v ->
  match reverse_fold fw rv id k v with
  | Panic p => reverse_fold fw rv id (i + k) x = Panic p
  | Ok _ => True
  end.
Proof.
  induction i as [|i IH]; intros x k; cbn [iter Nat.add reverse_fold].
  - intros [= ->]. destruct (reverse_fold fw rv id k v); auto.
  - destruct (fw x) as [y|]; cbn [bind]; [|discriminate]. intros E. specialize (IH y k E).
    destruct (reverse_fold fw rv id k v) as [|p]; auto. rewrite IH. reflexivity.
Qed.
Lemma fold_panic k p : forall x, iter k x = Panic p -> reverse_fold fw rv id k x = Panic p.
Proof.
  induction k as [|k IH]; intros x; cbn [iter reverse_fold]; [discriminate|].
  destruct (fw x) as [y|]; cbn [bind]; [|congruence]. intros E. rewrite (IH _ E). reflexivity.
Qed.

Definition ref : res R := reverse_fold fw rv id n x0.

Definition result_ok (r : nat) (result : option R) : Prop :=
  match result with
  | None => r = n + 1
  | Some acc => r <= n /\ exists v, it r = Ok v /\ reverse_fold fw rv id (n - r) v = Ok acc
  end.

Lemma loop_ok nck : 2 <= nck -> forall r cp result peak a b d s,
  r <= n + 1 -> (r = 0 -> cp = []) ->
  (0 < r -> valid cp /\ (forall i v l, cp = (i, v) :: l -> i < r) /\ length cp < nck) ->
  result_ok r result -> Forall (fun k => k <= nck) peak -> J a b d s ->
  (exists y peak' s' m, reverse_loop est forward reverse identity nck r cp result peak s = Ok ((y, peak'), s') /\
     ref = Ok y /\ Forall (fun k => k <= nck) peak' /\
     J (m + a) (b + (r - match result with None => 1 | _ => 0 end)) (d + match result with None => 1 | _ => 0 end) s' /\
     pot nck cp r m)
  \/ (exists p, reverse_loop est forward reverse identity nck r cp result peak s = Panic p /\
        (ref = Panic p \/ ~ safe est (n + 1))).
Proof.
  intros Hn. induction r as [|r IH]; intros cp result peak a b d s Hr HC0 HC HRes HP HJ.
  - left. rewrite (HC0 eq_refl). cbn [reverse_loop].
    destruct result as [acc|]; cbn [result_ok] in HRes; [|lia].
    destruct HRes as (_ & v & E & EF). injection E as <-. replace (n - 0) with n in EF by lia.
    exists acc, peak, s, 0. cbn. repeat split; auto.
    + replace (b + 0) with b by lia. replace (d + 0) with d by lia. auto.
    + constructor.
  - destruct (HC ltac:(lia)) as (HV & HI0 & HLn). destruct cp as [|[i v] l]; [contradiction|].
    specialize (HI0 i v l eq_refl).
    remember (reverse_loop est forward reverse identity nck (S r) _ _ _ _) as o eqn:Eo.
    cbn [reverse_loop hd_error unwrap] in Eo. unfold mbind at 1, mlift at 1 in Eo. cbn [unwrap] in Eo.
    unfold mbind at 1, mlift at 1 in Eo. unfold nsub at 1 in Eo. destruct (Nat.leb_spec i (S r)); [|lia].
    unfold mbind at 1, mlift at 1 in Eo. unfold nsub at 1 in Eo.
    destruct (Nat.leb_spec (length ((i, v) :: l)) nck); [|lia].
    destruct (Nat.ltb_spec 0 (S r - i)); [|lia].
    unfold mbind at 1 in Eo.
    destruct (run_ok nck (nck - length ((i, v) :: l)) (S (nck - length ((i, v) :: l))) (S r - i) i 0 v l peak a b d s)
      as [(l' & v' & pk & s' & m & E & V' & L' & P' & J' & POT)|(p & E & HH)].
    { lia. } { lia. } { lia. } { intros. lia. }
    { rewrite Nat.add_0_r. exact HV. } { cbn [length] in *. lia. } { auto. } { auto. }
    2:{ rewrite Nat.add_0_r, Nat.sub_0_r in E. unfold sched_init in Eo. rewrite E in Eo. right. exists p.
        split; [exact Eo|]. destruct HH as [HH|HH]; auto. left. apply fold_panic, HH. }
    rewrite Nat.add_0_r, Nat.sub_0_r in E. unfold sched_init in Eo. rewrite E in Eo. clear E.
    replace (i + (S r - i) - 1) with r in * by lia. replace (i + (S r - i)) with (S r) in * by lia.
    rewrite Nat.add_0_r in POT.
    cbn [hd_error unwrap tl] in Eo. unfold mbind at 1, mlift at 1 in Eo. unfold mbind at 1, mlift at 1 in Eo.
    replace (S r - 1) with r in Eo by lia. rewrite Nat.eqb_refl in Eo. cbn [assert] in Eo.
    unfold mbind at 1 in Eo.
    destruct V' as [EV V'].
    assert (r <= n) as Hrn by lia.
    assert (forall y s2 b2 d2, result_ok r (Some y) -> J (m + a) b2 d2 s2 ->
      b2 + r = b + (S r - match result with None => 1 | _ => 0 end) ->
      d2 = d + match result with None => 1 | _ => 0 end ->
      (exists y' peak' s'0 m0,
        reverse_loop est forward reverse identity nck r l' (Some y) pk s2 = Ok ((y', peak'), s'0) /\
        ref = Ok y' /\ Forall (fun k => k <= nck) peak' /\
        J (m0 + a) (b + (S r - match result with None => 1 | _ => 0 end)) (d + match result with None => 1 | _ => 0 end) s'0 /\
        pot nck ((i, v) :: l) (S r) m0)
      \/ (exists p, reverse_loop est forward reverse identity nck r l' (Some y) pk s2 = Panic p /\
          (ref = Panic p \/ ~ safe est (n + 1)))) as NEXT.
    { intros y s2 b2 d2 HRy HJ2 Eb Ed.
      destruct (IH l' (Some y) pk (m + a) b2 d2 s2) as [(y' & pk' & s3 & m3 & E3 & R3 & P3 & J3 & POT3)|HPn]; auto.
      - lia.
      - intros ->. destruct l' as [|[j u] l'']; auto. destruct V' as [V1 V2]. lia.
      - intros Hr0. destruct l' as [|[j u] l'']; [lia|]. destruct V' as [V1 V2].
        split; [exact V2|]. split; [intros ? ? ? [= <- <- <-]; exact V1|]. cbn [length] in *. lia.
      - left. exists y', pk', s3, (m + m3). split; [exact E3|]. do 2 (split; [assumption|]). split.
        + rewrite Nat.sub_0_r, Nat.add_0_r in J3. rewrite Eb in J3. rewrite Ed in J3.
          replace (m + m3 + a) with (m3 + (m + a)) by lia. exact J3.
        + apply POT. replace m3 with (0 + m3) by lia. constructor; [lia| |exact POT3].
          replace (S r - r) with 1 by lia. constructor. }
    destruct result as [acc|]; cbn [result_ok] in HRes.
    + destruct HRes as (HSr & v1 & EV1 & EF1).
      pose proof (HR (m + a) b d v' acc s' J') as HC1.
      assert (fw v' = Ok v1) as EF.
      { replace (S r) with (r + 1) in EV1 by lia. rewrite (it_add r 1 v' EV) in EV1. cbn [iter] in EV1.
        destruct (fw v'); [exact EV1|discriminate]. }
      assert (reverse_fold fw rv id (n - r) v' = rv v' acc) as EQ.
      { replace (n - r) with (S (n - S r)) by lia. cbn [reverse_fold]. rewrite EF. cbn [bind].
        rewrite EF1. reflexivity. }
      destruct (rv v' acc) as [y|p] eqn:ER.
      * destruct HC1 as (s2 & HC1 & J2). rewrite HC1 in Eo. rewrite Eo. apply (NEXT y s2 (S b) d); [|exact J2|lia|lia].
        split; [auto|]. exists v'. auto.
      * rewrite HC1 in Eo. right. exists p. split; [exact Eo|]. left. unfold ref.
        pose proof (fold_suffix r v' x0 (n - r) EV) as HS. rewrite EQ in HS.
        replace (r + (n - r)) with n in HS by lia. exact HS.
    + assert (r = n) as -> by lia.
      pose proof (HI (m + a) b d v' s' J') as HC1.
      destruct (id v') as [y|p] eqn:ER.
      * destruct HC1 as (s2 & HC1 & J2). rewrite HC1 in Eo. rewrite Eo. apply (NEXT y s2 b (S d)); [|exact J2|lia|lia].
        split; [auto|]. exists v'. split; auto. rewrite Nat.sub_diag. exact ER.
      * rewrite HC1 in Eo. right. exists p. split; [exact Eo|]. left. unfold ref.
        pose proof (fold_suffix n v' x0 0 EV) as HS. cbn [reverse_fold] in HS. rewrite ER, Nat.add_0_r in HS.
        exact HS.
Qed.

Theorem reverse_sequence_all nck s : 2 <= nck -> (Z.of_nat n + 1 < two64)%Z -> J 0 0 0 s ->
  (exists y peak s' m, reverse_sequence_log est forward reverse identity x0 n nck s = Ok ((y, peak), s') /\
     ref = Ok y /\ Forall (fun k => k <= nck) peak /\ J m n 1 s' /\ ccost est (nck - 1) (n + 1) m)
  \/ (exists p, reverse_sequence_log est forward reverse identity x0 n nck s = Panic p /\
        (ref = Panic p \/ ~ safe est (n + 1))).
Proof.
  intros Hc Hn HJ. unfold reverse_sequence_log, mbind, mlift.
  destruct (Nat.leb_spec 2 nck); [|lia]. cbn [assert].
  destruct (Z.ltb_spec (Z.of_nat n + 1) two64); [|lia].
  destruct (loop_ok nck Hc (n + 1) [(0, x0)] None [1] 0 0 0 s) as [(y & pk & s' & m & E & R1 & P1 & J1 & POT)|HC1]; auto.
  - lia.
  - intros _. split; [split; auto; reflexivity|]. split; [intros ? ? ? [= <- <- <-]; lia|]. cbn. lia.
  - cbn. lia.
  - constructor; auto. lia.
  - left. exists y, pk, s', m. split; [exact E|]. do 2 (split; [assumption|]).
    rewrite Nat.add_0_r in J1. replace (0 + (n + 1 - 1)) with n in J1 by lia. split; [exact J1|].
    inversion POT as [|i0 v0 l0 rr a q HL HC HP]; subst. inversion HP; subst.
    cbn [length] in HC. rewrite Nat.add_0_r. replace (n + 1) with (n + 1 - 0) by lia. exact HC.
Qed.
End Loop.
