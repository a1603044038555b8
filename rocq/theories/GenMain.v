(** The generalized Jacobian drivers: functions, sign selection and chains. *)
From Coq Require Import Reals Lra List Arith ZArith NArith Bool Lia.
From Verif Require Import Base Float Operation Tape AContext Methods Function Spec TapeFacts
  SweepFacts RealInst Param Instances FunctionFacts ReplayFacts Replay2 ApiFacts3 DerivSpec DerivFacts LinearFacts DerivFacts2
  Matrix MatrixFacts Jacobian JacobianFacts AbsNormal AbsNormalFacts AnfSpec RVec AnfFacts AnfFacts2
  ChainFacts Checkpoint CheckSpec CheckMain GenJac GenSpec GenFacts.
Import ListNotations.
Local Open Scope R_scope.

(** ** One function *)
Theorem gj_correct red (f : func R) x dx bits next w t w' N :
  rayon red -> fn_n f = Ok (length x) -> fn_tape Rops f x w = Ok (t, w') -> NoDup (t_deps t) -> abs_once t ->
  anf_of t N -> length dx = length x -> next_ok (num_deps t) next ->
  exists G dz sigma, generalized_jacobian Rops red f x dx bits next w = Ok (G, w') /\
    switching N dx dz /\ selected bits dz sigma /\
    g_mult G = (zeros dz + next_mult next)%nat /\
    shape (g_hom G) (next_rows (num_deps t) next) (length x) /\
    length (g_inh G) = next_rows (num_deps t) next /\
    forall dx' dy', length dx' = length x -> compatible N sigma dx' ->
      tape_forward Rops t dx' = Ok dy' -> vadd (mulv (g_hom G) dx') (g_inh G) = next_map next dy'.
Proof.
  intros HR En HT ND NA HN Ldx Hnx.
  destruct (fn_tape_wf Rops _ _ _ _ _ HT) as ([W _] & _ & Nx).
  destruct (gj_tape_correct red t N dx bits next HR W ND) as (G & dz & sg & E & H); auto.
  { intros args EA. eapply abs_args_nodup; eauto. }
  { congruence. }
  rewrite Nx in H. exists G, dz, sg. split; [|exact H].
  unfold generalized_jacobian, mbind, mlift. rewrite En, Nat.eqb_refl. cbn [assert]. rewrite HT, E. reflexivity.
Qed.

(** The direction itself is compatible with the selected signs. *)
Lemma compatible_dx N bits dx dz sg : switching N dx dz -> selected bits dz sg -> compatible N sg dx.
Proof.
  intros SW HS. exists dz. split; auto. intros i Hi.
  pose proof (selected_abs bits dz sg HS) as E.
  assert (nth i (vmul sg dz) 0 = nth i (vabs dz) 0) as En by congruence.
  rewrite nth_vmul, nth_vabs in En by apply HS. auto.
Qed.

(** ** Every combination of signs can be selected *)
Fixpoint of_bits (l : list bool) : N :=
  match l with
  | [] => 0%N
  | b :: l' => ((if b then 1 else 0) + 2 * of_bits l')%N
  end.
Lemma of_bits_spec l : forall i, N.testbit (of_bits l) (N.of_nat i) = nth i l false.
Proof.
  induction l as [|b l IH]; intros i.
  - cbn. destruct i; auto.
  - cbn [of_bits]. destruct i as [|i].
    + destruct b; [rewrite N.add_comm; apply N.testbit_odd_0|apply N.testbit_even_0].
    + rewrite Nat2N.inj_succ. cbn [nth]. rewrite <- IH. destruct b.
      * rewrite N.add_comm. apply N.testbit_odd_succ. lia.
      * rewrite N.add_0_l. apply N.testbit_even_succ. lia.
Qed.
Lemma of_bits_bound l : (of_bits l < 2 ^ N.of_nat (length l))%N.
Proof.
  induction l as [|b l IH]; [cbn; lia|]. cbn [of_bits length]. rewrite Nat2N.inj_succ, N.pow_succ_r'.
  destruct b; lia.
Qed.

Theorem bytes_exist (bs : list bool) : exists bytes, Forall (fun b => (b < 256)%N) bytes /\
  forall k, (k < length bs)%nat -> bit bytes k = nth k bs false.
Proof.
  set (f := fun j => of_bits (firstn 8 (skipn (8 * j) bs))).
  exists (map f (seq 0 (length bs))). split.
  - apply Forall_forall. intros b Hb. apply in_map_iff in Hb as (j & <- & _). unfold f.
    eapply N.lt_le_trans; [apply of_bits_bound|]. change 256%N with (2 ^ 8)%N.
    apply N.pow_le_mono_r; [lia|]. pose proof (firstn_le_length 8 (skipn (8 * j) bs)). lia.
  - intros k Hk. unfold bit. 
    assert (k / 8 < length bs)%nat as Hq by (apply Nat.div_lt_upper_bound; lia).
    rewrite nth_error_map, nth_error_nth' with (d := 0%nat) by (rewrite seq_length; auto).
    rewrite seq_nth by auto. cbn [option_map Nat.add]. unfold f. rewrite of_bits_spec.
    pose proof (Nat.mod_upper_bound k 8 ltac:(lia)) as Hm.
    pose proof (Nat.div_mod k 8 ltac:(lia)) as Hd.
    rewrite <- (firstn_skipn (8 * (k / 8)) bs) at 2.
    assert (length (firstn (8 * (k / 8)) bs) = (8 * (k / 8)))%nat as L1 by (rewrite firstn_length; lia).
    rewrite app_nth2 by lia. rewrite L1.
    replace (k - 8 * (k / 8))%nat with (k mod 8)%nat by lia.
    rewrite <- (firstn_skipn 8 (skipn (8 * (k / 8)) bs)) at 2.
    destruct (Nat.lt_ge_cases (k mod 8) (length (firstn 8 (skipn (8 * (k / 8)) bs)))) as [H|H].
    + rewrite app_nth1; auto.
    + rewrite firstn_length, skipn_length in H. exfalso. lia.
Qed.

Lemma zeros_firstn dz i j : (i < j)%nat -> (j <= length dz)%nat -> nth i dz 0 = 0 ->
  (zeros (firstn i dz) < zeros (firstn j dz))%nat.
Proof.
  revert i j. induction dz as [|d dz IH]; intros i j Hij Hj Hz; [cbn in Hj; lia|].
  destruct j as [|j]; [lia|]. cbn in Hj. destruct i as [|i]; cbn [firstn nth] in *.
  - rewrite zeros_cons. unfold is_zero. destruct (Req_EM_T d 0); [|contradiction]. unfold zeros at 1. cbn. lia.
  - rewrite !zeros_cons. specialize (IH i j ltac:(lia) ltac:(lia) Hz). lia.
Qed.

(** the sign wanted at the k-th zero *)
Fixpoint wanted (dz sg : list R) : list bool :=
  match dz, sg with
  | d :: dz', s :: sg' => if is_zero d then (if Req_EM_T s 1 then true else false) :: wanted dz' sg' else wanted dz' sg'
  | _, _ => []
  end.
Lemma wanted_nth dz : forall sg i, length sg = length dz -> (i < length dz)%nat -> nth i dz 0 = 0 ->
  (zeros (firstn i dz) < length (wanted dz sg))%nat /\
  nth (zeros (firstn i dz)) (wanted dz sg) false = if Req_EM_T (nth i sg 0) 1 then true else false.
Proof.
  induction dz as [|d dz IH]; intros [|s sg] i L Hi Hz; try (cbn in *; lia).
  cbn in L, Hi. cbn [wanted]. destruct i as [|i]; cbn [firstn nth] in *.
  - unfold is_zero. destruct (Req_EM_T d 0); [|contradiction]. cbn. split; [lia|]. auto.
  - rewrite zeros_cons. destruct (IH sg i ltac:(lia) ltac:(lia) Hz) as [A B].
    destruct (is_zero d); cbn [Nat.add length nth]; split; auto; lia.
Qed.

Theorem every_selection dz sigma : length sigma = length dz ->
  (forall i, (i < length dz)%nat -> (nth i sigma 0 = 1 \/ nth i sigma 0 = -1) /\
     nth i sigma 0 * nth i dz 0 = Rabs (nth i dz 0)) ->
  exists bytes, Forall (fun b => (b < 256)%N) bytes /\ selected bytes dz sigma.
Proof.
  intros L H. destruct (bytes_exist (wanted dz sigma)) as (bytes & HB & Hbit).
  exists bytes. split; auto. split; auto. intros i Hi. destruct (H i Hi) as [Hs Ha]. split; [|split]; intros Hd.
  - rewrite Rabs_right in Ha by lra. destruct Hs as [->| E]; auto. rewrite E in Ha. lra.
  - rewrite Rabs_left in Ha by lra. destruct Hs as [E| ->]; auto. rewrite E in Ha. lra.
  - destruct (wanted_nth dz sigma i L Hi Hd) as [A B]. rewrite Hbit by auto. rewrite B.
    destruct (Req_EM_T (nth i sigma 0) 1); auto. destruct Hs; auto. contradiction.
Qed.

Lemma selected_unique bytes dz s1 s2 : selected bytes dz s1 -> selected bytes dz s2 -> s1 = s2.
Proof.
  intros [L1 H1] [L2 H2]. apply nth_ext0; [congruence|]. intros i Hi. rewrite L1 in Hi.
  destruct (H1 i Hi) as (A1 & B1 & C1), (H2 i Hi) as (A2 & B2 & C2).
  destruct (Rtotal_order (nth i dz 0) 0) as [A|[A|A]]; [rewrite B1, B2|rewrite C1, C2|rewrite A1, A2]; auto.
Qed.

(** ** Chains *)
Section Chain.
Context (red : list (list (nat * list R)) -> list (nat * list R)).

Lemma eval_world f (x : list (R * R)) w :
  match eval Rops f (map (fun p => af_new (fst p) (snd p)) x) world0 with
  | Ok (y, _) => eval Rops f (map (fun p => af_new (fst p) (snd p)) x) w = Ok (y, w)
  | Panic p => eval Rops f (map (fun p => af_new (fst p) (snd p)) x) w = Panic p
  end.
Proof. rewrite !eval_detached. destruct (d_eval Rops f x); cbn; auto. Qed.

Lemma gj_world f x dx bits next w :
  match generalized_jacobian Rops red f x dx bits next world0 with
  | Ok (G, _) => exists w', generalized_jacobian Rops red f x dx bits next w = Ok (G, w')
  | Panic p => generalized_jacobian Rops red f x dx bits next w = Panic p
  end.
Proof.
  unfold generalized_jacobian, mbind, mlift. destruct (fn_n f); auto.
  destruct (assert _); auto. pose proof (fn_tape_world Rops f x world0 w) as H.
  destruct (fn_tape Rops f x world0) as [[t w0]|p]; [|rewrite H; auto].
  destruct H as [w2 ->]. destruct (generalized_jacobian_tape Rops red t dx bits next); eauto.
Qed.

Definition c_fw (c : func R) (st : nat * list R * list R) : res (nat * list R * list R) :=
  let '(i, x, dx) := st in
  f <- chain_nth c i ;;
  yw <- eval Rops f (map (fun p => af_new (fst p) (snd p)) (combine x dx)) world0 ;;
  Ok ((i + 1)%nat, map af_v (fst yw), map af_dv (fst yw)).
Definition c_rv (c : func R) (st : nat * list R * list R) (g : gjac R) : res (gjac R) :=
  let '(i, x, dx) := st in
  f <- chain_nth c i ;;
  gw <- generalized_jacobian Rops red f x dx [0%N] (Some g) world0 ;; Ok (fst gw).
Definition c_id (st : nat * list R * list R) : res (gjac R) :=
  let '(_, x, _) := st in Ok (mkG (m_id Rops (length x)) (repeat 0 (length x)) 0).

Lemma acts_fw c : acts (fun _ => True) (gj_forward Rops c) (c_fw c).
Proof.
  intros [[i x] dx] w _. unfold gj_forward, c_fw, mbind, mlift. destruct (chain_nth c i) as [f|]; cbn [bind]; auto.
  pose proof (eval_world f (combine x dx) w) as H. destruct (eval Rops f _ world0) as [[y w1]|p]; rewrite H; cbn; auto.
  exists w. split; [reflexivity|auto].
Qed.
Lemma acts_rv c : acts2 (fun _ => True) (gj_reverse Rops red c) (c_rv c).
Proof.
  intros [[[i x] dx] g] w _. cbn [fst snd]. unfold gj_reverse, c_rv, mbind, mlift.
  destruct (chain_nth c i) as [f|]; cbn [bind]; auto.
  pose proof (gj_world f x dx [0%N] (Some g) w) as H.
  destruct (generalized_jacobian Rops red f x dx _ _ world0) as [[G w1]|p]; cbn; auto.
  destruct H as [w' ->]. eauto.
Qed.
Lemma acts_id : acts (fun _ => True) (gj_identity Rops) c_id.
Proof. intros [[i x] dx] w _. exists w. split; [reflexivity|auto]. Qed.

Lemma fold_compose c : forall n i x dx, (i + n = chain_len c)%nat ->
  reverse_fold (c_fw c) (c_rv c) c_id n (i, x, dx) = compose red (skipn i (fn_iter c)) x dx.
Proof.
  unfold chain_len. induction n as [|n IH]; intros i x dx E.
  - rewrite skipn_all2 by lia. reflexivity.
  - destruct (nth_error (fn_iter c) i) as [f|] eqn:Ef; [|apply nth_error_None in Ef; lia].
    assert (skipn i (fn_iter c) = f :: skipn (S i) (fn_iter c)) as ->.
    { clear - Ef. revert i Ef. induction (fn_iter c) as [|g l IHl]; intros [|i] Ef; cbn in *; try discriminate.
      - congruence.
      - apply IHl; auto. }
    cbn [reverse_fold compose]. unfold c_fw at 1. unfold chain_nth. rewrite Ef. cbn [unwrap bind].
    destruct (eval Rops f _ world0) as [[y w]|p]; cbn [bind]; auto.
    rewrite IH by lia. rewrite Nat.add_1_r. cbn [fst]. destruct (compose _ _ _ _) as [g|p]; cbn [bind]; auto.
    unfold c_rv, chain_nth. rewrite Ef. reflexivity.
Qed.

Theorem gj_chain_compose est c x dx k w :
  accurate est (Z.of_nat (chain_len c) + 1) -> (Z.of_nat (chain_len c) + 1 <= 2 ^ 32)%Z -> (2 <= k)%nat ->
  match compose red (fn_iter c) x dx with
  | Ok G => exists w', generalized_jacobian_chain Rops red est c x dx (Some k) w = Ok (G, w')
  | Panic p => generalized_jacobian_chain Rops red est c x dx (Some k) w = Panic p
  end.
Proof.
  intros A B Hk. unfold generalized_jacobian_chain.
  pose proof (reverse_sequence_spec est _ _ _ _ _ _ _ (acts_fw c) (acts_rv c) acts_id (chain_len c) k A B Hk
     (0%nat, x, dx) w I) as H.
  rewrite fold_compose in H by auto. cbn [skipn] in H.
  destruct (compose red (fn_iter c) x dx); auto. destruct H as (w' & H & _). eauto.
Qed.

(** whatever the estimate *)
Theorem gj_chain_any est c x dx k w G w' :
  generalized_jacobian_chain Rops red est c x dx k w = Ok (G, w') -> compose red (fn_iter c) x dx = Ok G.
Proof.
  intros E. unfold generalized_jacobian_chain in E.
  pose proof (reverse_sequence_any est _ _ _ _ _ _ _ (acts_fw c) (acts_rv c) acts_id _ _ _ _ _ _ I E) as [H _].
  rewrite fold_compose in H by auto. auto.
Qed.

Theorem compose_correct (fs : list (func R)) : rayon red -> forall x dx, tame fs x -> length dx = length x ->
  exists G ys, compose red fs x dx = Ok G /\
    (forall w, pipe (eval Rops) fs (pairs x dx) w = Ok (ys, w)) /\
    shape (g_hom G) (length ys) (length x) /\ length (g_inh G) = length ys /\
    vadd (mulv (g_hom G) dx) (g_inh G) = map af_dv ys.
Proof.
  intros HR. induction fs as [|f fs IH]; intros x dx HT L.
  - exists (mkG (m_id Rops (length x)) (repeat 0 (length x)) 0), (pairs x dx).
    assert (length (pairs x dx) = length x) as Lp by (unfold pairs; rewrite map_length, combine_length; lia).
    split; [reflexivity|]. split; [reflexivity|]. cbn [g_hom g_inh]. rewrite Lp.
    split; [apply shape_id|]. split; [apply repeat_length|].
    rewrite mulv_id by auto.
    assert (map af_dv (pairs x dx) = dx) as ->.
    { clear - L. unfold pairs. rewrite map_map. cbn. revert dx L. induction x as [|a x IH]; intros [|b dx] L; try discriminate; auto.
      cbn. f_equal. apply IH. cbn in L. lia. }
    apply nth_ext0; [rewrite vadd_len; auto; rewrite repeat_length; auto|].
    intros i Hi. rewrite nth_vadd by (rewrite repeat_length; auto). rewrite nth_repeat. lra.
  - destruct HT as (En & t & w0 & y & ET & ND & NA & Ey & HT).
    destruct (forward_is_tapeless Rops f x world0 t w0 dx ET L (R_const_tangents f x dx)) as (outs & Eo & Ef).
    assert (map af_v outs = y) as Ev.
    { destruct (fn_tape_fresh Rops _ _ _ _ _ ET) as (_ & (y' & Hv & Hy' & _) & _).
      assert (y' = y) as -> by congruence.
      pose proof (Eo world0) as E. unfold pairs in E. rewrite eval_detached in E.
      pose proof (d_eval_values Rops f (combine x dx)) as Ed. rewrite map_fst_combine in Ed by auto. rewrite Hv in Ed.
      destruct (d_eval Rops f (combine x dx)) as [yy|]; cbn in E, Ed; [|discriminate].
      injection E as <-. injection Ed as Ed. rewrite map_map. transitivity (map fst yy); [|congruence]. apply map_ext. auto. }
    assert (length outs = length y) as Lo by (rewrite <- Ev, map_length; auto).
    destruct (IH y (map af_dv outs) HT) as (G2 & ys & E2 & Ep & S2 & L2 & H2); [rewrite map_length; auto|].
    assert (num_deps t = length outs) as Nd.
    { apply tape_forward_length in Ef. rewrite map_length in Ef. auto. }
    destruct (fn_tape_wf Rops _ _ _ _ _ ET) as ([W _] & _ & Nx).
    destruct (anf_exists t W) as [N HN].
    assert (m_rows (g_hom G2) = length ys) as R2 by apply S2.
    destruct (gj_correct red f x dx [0%N] (Some G2) world0 t w0 N HR En ET ND NA HN L)
      as (G & dz & sg & EG & SW & HS & _ & SG & LG & HG).
    { cbn. rewrite R2, Nd, Lo. split; auto. }
    exists G, ys. cbn [compose]. fold (pairs x dx). rewrite Eo. cbn [bind fst]. rewrite Ev, E2. cbn [bind].
    rewrite EG. cbn [bind fst]. split; [reflexivity|]. cbn [next_rows] in SG, LG. rewrite R2 in SG, LG.
    split.
    { intros w. cbn [pipe]. unfold mbind. rewrite Eo.
      assert (outs = pairs y (map af_dv outs)) as ->; auto.
      pose proof (Eo world0) as E. unfold pairs in E. rewrite eval_detached in E.
      destruct (d_eval Rops f (combine x dx)) as [yy|]; cbn in E; [|discriminate]. injection E as <-.
      subst y. unfold pairs. rewrite !map_map. cbn. clear. induction yy as [|[u v] l IHl]; auto. cbn. congruence. }
    split; [auto|]. split; [auto|].
    rewrite (HG dx (map af_dv outs) L (compatible_dx N _ dx dz sg SW HS) Ef). cbn [next_map]. auto.
Qed.
End Chain.

Theorem gj_chain_correct red c x dx : rayon red -> tame (fn_iter c) x -> length dx = length x ->
  exists G ys, compose red (fn_iter c) x dx = Ok G /\
    (forall w, eval Rops c (pairs x dx) w = Ok (ys, w)) /\
    shape (g_hom G) (length ys) (length x) /\ length (g_inh G) = length ys /\
    vadd (mulv (g_hom G) dx) (g_inh G) = map af_dv ys.
Proof.
  intros HR HT L. destruct (compose_correct red (fn_iter c) HR x dx HT L) as (G & ys & E & Ep & H).
  exists G, ys. split; [auto|]. split; [|auto]. intros w. unfold eval. rewrite eval_is_pipe. apply Ep.
Qed.

Theorem gj_chain_one {F} (Fo : Fops F) red est (c : func F) x dx w : chain_len c = 1%nat ->
  generalized_jacobian_chain Fo red est c x dx None w = Panic PAssert.
Proof.
  intros E. unfold generalized_jacobian_chain. rewrite E, log_result, log_few by lia. reflexivity.
Qed.
Theorem gj_chain_default {F} (Fo : Fops F) red est (c : func F) x dx w :
  generalized_jacobian_chain Fo red est c x dx None w =
  generalized_jacobian_chain Fo red est c x dx (Some (chain_len c)) w.
Proof. reflexivity. Qed.

(** ** Without zero switching values the result holds in a neighbourhood *)
Lemma dot_bound u : forall w e, 0 <= e -> (forall k, Rabs (nth k w 0) <= e) -> Rabs (dot u w) <= nrm1 u * e.
Proof.
  induction u as [|a u IH]; intros w e He H.
  - cbn. rewrite Rabs_R0. lra.
  - destruct w as [|b w].
    { cbn [dot]. rewrite Rabs_R0. apply Rmult_le_pos; auto. apply nrm1_pos. }
    pose proof (H 0%nat) as H0. cbn in H0. specialize (IH w e He (fun k => H (S k))).
    cbn [dot]. eapply Rle_trans; [apply Rabs_triang|]. rewrite Rabs_mult.
    assert (Rabs a * Rabs b <= Rabs a * e) by (apply Rmult_le_compat_l; auto; apply Rabs_pos).
    cbn [nrm1]. lra.
Qed.

Lemma switching_near (t : tape R) (N : anf) dx zh : wf_tape t -> anf_of t N -> length dx = num_indeps t ->
  switching N dx zh -> forall b e, 0 < e -> exists d, 0 < d /\
    forall dx' zh', length dx' = num_indeps t -> nrm1 (vsub dx' dx) < d -> switching N dx' zh' ->
    forall i, (i < b)%nat -> Rabs (nth i zh' 0 - nth i zh 0) < e.
Proof.
  intros W HN Ldx SW. pose proof (anf_lower t N W HN) as Low.
  pose proof HN as [(a & z & EN & EZ & Rz & Rl & Rj & Ry & Ea & Eb)].
  destruct (an_sizes t a W EN) as (N1 & N2 & N3 & N4 & N5 & N6 & N7 & N8).
  assert (shape (f_zmat N) (num_abs t) (num_indeps t)) as SZ by (rewrite <- N1, <- N2; apply Rz).
  assert (shape (f_lmat N) (num_abs t) (num_abs t)) as SL by (rewrite <- N3 at 2; rewrite <- N4 at 1; apply Rl).
  destruct (an_z_ok t a W EN) as (z' & EZ' & Lz). assert (z' = z) as -> by congruence.
  assert (length (f_a N) = num_abs t) as Lfa.
  { rewrite Ea, vsub_len; auto. rewrite (mulv_len _ _ _ _ SL). auto. }
  set (s := num_abs t) in *. destruct SW as [Lzh Ezh]. rewrite Lfa in Lzh.
  induction b as [|b IH]; intros e He.
  { exists 1. split; [lra|]. intros. lia. }
  destruct (Nat.lt_ge_cases b s) as [Hb|Hb].
  2: { destruct (IH e He) as (d & Hd & H). exists d. split; auto. intros dx' zh' L' Hn SW' i Hi.
       destruct (Nat.eq_dec i b) as [->|Ne]; [|apply (H dx' zh'); auto; lia].
       destruct SW' as [Lz' _]. rewrite !nth_overflow by lia. rewrite Rminus_diag_eq, Rabs_R0 by auto. auto. }
  set (CZ := nrm1 (row (f_zmat N) b)). set (CL := nrm1 (row (f_lmat N) b)).
  assert (0 <= CZ /\ 0 <= CL) as [HZ HL] by (split; apply nrm1_pos).
  set (e1 := Rmin e (e / (2 * (CL + 1)))).
  assert (0 < e1) as He1.
  { apply Rmin_pos; auto. apply Rdiv_lt_0_compat; lra. }
  destruct (IH e1 He1) as (d1 & Hd1 & H1).
  set (d2 := e / (2 * (CZ + 1))). assert (0 < d2) as Hd2 by (apply Rdiv_lt_0_compat; lra).
  exists (Rmin d1 d2). split; [apply Rmin_pos; auto|]. intros dx' zh' L' Hn SW' i Hi.
  assert (nrm1 (vsub dx' dx) < d1) as Hn1 by (eapply Rlt_le_trans; [apply Hn|apply Rmin_l]).
  assert (nrm1 (vsub dx' dx) < d2) as Hn2 by (eapply Rlt_le_trans; [apply Hn|apply Rmin_r]).
  specialize (H1 dx' zh' L' Hn1 SW'). destruct SW' as [Lz' Ez']. rewrite Lfa in Lz'.
  destruct (Nat.eq_dec i b) as [->|Ne].
  2: { eapply Rlt_le_trans; [apply H1; lia|apply Rmin_l]. }
  rewrite Ez', Ezh. rewrite !nth_vadd; try (rewrite ?vadd_len; rewrite ?(mulv_len _ _ _ _ SZ), ?(mulv_len _ _ _ _ SL); auto; fail).
  rewrite !nth_mulv.
  replace (nth b (f_a N) 0 + dot (row (f_zmat N) b) dx' + dot (row (f_lmat N) b) (vabs zh') -
     (nth b (f_a N) 0 + dot (row (f_zmat N) b) dx + dot (row (f_lmat N) b) (vabs zh))) with
    (dot (row (f_zmat N) b) (vsub dx' dx) + dot (row (f_lmat N) b) (vsub (vabs zh') (vabs zh))).
  2: { rewrite !dot_vsub_r by (rewrite ?vabs_len; congruence). ring. }
  set (w := vsub (vabs zh') (vabs zh)). assert (length w = s) as Lw by (unfold w; rewrite vsub_len; rewrite !vabs_len; congruence).
  set (w0 := firstn b w ++ repeat 0 (s - b)).
  assert (length w0 = s) as Lw0 by (unfold w0; rewrite app_length, firstn_length, repeat_length; lia).
  rewrite (dot_prefix (row (f_lmat N) b) w w0 b); [|congruence| |].
  2: { intros j Hj. rewrite row_ent. destruct (Nat.lt_ge_cases j s).
       - apply Low; auto. destruct SL as [_ [_ ->]]. auto.
       - unfold ent. fold (row (f_lmat N) b). apply nth_overflow. rewrite (row_len _ s s); auto. }
  2: { intros j Hj. unfold w0. rewrite app_nth1 by (rewrite firstn_length; lia).
       rewrite <- (firstn_skipn b w) at 1. rewrite app_nth1 by (rewrite firstn_length; lia). auto. }
  assert (Rabs (dot (row (f_zmat N) b) (vsub dx' dx)) <= CZ * d2) as B1.
  { apply (dot_bound _ _ d2); [lra|].
    intros k. pose proof (nrm1_nth k (vsub dx' dx)). lra. }
  assert (Rabs (dot (row (f_lmat N) b) w0) <= CL * e1) as B2.
  { apply (dot_bound _ _ e1); [lra|].
    intros k. unfold w0. destruct (Nat.lt_ge_cases k b) as [Hk|Hk].
    - rewrite app_nth1 by (rewrite firstn_length; lia).
      assert (nth k (firstn b w) 0 = nth k w 0) as ->.
      { rewrite <- (firstn_skipn b w) at 2. rewrite app_nth1 by (rewrite firstn_length; lia). auto. }
      unfold w. rewrite nth_vsub, !nth_vabs by (rewrite !vabs_len; congruence).
      eapply Rle_trans; [apply Rabs_triang_inv2|]. apply Rlt_le. apply H1. auto.
    - rewrite app_nth2 by (rewrite firstn_length; lia). rewrite nth_repeat, Rabs_R0. lra. }
  eapply Rle_lt_trans; [apply Rabs_triang|].
  assert (CZ * d2 < e / 2).
  { unfold d2. apply (Rmult_lt_reg_r (2 * (CZ + 1))); [lra|]. field_simplify; try lra; nra. }
  assert (CL * e1 < e / 2).
  { apply Rle_lt_trans with (CL * (e / (2 * (CL + 1)))).
    - apply Rmult_le_compat_l; auto. apply Rmin_r.
    - apply (Rmult_lt_reg_r (2 * (CL + 1))); [lra|]. field_simplify; try lra; nra. }
  lra.
Qed.

Lemma zeros_none dz : zeros dz = 0%nat -> forall i, (i < length dz)%nat -> nth i dz 0 <> 0.
Proof.
  induction dz as [|d dz IH]; intros Z i Hi; [cbn in Hi; lia|]. rewrite zeros_cons in Z.
  unfold is_zero in Z. destruct (Req_EM_T d 0); [discriminate|]. destruct i; cbn in *; auto. apply IH; auto. lia.
Qed.

(** a positive lower bound on finitely many nonzero numbers *)
Lemma min_abs (dz : list R) : (forall i, (i < length dz)%nat -> nth i dz 0 <> 0) ->
  exists e, 0 < e /\ forall i, (i < length dz)%nat -> e <= Rabs (nth i dz 0).
Proof.
  induction dz as [|d dz IH]; intros H.
  - exists 1. split; [lra|]. cbn. lia.
  - destruct IH as (e & He & Hi); [intros i Hi; apply (H (S i)); cbn; lia|].
    exists (Rmin e (Rabs d)). split.
    + apply Rmin_pos; auto. apply Rabs_pos_lt. apply (H 0%nat). cbn. lia.
    + intros [|i] Hl; cbn.
      * apply Rmin_r.
      * eapply Rle_trans; [apply Rmin_l|]. apply Hi. cbn in Hl. lia.
Qed.

Theorem compatible_near (t : tape R) (N : anf) dx dz bits sg : wf_tape t -> anf_of t N -> length dx = num_indeps t ->
  switching N dx dz -> zeros dz = 0%nat -> selected bits dz sg ->
  exists d, 0 < d /\ forall dx', length dx' = num_indeps t -> nrm1 (vsub dx' dx) < d -> compatible N sg dx'.
Proof.
  intros W HN L SW Z0 HS. pose proof (zeros_none dz Z0) as NZ. destruct (min_abs dz NZ) as (e & He & Hm).
  destruct (switching_near t N dx dz W HN L SW (length dz) e He) as (d & Hd & H).
  exists d. split; auto. intros dx' L' Hn.
  destruct (anf_correct t N dx' W HN L') as (zh & SW' & _). exists zh. split; auto. intros i Hi.
  assert (length zh = length dz) as Ll by (destruct SW as [-> _], SW' as [-> _]; auto).
  rewrite Ll in Hi. specialize (H dx' zh L' Hn SW' i Hi). specialize (Hm i Hi). specialize (NZ i Hi).
  destruct HS as [_ HS]. destruct (HS i Hi) as (H1 & H2 & _).
  destruct (Rtotal_order (nth i dz 0) 0) as [A|[A|A]]; [|contradiction|].
  - rewrite H2 by auto. rewrite (Rabs_left (nth i dz 0)) in Hm by auto. apply Rabs_def2 in H.
    rewrite (Rabs_left (nth i zh 0)) by lra. ring.
  - rewrite H1 by auto. rewrite (Rabs_right (nth i dz 0)) in Hm by lra. apply Rabs_def2 in H.
    rewrite (Rabs_right (nth i zh 0)) by lra. ring.
Qed.

Theorem gj_near red (f : func R) x dx bits next w t w' :
  rayon red -> fn_n f = Ok (length x) -> fn_tape Rops f x w = Ok (t, w') -> NoDup (t_deps t) -> abs_once t ->
  length dx = length x -> next_ok (num_deps t) next ->
  exists G, generalized_jacobian Rops red f x dx bits next w = Ok (G, w') /\
    (g_mult G = next_mult next -> exists d, 0 < d /\ forall dx' dy', length dx' = length x ->
      nrm1 (vsub dx' dx) < d -> tape_forward Rops t dx' = Ok dy' ->
      vadd (mulv (g_hom G) dx') (g_inh G) = next_map next dy').
Proof.
  intros HR En HT ND NA L Hnx.
  destruct (fn_tape_wf Rops _ _ _ _ _ HT) as ([W _] & _ & Nx). destruct (anf_exists t W) as [N HN].
  destruct (gj_correct red f x dx bits next w t w' N HR En HT ND NA HN L Hnx)
    as (G & dz & sg & E & SW & HS & Hm & SG & LG & HG).
  exists G. split; auto. intros Em.
  destruct (compatible_near t N dx dz bits sg W HN) as (d & Hd & H); auto; [congruence|lia|].
  exists d. split; auto. intros dx' dy' L' Hn EF. apply HG; auto. apply H; congruence.
Qed.

(** ** Without abs: the Jacobian *)
Theorem gj_smooth red (f : func R) x dx bits w t w' A :
  rayon red -> fn_n f = Ok (length x) -> fn_tape Rops f x w = Ok (t, w') -> NoDup (t_deps t) -> no_abs t ->
  represents t A -> length dx = length x ->
  generalized_jacobian Rops red f x dx bits None w = Ok (mkG A (repeat 0 (num_deps t)) 0, w').
Proof.
  intros HR En HT ND NA HA L.
  destruct (fn_tape_wf Rops _ _ _ _ _ HT) as ([W _] & _ & Nx). destruct (anf_exists t W) as [N HN].
  assert (num_abs t = 0%nat) as S0 by exact NA.
  assert (abs_once t) as NO.
  { unfold abs_once. unfold num_abs in S0. destruct (filter is_abs (t_ops t)); [constructor|discriminate]. }
  destruct (gj_correct red f x dx bits None w t w' N HR En HT ND NO HN L I)
    as (G & dz & sg & E & SW & HS & Hm & SG & LG & HG).
  rewrite E. destruct G as [H h k]. cbn [g_hom g_inh g_mult next_rows next_mult next_map] in *.
  assert (length dz = 0%nat) as Ldz.
  { destruct SW as [-> _]. destruct HN as [(a & z & EN & EZ & Rz & Rl & Rj & Ry & Ea & Eb)].
    destruct (an_z_ok t a W EN) as (z' & EZ' & Lz). assert (z' = z) by congruence. subst z'.
    rewrite Ea. unfold vsub. rewrite map_length, combine_length. lia. }
  assert (k = 0%nat) as -> by (rewrite Hm; destruct dz; [auto|discriminate]).
  assert (forall dx', length dx' = length x -> vadd (mulv H dx') h = mulv A dx') as HE.
  { intros dx' L'. destruct HA as [_ HF]. apply HG; auto; [|apply HF; congruence].
    destruct (anf_correct t N dx' W HN) as (zh & SW' & _); [congruence|]. exists zh. split; auto.
    assert (length zh = length dz) as Ll by (destruct SW as [-> _], SW' as [-> _]; auto). intros i Hi. lia. }
  assert (h = repeat 0 (num_deps t)) as ->.
  { pose proof (HE (repeat 0 (length x)) (repeat_length _ _)) as E0.
    apply nth_ext0; [rewrite repeat_length; auto|]. intros i Hi.
    assert (nth i (vadd (mulv H (repeat 0 (length x))) h) 0 = nth i (mulv A (repeat 0 (length x))) 0) as En0 by congruence.
    rewrite nth_vadd in En0 by (rewrite (mulv_len _ _ _ _ SG); auto). rewrite !nth_mulv in En0.
    assert (forall u, dot u (repeat 0 (length x)) = 0) as D0.
    { intros u. rewrite dot_sym. apply dot_zero. intros j. rewrite nth_repeat. ring. }
    rewrite !D0 in En0. rewrite nth_repeat. lra. }
  do 3 f_equal. destruct HA as [SA HF]. rewrite Nx in SA.
  apply (mulv_inj H A _ _ SG SA). intros y Ly. rewrite <- (HE y Ly).
  apply nth_ext0; [rewrite vadd_len; auto; rewrite (mulv_len _ _ _ _ SG), repeat_length; auto|].
  intros i Hi. rewrite nth_vadd by (rewrite (mulv_len _ _ _ _ SG), repeat_length; auto). rewrite nth_repeat. ring.
Qed.

(** ** The switching iteration *)
Theorem dz_exact red (t : tape R) (a : antape) (N : anf) dx : rayon red -> wf_tape t -> an_new t = Ok a ->
  anf_of t N -> length dx = num_indeps t ->
  exists dz, dz_loop Rops red (l_tape a) (vadd (f_a N) (mulv (f_zmat N) dx)) (num_abs t)
      (vadd (f_a N) (mulv (f_zmat N) dx)) = Ok dz /\
    switching N dx dz /\ forall zh, switching N dx zh -> zh = dz.
Proof.
  intros HR W EN HN L. pose proof (anf_lower t N W HN) as Low.
  destruct (anf_correct t N dx W HN L) as (zh & SW & U & _).
  pose proof HN as [(a' & z & EN' & EZ & Rz & Rl & Rj & Ry & Ea & Eb)]. assert (a' = a) by congruence. subst a'.
  destruct (an_sizes t a W EN) as (N1 & N2 & N3 & N4 & N5 & N6 & N7 & N8).
  assert (shape (f_zmat N) (num_abs t) (num_indeps t)) as SZ by (rewrite <- N1, <- N2; apply Rz).
  assert (shape (f_lmat N) (num_abs t) (num_abs t)) as SL by (rewrite <- N3 at 2; rewrite <- N4 at 1; apply Rl).
  destruct (an_z_ok t a W EN) as (z' & EZ' & Lz). assert (z' = z) as -> by congruence.
  assert (length (f_a N) = num_abs t) as Lfa.
  { rewrite Ea, vsub_len; auto. rewrite (mulv_len _ _ _ _ SL). auto. }
  set (c := vadd (f_a N) (mulv (f_zmat N) dx)).
  assert (length c = num_abs t) as Lc by (unfold c; rewrite vadd_len; rewrite ?(mulv_len _ _ _ _ SZ); auto).
  destruct (dz_loop_ok red _ _ c (num_abs t) HR Rl SL N3 Low Lc) as (dz & E & Ldz & Edz).
  exists dz. split; auto. assert (switching N dx dz) as SW' by (split; [congruence|exact Edz]).
  split; auto. intros zh' Hz. rewrite (U _ Hz), (U _ SW'). auto.
Qed.
