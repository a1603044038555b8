(** Fused multiply-adds: orders, exact arithmetic, the chain driver with the products left open. *)
From Coq Require Import Reals Lra Lia ZArith NArith Bool List SpecFloat Permutation FunctionalExtensionality.
From Flocq Require Import Core BinarySingleNaN.
From Verif Require Import Base Float FloatInst Operation Tape AContext Methods Function Spec Param Instances TapeFacts RealInst F64Facts F64Ops FopsRel BallSpec BallFacts BallMain
  FunctionFacts JacobianFacts CheckSpec Checkpoint CheckMain
  DerivSpec LinearFacts Matrix MatrixFacts AbsNormal AbsNormalFacts AnfSpec RVec AnfFacts AnfFacts2 GenJac GenSpec GenFacts DriverSpec DriverPanics Shape RecordFacts ReplayFacts Replay2 EstF64
  GenBallSpec RelDrivers RelGen GenBallFacts GenBallMain SwitchChain ChainBallSpec ChainBall OrderSpec OrderFacts OrderMain FmaSpec.
Import ListNotations.
Local Open Scope nat_scope.

(** ** Orders *)
Lemma unfused_products o : fproducts (unfused o) = products o.
Proof. induction o; cbn; congruence. Qed.
Lemma all_fused_valid n : forder_of n (all_fused n).
Proof.
  unfold forder_of. induction n as [|n IH]; [constructor|]. cbn [all_fused fproducts]. rewrite seq_S. cbn [Nat.add].
  etransitivity; [apply perm_skip, IH|]. apply Permutation_cons_append.
Qed.
Theorem unfused_valid s : valid s -> fvalid (fun n i => unfused (s n i)).
Proof. intros HV n i. unfold forder_of. rewrite unfused_products. apply HV. Qed.
Lemma sum_unfused {F} (Fo : Fops F) fma o x y : sum_fby Fo fma (unfused o) x y = sum_by Fo o x y.
Proof. induction o; cbn; congruence. Qed.
Theorem mulv_unfused {F} (Fo : Fops F) fma s A v : mulv_fby Fo fma (fun n i => unfused (s n i)) A v = mulv_by Fo s A v.
Proof.
  unfold mulv_fby, mulv_by. destruct (_ =? _); [|reflexivity]. f_equal. apply map_ext. intros p. apply sum_unfused.
Qed.

(** ** In exact arithmetic *)
Section Exact.
Local Open Scope R_scope.
Lemma sum_fby_R o x y : sum_fby Rops r_fma o x y = sumR (map (fun j => nth j x 0 * nth j y 0) (fproducts o)).
Proof.
  induction o as [j|l IHl r IHr| |j o IH]; cbn [sum_fby fproducts map sumR fold_right]; [cbn; lra| |reflexivity|].
  - rewrite map_app, sumR_app, IHl, IHr. reflexivity.
  - rewrite IH. reflexivity.
Qed.
Theorem mulv_fexact s : fvalid s -> mulv_fby Rops r_fma s = m_mulv Rops.
Proof.
  intros HV. extensionality A. extensionality v. unfold mulv_fby, m_mulv. destruct (_ =? _)%nat; [|reflexivity]. f_equal.
  rewrite <- (combine_seq (m_dat A) 0) at 3. rewrite map_map. apply map_ext. intros [i row]. cbn [fst snd].
  rewrite sum_fby_R. rewrite (sumR_perm _ (map (fun j => nth j row 0 * nth j v 0) (seq 0 (length v)))) by (apply Permutation_map, HV).
  apply (sumR_seq v row 0 [] []); auto.
Qed.
Theorem abs_normal_fexact red o t : fvalid2 o -> abs_normal_fby Rops r_fma red o t = abs_normal_tape Rops red t.
Proof. intros [V1 V2]. unfold abs_normal_fby. rewrite !mulv_fexact by auto. reflexivity. Qed.
Theorem gj_fexact red o t dx bits next : fvalid2 o -> gj_fby Rops r_fma red o t dx bits next = generalized_jacobian_tape Rops red t dx bits next.
Proof. intros [V1 V2]. unfold gj_fby. rewrite !mulv_fexact by auto. reflexivity. Qed.
Theorem chain_fexact red os est c x dx k w : (forall i, fvalid2 (os i)) ->
  generalized_jacobian_chain_fby Rops r_fma red os est c x dx k w = generalized_jacobian_chain Rops red est c x dx k w.
Proof.
  intros HV. unfold generalized_jacobian_chain_fby, generalized_jacobian_chain_with, generalized_jacobian_chain.
  assert (gj_reverse_with Rops red (fun i => fused_pair Rops r_fma (os i)) c = gj_reverse Rops red c) as ->; [|reflexivity].
  extensionality st. extensionality g. extensionality w0. destruct st as [[i x0] dx0]. unfold gj_reverse_with, gj_reverse, mbind.
  destruct (mlift (chain_nth c i) w0) as [[f w1]|]; [|reflexivity].
  unfold generalized_jacobian_with, generalized_jacobian, mbind. destruct (mlift (fn_n f) w1) as [[n w2]|]; [|reflexivity].
  destruct (mlift (assert _) w2) as [[u w3]|]; [|reflexivity]. destruct (fn_tape Rops f x0 w3) as [[t w4]|]; [|reflexivity].
  cbn [fused_pair fst snd]. fold (gj_fby Rops r_fma red (os i)). rewrite gj_fexact by auto. reflexivity.
Qed.
Lemma along_fexact red os ts : (forall i, fvalid2 (os i)) -> forall i x dx, along_fby Rops r_fma red os i ts x dx = along Rops red ts x dx.
Proof.
  intros HV. unfold along_fby. induction ts as [|t ts IH]; intros i x dx; cbn [along along_with]; [reflexivity|].
  destruct (tape_zero_order Rops t x) as [t1|]; [|reflexivity]. cbn [bind]. destruct (tape_y t1) as [y|]; [|reflexivity]. cbn [bind].
  destruct (tape_forward Rops t1 dx) as [dy|]; [|reflexivity]. cbn [bind]. rewrite IH. destruct (along Rops red ts y dy) as [g|]; [|reflexivity]. cbn [bind].
  apply gj_fexact, HV.
Qed.
End Exact.

(** ** Any products of the right length *)
Section One.
Context {F : Type} (Fo : Fops F) (red : list (list (nat * list F)) -> list (nat * list F)) (HR : rayon red).

Lemma fby_like fma s : mv_like Fo (mulv_fby Fo fma s).
Proof.
  intros A v. unfold mulv_fby, m_mulv. destruct (_ =? _); [|reflexivity]. cbn. unfold same_length.
  rewrite !map_length, combine_length, seq_length. lia.
Qed.
Definition likes (mvs : nat -> @products2 F) : Prop := forall i, mv_like Fo (fst (mvs i)) /\ mv_like Fo (snd (mvs i)).
Lemma fused_likes fma os : likes (fun i => fused_pair Fo fma (os i)).
Proof. intros i. split; apply fby_like. Qed.

Lemma gj_with_total mv mw (t : tape F) dx bits next : mv_like Fo mv -> mv_like Fo mw ->
  wf_tape t -> wf_next next -> length dx = num_indeps t -> next_fits (num_deps t) next ->
  exists G, gj_with Fo red mv mw t dx bits next = Ok G.
Proof.
  intros M1 M2 W WN L NF. destruct (gj_tape_total Fo red HR t dx bits next W WN L NF) as (G & E & _).
  pose proof (gj_with_same Fo red mv mw t dx bits next next M1 M2) as X.
  lapply X; [clear X; intros X|destruct next; cbn; auto; repeat split]. rewrite E in X. apply rrel_ok in X as (G' & E' & _). eauto.
Qed.

Theorem along_with_same mvs ts : likes mvs -> forall i n x dx, fits ts n -> length x = n -> length dx = n ->
  exists G G', along_with Fo red mvs i ts x dx = Ok G /\ along Fo red ts x dx = Ok G' /\ same_hom G G'.
Proof.
  intros HL. induction ts as [|t ts IH]; intros i n x dx HF Lx Ld; cbn [along along_with].
  - eexists _, _. split; [reflexivity|]. split; [reflexivity|]. repeat split.
  - destruct HF as (W & <- & HF).
    destruct (stage_total Fo t x dx W Lx Ld) as (t1 & y & dy & E1 & E2 & E3 & W1 & NI & ND & Ly & Ldy).
    rewrite E1. cbn [bind]. rewrite E2. cbn [bind]. rewrite E3. cbn [bind].
    destruct (IH (i + 1) _ y dy HF Ly Ldy) as (g & g' & Eg & Eg' & HS). rewrite Eg, Eg'. cbn [bind].
    destruct (along_total Fo red HR ts _ y dy HF Ly Ldy) as (g2 & s & d & Eg2 & _ & _ & Wg & Cg & Lg & _).
    assert (g2 = g') as -> by congruence.
    destruct (gj_tape_total Fo red HR t1 dx [0%N] (Some g') W1 Wg) as (G & EG & _);
      [congruence|cbn; split; congruence|].
    destruct (HL i) as [M1 M2].
    pose proof (gj_with_same Fo red _ _ t1 dx [0%N] (Some g) (Some g') M1 M2 HS) as X.
    rewrite EG in X. apply rrel_ok in X as (G1 & EG1 & HS1). exists G1, G. auto.
Qed.

Lemma gj_with_world mv f x dx bits next w :
  match generalized_jacobian_with Fo red mv f x dx bits next world0 with
  | Ok (G, _) => exists w', generalized_jacobian_with Fo red mv f x dx bits next w = Ok (G, w')
  | Panic p => generalized_jacobian_with Fo red mv f x dx bits next w = Panic p
  end.
Proof.
  unfold generalized_jacobian_with, mbind, mlift. destruct (fn_n f); auto.
  destruct (assert _); auto. pose proof (fn_tape_world Fo f x world0 w) as H.
  destruct (fn_tape Fo f x world0) as [[t w0]|p]; [|rewrite H; auto].
  destruct H as [w2 ->]. destruct (gj_with Fo red (fst mv) (snd mv) t dx bits next); eauto.
Qed.
Definition w_rv mvs (c : func F) (st : nat * list F * list F) (g : gjac F) : res (gjac F) :=
  let '(i, x, dx) := st in
  f <- chain_nth c i ;;
  gw <- generalized_jacobian_with Fo red (mvs i) f x dx [0%N] (Some g) world0 ;; Ok (fst gw).
Lemma w_acts_rv mvs c : acts2 (fun _ => True) (gj_reverse_with Fo red mvs c) (w_rv mvs c).
Proof.
  intros [[[i x] dx] g] w _. cbn [fst snd]. unfold gj_reverse_with, w_rv, mbind, mlift.
  destruct (chain_nth c i) as [f|]; cbn [bind]; auto.
  pose proof (gj_with_world (mvs i) f x dx [0%N] (Some g) w) as H.
  destruct (generalized_jacobian_with Fo red (mvs i) f x dx _ _ world0) as [[G w1]|p]; cbn; auto.
  destruct H as [w' ->]. eauto.
Qed.
Lemma fold_along_with mvs c : forall n i x dx ts, (i + n = chain_len c)%nat -> length dx = length x ->
  recorded Fo (skipn i (fn_iter c)) x dx ts ->
  reverse_fold (p_fw Fo c) (w_rv mvs c) (p_id Fo) n (i, x, dx) = along_with Fo red mvs i ts x dx.
Proof.
  unfold chain_len. induction n as [|n IH]; intros i x dx ts E L HC.
  - rewrite skipn_all2 in HC by lia. inversion HC; subst. reflexivity.
  - destruct (nth_error (fn_iter c) i) as [f|] eqn:Ef; [|apply nth_error_None in Ef; lia].
    rewrite (skipn_nth _ _ _ Ef) in HC. inversion HC as [|f0 fs x0 dx0 w t w' y dy ts' Hn HT HZ Hy Hd HR']; subst.
    cbn [reverse_fold along_with]. rewrite (stage_step Fo c i f x dx w t w' y dy Ef L HT HZ Hy Hd). cbn [bind].
    destruct (fn_tape_fresh Fo _ _ _ _ _ HT) as (_ & _ & _ & EZ). rewrite EZ. cbn [bind]. rewrite Hy. cbn [bind]. rewrite Hd. cbn [bind].
    rewrite (IH (i + 1)%nat y dy ts'); [|lia| |exact HR'].
    2: { rewrite (tape_forward_length _ _ _ _ Hd). destruct (fn_tape_fresh Fo _ _ _ _ _ HT) as (_ & (y' & _ & Hy' & Hm) & _). congruence. }
    destruct (along_with Fo red mvs (i + 1) ts' y dy) as [g|p]; cbn [bind]; [|reflexivity].
    unfold w_rv, chain_nth. rewrite Ef. cbn [unwrap bind]. unfold generalized_jacobian_with, mbind, mlift. rewrite Hn.
    rewrite Nat.eqb_refl. cbn [assert]. pose proof (fn_tape_world Fo f x w world0) as HW. rewrite HT in HW. destruct HW as (w2 & ->).
    destruct (gj_with Fo red (fst (mvs i)) (snd (mvs i)) t dx [0%N] (Some g)); reflexivity.
Qed.
Theorem chain_is_along_with mvs est c x dx k w ts : likes mvs ->
  accurate est (Z.of_nat (chain_len c) + 1) -> (Z.of_nat (chain_len c) + 1 <= 2 ^ 32)%Z -> 2 <= k ->
  length dx = length x -> recorded Fo (fn_iter c) x dx ts ->
  exists G w', generalized_jacobian_chain_with Fo red mvs est c x dx (Some k) w = Ok (G, w') /\ along_with Fo red mvs 0 ts x dx = Ok G.
Proof.
  intros HL A B Hk L HC. unfold generalized_jacobian_chain_with.
  pose proof (reverse_sequence_spec est _ _ _ _ _ _ _ (p_acts_fw Fo c) (w_acts_rv mvs c) (p_acts_id Fo) (chain_len c) k A B Hk
     (0%nat, x, dx) w I) as H. cbn beta in H.
  rewrite (fold_along_with mvs c (chain_len c) 0 x dx ts eq_refl L HC) in H.
  destruct (along_with_same mvs ts HL 0 (length x) x dx (recorded_fits _ _ _ _ _ HC L) eq_refl L) as (G & _ & E & _).
  rewrite E in H. destruct H as (w' & -> & _). eauto.
Qed.
Theorem chain_with_same mvs est c x dx k w ts : likes mvs ->
  accurate est (Z.of_nat (chain_len c) + 1) -> (Z.of_nat (chain_len c) + 1 <= 2 ^ 32)%Z -> 2 <= k ->
  length dx = length x -> recorded Fo (fn_iter c) x dx ts ->
  exists G w1 G' w2, generalized_jacobian_chain_with Fo red mvs est c x dx (Some k) w = Ok (G, w1) /\
    generalized_jacobian_chain Fo red est c x dx (Some k) w = Ok (G', w2) /\ same_hom G G'.
Proof.
  intros HL A B Hk L HC. destruct (chain_is_along_with mvs est c x dx k w ts HL A B Hk L HC) as (G & w1 & E1 & E2).
  destruct (chain_is_along Fo red HR est c x dx k w ts A B Hk L HC) as (G' & w2 & E3 & E4).
  destruct (along_with_same mvs ts HL 0 (length x) x dx (recorded_fits _ _ _ _ _ HC L) eq_refl L) as (H & H' & E5 & E6 & HS).
  exists G, w1, G', w2. split; [auto|]. split; [auto|]. congruence.
Qed.
End One.

(** ** Statements about every outcome *)
Theorem abs_normal_fmatrices {F} (Fo : Fops F) fma red o t :
  match abs_normal_fby Fo fma red o t, abs_normal_tape Fo red t with
  | Ok N, Ok N' => same_anf N N'
  | Panic p, Panic q => p = q
  | _, _ => False
  end.
Proof. exact (anf_with_same Fo red _ _ t (fby_like Fo fma _) (fby_like Fo fma _)). Qed.
Theorem gj_fhomogeneous {F} (Fo : Fops F) fma red o t dx bits next :
  match gj_fby Fo fma red o t dx bits next, generalized_jacobian_tape Fo red t dx bits next with
  | Ok G, Ok G' => same_hom G G'
  | Panic p, Panic q => p = q
  | _, _ => False
  end.
Proof.
  apply (gj_with_same Fo red _ _ t dx bits next next (fby_like Fo fma _) (fby_like Fo fma _)). destruct next; cbn; [|auto]. repeat split.
Qed.
Theorem chain_fsame {F} (Fo : Fops F) fma red : rayon red -> forall os est c x dx k w ts,
  accurate est (Z.of_nat (chain_len c) + 1) -> (Z.of_nat (chain_len c) + 1 <= 2 ^ 32)%Z -> 2 <= k ->
  length dx = length x -> recorded Fo (fn_iter c) x dx ts ->
  exists G w1 G' w2, generalized_jacobian_chain_fby Fo fma red os est c x dx (Some k) w = Ok (G, w1) /\
    generalized_jacobian_chain Fo red est c x dx (Some k) w = Ok (G', w2) /\ same_hom G G'.
Proof. intros HR os est c x dx k w ts. apply chain_with_same; auto. apply fused_likes. Qed.

(** ** One rounding *)
Local Open Scope R_scope.
(** Flocq's fused multiply-add, on SpecFloat's numbers. *)
Definition to_b64 (x : spec_float) : b64 :=
  match bool_dec (valid_binary prec64 emax64 x) true with left H => SF2B x H | right _ => B754_nan end.
Definition sf_fma (x y z : spec_float) : spec_float := B2SF (Bfma mode_NE (to_b64 x) (to_b64 y) (to_b64 z)).
Lemma to_b64_B (b : b64) : to_b64 (B2SF b) = b.
Proof.
  unfold to_b64. destruct (bool_dec _ true) as [H|H]; [|elim H; apply valid_binary_B2SF].
  apply SF2B_B2SF.
Qed.
Theorem fma_rounds_once : rounds_once sf_fma.
Proof.
  intros x y z a b c (bx & <- & Fx & <-) (b_y & <- & Fy & <-) (bz & <- & Fz & <-) H. unfold sf_fma. rewrite !to_b64_B.
  pose proof (Bfma_correct _ _ _ _ mode_NE bx b_y bz Fx Fy Fz) as C. cbv zeta in C.
  change (round radix2 _ _ ?z) with (rnd z) in C. rewrite rnd_fits in C by exact H.
  destruct C as (C1 & C2 & _). exists (Bfma mode_NE bx b_y bz). auto.
Qed.
Lemma inside_fma fma : rounds_once fma -> forall x y z a b c, inside x a -> inside y b -> inside z c -> inside (fma x y z) (b_fma a b c).
Proof.
  intros HF x y z [[c e]|] [[c' e']|] [[c2 e2]|] Ha Hb Hc; cbn [b_fma]; try exact I.
  destruct Ha as (u & Fu & Hu), Hb as (v & Fv & Hv), Hc as (w & Fw & Hw).
  apply (in_rounded _ (u * v + w)); [intros S; apply HF; auto|].
  replace (u * v + w - (c * c' + c2)) with ((u * v - c * c') + (w - c2)) by ring.
  eapply Rle_trans; [apply Rabs_triang|]. pose proof (mul_lip _ _ _ _ _ _ Hu Hv). lra.
Qed.
Lemma about_fma a b c x y z : about a x -> about b y -> about c z -> about (b_fma a b c) (r_fma x y z).
Proof.
  destruct a as [[p e]|], b as [[q e']|], c as [[r e2]|]; cbn [b_fma about]; try (intros; exact I).
  intros -> -> ->. apply about_rounded. reflexivity.
Qed.
