(** Dense products with any order of summation: relations between arithmetics and rounding errors. *)
From Coq Require Import Reals Lra Lia ZArith NArith Bool List SpecFloat Permutation.
From Verif Require Import Base Float FloatInst Operation Tape AContext Methods Function Spec Param Instances TapeFacts RealInst F64Facts F64Ops FopsRel BallSpec BallFacts BallMain
  FunctionFacts JacobianFacts CheckSpec Checkpoint CheckMain
  DerivSpec LinearFacts Matrix MatrixFacts AbsNormal AbsNormalFacts AnfSpec RVec AnfFacts AnfFacts2 GenJac GenSpec GenFacts DriverSpec DriverPanics Shape RecordFacts ReplayFacts Replay2 EstF64
  GenBallSpec RelDrivers RelGen GenBallFacts GenBallMain SwitchChain ChainBallSpec ChainBall OrderSpec OrderFacts.
Import ListNotations.
Local Open Scope nat_scope.

(** ** Only the inhomogeneous part sees the order *)
Section One.
Context {F : Type} (Fo : Fops F) (red : list (list (nat * list F)) -> list (nat * list F)) (HR : rayon red).

Definition same_length {A} (a b : list A) : Prop := length a = length b.
Definition mv_like (mv : matrix F -> list F -> res (list F)) : Prop := forall A v, rrel same_length (mv A v) (m_mulv Fo A v).
Lemma by_like s : mv_like (mulv_by Fo s).
Proof.
  intros A v. unfold mulv_by, m_mulv. destruct (_ =? _); [|reflexivity]. cbn. unfold same_length.
  rewrite !map_length, combine_length, seq_length. lia.
Qed.

Definition next_same (n n' : option (gjac F)) : Prop :=
  match n, n' with Some g, Some g' => same_hom g g' | None, None => True | _, _ => False end.

Lemma len_add x x' y y' : length x = length x' -> length y = length y' -> rrel same_length (v_add Fo x y) (v_add Fo x' y').
Proof.
  intros Lx Ly. unfold v_add. rewrite Lx, Ly. destruct (Nat.eqb_spec (length x') (length y')); [|reflexivity]. cbn. unfold same_length.
  rewrite !v_zip_len; congruence.
Qed.
Lemma len_sub x x' y y' : length x = length x' -> length y = length y' -> rrel same_length (v_sub Fo x y) (v_sub Fo x' y').
Proof.
  intros Lx Ly. unfold v_sub. rewrite Lx, Ly. destruct (Nat.eqb_spec (length x') (length y')); [|reflexivity]. cbn. unfold same_length.
  rewrite !v_zip_len; congruence.
Qed.

Theorem anf_with_same mv mw t : mv_like mv -> mv_like mw ->
  rrel same_anf (abs_normal_with Fo red mv mw t) (abs_normal_tape Fo red t).
Proof.
  intros MV MW. unfold abs_normal_with, abs_normal_tape. repeat (apply rrel_eq; intros ?).
  eapply rrel_bind; [apply MV|]. intros lz lz' L1. eapply rrel_bind; [apply len_sub; [reflexivity|exact L1]|]. intros av av' L2.
  eapply rrel_bind; [apply MW|]. intros b b' L3. cbn. repeat split; auto.
Qed.
Theorem gj_with_same mv mw t dx bits n n' : mv_like mv -> mv_like mw -> next_same n n' ->
  rrel same_hom (gj_with Fo red mv mw t dx bits n) (generalized_jacobian_tape Fo red t dx bits n').
Proof.
  intros MV MW HN. unfold gj_with, generalized_jacobian_tape. repeat (apply rrel_eq; intros ?).
  destruct (signs_loop Fo bits 0 0 _) as [sg q].
  assert (exists g i i' m, match n with
      | Some g => (g_hom g, g_inh g, q + g_mult g)
      | None => (m_id Fo (num_deps t), repeat (f_zero Fo) (num_deps t), q) end = (g, i, m) /\
    match n' with
      | Some g => (g_hom g, g_inh g, q + g_mult g)
      | None => (m_id Fo (num_deps t), repeat (f_zero Fo) (num_deps t), q) end = (g, i', m) /\ length i = length i')
    as (g & i & i' & m & -> & -> & LI).
  { destruct n as [h|], n' as [h'|]; cbn in HN; try contradiction; [|eauto 8].
    destruct HN as (-> & -> & L). eauto 8. }
  repeat (apply rrel_eq; intros ?).
  eapply rrel_bind; [apply MV|]. intros gb gb' L1. eapply rrel_bind; [apply len_add; [exact LI|exact L1]|]. intros j j' L2.
  eapply rrel_bind; [apply MW|]. intros ua ua' L3. eapply rrel_bind; [apply len_add; [exact L2|exact L3]|]. intros h h' L4.
  cbn. repeat split; auto.
Qed.

Lemma gj_by_total o (t : tape F) dx bits next : wf_tape t -> wf_next next -> length dx = num_indeps t -> next_fits (num_deps t) next ->
  exists G, gj_by Fo red o t dx bits next = Ok G /\ wf_mat (g_hom G) /\ m_cols (g_hom G) = num_indeps t /\
    length (g_inh G) = m_rows (g_hom G).
Proof.
  intros W WN L NF. destruct (gj_tape_total Fo red HR t dx bits next W WN L NF) as (G & E & WG & RG & CG & LG & _).
  pose proof (gj_with_same (mulv_by Fo (fst o)) (mulv_by Fo (snd o)) t dx bits next next (by_like _) (by_like _)) as X.
  lapply X; [clear X; intros X|destruct next; cbn; auto; repeat split]. rewrite E in X. apply rrel_ok in X as (G' & E' & H1 & H2 & H3).
  exists G'. split; [exact E'|]. rewrite H1, H3. split; [auto|]. split; [auto|]. congruence.
Qed.

Theorem along_by_same os ts : forall i n x dx, fits ts n -> length x = n -> length dx = n ->
  exists G G', along_by Fo red os i ts x dx = Ok G /\ along Fo red ts x dx = Ok G' /\ same_hom G G'.
Proof.
  induction ts as [|t ts IH]; intros i n x dx HF Lx Ld; cbn [along along_by].
  - eexists _, _. split; [reflexivity|]. split; [reflexivity|]. repeat split.
  - destruct HF as (W & <- & HF).
    destruct (stage_total Fo t x dx W Lx Ld) as (t1 & y & dy & E1 & E2 & E3 & W1 & NI & ND & Ly & Ldy).
    rewrite E1. cbn [bind]. rewrite E2. cbn [bind]. rewrite E3. cbn [bind].
    destruct (IH (i + 1) _ y dy HF Ly Ldy) as (g & g' & Eg & Eg' & HS). rewrite Eg, Eg'. cbn [bind].
    destruct (along_total Fo red HR ts _ y dy HF Ly Ldy) as (g2 & s & d & Eg2 & _ & _ & Wg & Cg & Lg & _).
    assert (g2 = g') as -> by congruence.
    destruct (gj_tape_total Fo red HR t1 dx [0%N] (Some g') W1 Wg) as (G & EG & _);
      [congruence|cbn; split; congruence|].
    pose proof (gj_with_same (mulv_by Fo (fst (os i))) (mulv_by Fo (snd (os i))) t1 dx [0%N] (Some g) (Some g') (by_like _) (by_like _) HS) as X.
    rewrite EG in X. apply rrel_ok in X as (G1 & EG1 & HS1). exists G1, G. auto.
Qed.

(** ** The chain driver on recorded tapes *)
Lemma gj_by_world o f x dx bits next w :
  match generalized_jacobian_by Fo red o f x dx bits next world0 with
  | Ok (G, _) => exists w', generalized_jacobian_by Fo red o f x dx bits next w = Ok (G, w')
  | Panic p => generalized_jacobian_by Fo red o f x dx bits next w = Panic p
  end.
Proof.
  unfold generalized_jacobian_by, mbind, mlift. destruct (fn_n f); auto.
  destruct (assert _); auto. pose proof (fn_tape_world Fo f x world0 w) as H.
  destruct (fn_tape Fo f x world0) as [[t w0]|p]; [|rewrite H; auto].
  destruct H as [w2 ->]. destruct (gj_by Fo red o t dx bits next); eauto.
Qed.
Definition o_rv os (c : func F) (st : nat * list F * list F) (g : gjac F) : res (gjac F) :=
  let '(i, x, dx) := st in
  f <- chain_nth c i ;;
  gw <- generalized_jacobian_by Fo red (os i) f x dx [0%N] (Some g) world0 ;; Ok (fst gw).
Lemma o_acts_rv os c : acts2 (fun _ => True) (gj_reverse_by Fo red os c) (o_rv os c).
Proof.
  intros [[[i x] dx] g] w _. cbn [fst snd]. unfold gj_reverse_by, o_rv, mbind, mlift.
  destruct (chain_nth c i) as [f|]; cbn [bind]; auto.
  pose proof (gj_by_world (os i) f x dx [0%N] (Some g) w) as H.
  destruct (generalized_jacobian_by Fo red (os i) f x dx _ _ world0) as [[G w1]|p]; cbn; auto.
  destruct H as [w' ->]. eauto.
Qed.
Lemma fold_along_by os c : forall n i x dx ts, (i + n = chain_len c)%nat -> length dx = length x ->
  recorded Fo (skipn i (fn_iter c)) x dx ts ->
  reverse_fold (p_fw Fo c) (o_rv os c) (p_id Fo) n (i, x, dx) = along_by Fo red os i ts x dx.
Proof.
  unfold chain_len. induction n as [|n IH]; intros i x dx ts E L HC.
  - rewrite skipn_all2 in HC by lia. inversion HC; subst. reflexivity.
  - destruct (nth_error (fn_iter c) i) as [f|] eqn:Ef; [|apply nth_error_None in Ef; lia].
    rewrite (skipn_nth _ _ _ Ef) in HC. inversion HC as [|f0 fs x0 dx0 w t w' y dy ts' Hn HT HZ Hy Hd HR']; subst.
    cbn [reverse_fold along_by]. rewrite (stage_step Fo c i f x dx w t w' y dy Ef L HT HZ Hy Hd). cbn [bind].
    destruct (fn_tape_fresh Fo _ _ _ _ _ HT) as (_ & _ & _ & EZ). rewrite EZ. cbn [bind]. rewrite Hy. cbn [bind]. rewrite Hd. cbn [bind].
    rewrite (IH (i + 1)%nat y dy ts'); [|lia| |exact HR'].
    2: { rewrite (tape_forward_length _ _ _ _ Hd). destruct (fn_tape_fresh Fo _ _ _ _ _ HT) as (_ & (y' & _ & Hy' & Hm) & _). congruence. }
    destruct (along_by Fo red os (i + 1) ts' y dy) as [g|p]; cbn [bind]; [|reflexivity].
    unfold o_rv, chain_nth. rewrite Ef. cbn [unwrap bind]. unfold generalized_jacobian_by, mbind, mlift. rewrite Hn.
    rewrite Nat.eqb_refl. cbn [assert]. pose proof (fn_tape_world Fo f x w world0) as HW. rewrite HT in HW. destruct HW as (w2 & ->).
    destruct (gj_by Fo red (os i) t dx [0%N] (Some g)); reflexivity.
Qed.
Theorem chain_is_along_by os est c x dx k w ts :
  accurate est (Z.of_nat (chain_len c) + 1) -> (Z.of_nat (chain_len c) + 1 <= 2 ^ 32)%Z -> 2 <= k ->
  length dx = length x -> recorded Fo (fn_iter c) x dx ts ->
  exists G w', generalized_jacobian_chain_by Fo red os est c x dx (Some k) w = Ok (G, w') /\ along_by Fo red os 0 ts x dx = Ok G.
Proof.
  intros A B Hk L HC. unfold generalized_jacobian_chain_by.
  pose proof (reverse_sequence_spec est _ _ _ _ _ _ _ (p_acts_fw Fo c) (o_acts_rv os c) (p_acts_id Fo) (chain_len c) k A B Hk
     (0%nat, x, dx) w I) as H. cbn beta in H.
  rewrite (fold_along_by os c (chain_len c) 0 x dx ts eq_refl L HC) in H.
  destruct (along_by_same os ts 0 (length x) x dx (recorded_fits _ _ _ _ _ HC L) eq_refl L) as (G & _ & E & _).
  rewrite E in H. destruct H as (w' & -> & _). eauto.
Qed.
Theorem chain_by_same os est c x dx k w ts :
  accurate est (Z.of_nat (chain_len c) + 1) -> (Z.of_nat (chain_len c) + 1 <= 2 ^ 32)%Z -> 2 <= k ->
  length dx = length x -> recorded Fo (fn_iter c) x dx ts ->
  exists G w1 G' w2, generalized_jacobian_chain_by Fo red os est c x dx (Some k) w = Ok (G, w1) /\
    generalized_jacobian_chain Fo red est c x dx (Some k) w = Ok (G', w2) /\ same_hom G G'.
Proof.
  intros A B Hk L HC. destruct (chain_is_along_by os est c x dx k w ts A B Hk L HC) as (G & w1 & E1 & E2).
  destruct (chain_is_along Fo red HR est c x dx k w ts A B Hk L HC) as (G' & w2 & E3 & E4).
  destruct (along_by_same os ts 0 (length x) x dx (recorded_fits _ _ _ _ _ HC L) eq_refl L) as (H & H' & E5 & E6 & HS).
  exists G, w1, G', w2. split; [auto|]. split; [auto|]. congruence.
Qed.
End One.

(** ** Two arithmetics *)
Section Two.
Context {F1 F2 : Type} (O1 : Fops F1) (O2 : Fops F2) (Q : F1 -> F2 -> Prop) (E1 : F1 -> F1 -> Prop) (E2 : F2 -> F2 -> Prop).
Notation Qs := (Forall2 Q).
Notation mQ := (mrel Q).
Hypothesis H : ops_related O1 O2 Q.
Hypothesis HE1 : eq_like O1 E1.
Hypothesis HE2 : eq_like O2 E2.
Hypothesis C : forall a a' b b', E1 a a' -> Q a' b' -> E2 b' b -> Q a b.
Context (red1 : list (list (nat * list F1)) -> list (nat * list F1)) (red2 : list (list (nat * list F2)) -> list (nat * list F2)).
Hypothesis R1 : rayon red1.
Hypothesis R2 : rayon red2.

Lemma rel_nth x y j : Qs x y -> Q (nth j x (f_zero O1)) (nth j y (f_zero O2)).
Proof. intros HX. revert j. induction HX; intros [|j]; cbn; auto; apply (q_zero _ _ _ H). Qed.
Lemma rel_sum_by o x x' y y' : Qs x x' -> Qs y y' -> Q (sum_by O1 o x y) (sum_by O2 o x' y').
Proof.
  intros HX HY. induction o as [j|l IHl r IHr|]; cbn; [|apply (q_add _ _ _ H); auto|apply (q_zero _ _ _ H)].
  apply (q_mul _ _ _ H); apply rel_nth; auto.
Qed.
Lemma rel_mulv_by s A A' x x' : mQ A A' -> Qs x x' -> rrel Qs (mulv_by O1 s A x) (mulv_by O2 s A' x').
Proof.
  intros [A1 A2 A3] HX. unfold mulv_by. rewrite A2, (F2_len _ _ _ HX). destruct (_ =? _); cbn; auto.
  rewrite (F2_len _ _ _ A3). generalize 0 (length (m_dat A')). induction A3 as [|r r' l l' Hr HL IH]; intros a n; destruct n as [|n]; cbn; constructor.
  - apply rel_sum_by; auto.
  - apply IH.
Qed.

Section With.
Context (mv1 mw1 : matrix F1 -> list F1 -> res (list F1)) (mv2 mw2 : matrix F2 -> list F2 -> res (list F2)).
Hypothesis MV : forall A A' x x', mQ A A' -> Qs x x' -> rrel Qs (mv1 A x) (mv2 A' x').
Hypothesis MW : forall A A' x x', mQ A A' -> Qs x x' -> rrel Qs (mw1 A x) (mw2 A' x').

Theorem rel_abs_normal_with t1 t2 : tapes_related Q t1 t2 ->
  rrel (anf_rel Q) (abs_normal_with O1 red1 mv1 mw1 t1) (abs_normal_with O2 red2 mv2 mw2 t2).
Proof.
  intros HT. unfold abs_normal_with. eapply rrel_bind; [apply rel_an_new, HT|]. intros a b HA.
  pose proof (rel_sub _ (@firstn nat) (@firstn nat) _ _ HA) as Hz. pose proof (rel_sub _ (@skipn nat) (@firstn nat) _ _ HA) as Hl.
  pose proof (rel_sub _ (@firstn nat) (@skipn nat) _ _ HA) as Hj. pose proof (rel_sub _ (@skipn nat) (@skipn nat) _ _ HA) as Hy.
  rewrite (ar_n _ _ _ HA), (ar_m _ _ _ HA), (ar_s _ _ _ HA).
  eapply rrel_bind; [apply rel_if; [apply (rel_mul_right _ _ _ H)|apply (rel_mul_left _ _ _ H)]; auto; apply (rel_m_id _ _ _ H)|]. intros Z Z' HZ.
  eapply rrel_bind; [apply (rel_mul_left _ _ _ H); auto; apply (rel_m_id _ _ _ H)|]. intros L L' HL.
  eapply rrel_bind; [apply rel_if; [apply (rel_mul_right _ _ _ H)|apply (rel_mul_left _ _ _ H)]; auto; apply (rel_m_id _ _ _ H)|]. intros J J' HJ.
  eapply rrel_bind; [apply rel_if; [apply (rel_mul_right _ _ _ H)|apply (rel_mul_left _ _ _ H)]; auto; apply (rel_m_id _ _ _ H)|]. intros Y Y' HY.
  eapply rrel_bind; [apply rel_an_z, HA|]. intros z z' Hz'.
  eapply rrel_bind; [apply MV; [exact HL|apply (rel_v_abs _ _ _ H), Hz']|]. intros lz lz' Hlz.
  eapply rrel_bind; [apply (rel_v_sub _ _ _ H); eassumption|]. intros av av' Ha.
  eapply rrel_bind; [apply MW; [apply (rel_m_neg _ _ _ H), HY|apply (rel_v_abs _ _ _ H), Hz']|]. intros bv bv' Hb.
  cbn. constructor; auto.
Qed.

Theorem rel_gj_with t1 t2 dx1 dx2 bits n1 n2 : tapes_related Q t1 t2 -> wf_tape t1 -> wf_tape t2 -> Qs dx1 dx2 ->
  next_rel Q n1 n2 -> wf_next n1 -> wf_next n2 -> next_fits (num_deps t1) n1 ->
  (forall d1 d2, switching_values O1 red1 t1 dx1 = Ok d1 -> switching_values O2 red2 t2 dx2 = Ok d2 -> Forall2 (same_sign O1 O2) d1 d2) ->
  rrel (g_rel Q) (gj_with O1 red1 mv1 mw1 t1 dx1 bits n1) (gj_with O2 red2 mv2 mw2 t2 dx2 bits n2).
Proof.
  intros HT W1 W2 HX HN WN1 WN2 NF HD. pose proof HT as [T1 T2 T3 TV].
  assert (num_indeps t2 = num_indeps t1 /\ num_deps t2 = num_deps t1 /\ num_abs t2 = num_abs t1) as (NI & ND & NA).
  { unfold num_indeps, num_deps, num_abs. now rewrite T1, T2, T3. }
  unfold gj_with. rewrite NI, ND, NA, (F2_len _ _ _ HX).
  destruct (Nat.eqb_spec (length dx2) (num_indeps t1)) as [LX|]; [|reflexivity]. cbn [assert bind].
  unfold switching_values in HD. rewrite NA in HD.
  destruct (an_new_ok t1 W1) as (args & EA & EN). destruct (an_new_ok t2 W2) as (args2 & EA2 & EN2).
  pose proof (rel_an_new Q t1 t2 HT) as HA. rewrite EN, EN2 in *. cbn [rrel bind] in *.
  set (a := mkAN _ _ _ _ _ _) in EN, HA, HD |- *. set (b := mkAN _ _ _ _ _ _) in EN2, HA, HD |- *.
  assert (args2 = args) as -> by (unfold abs_args in *; rewrite T3 in EA; congruence).
  pose proof (rel_sub _ (@firstn nat) (@firstn nat) _ _ HA) as Hz. pose proof (rel_sub _ (@skipn nat) (@firstn nat) _ _ HA) as Hl.
  pose proof (rel_sub _ (@firstn nat) (@skipn nat) _ _ HA) as Hj. pose proof (rel_sub _ (@skipn nat) (@skipn nat) _ _ HA) as Hy.
  fold (@z_tape F1) (@l_tape F1) (@j_tape F1) (@y_tape F1) (@z_tape F2) (@l_tape F2) (@j_tape F2) (@y_tape F2) in Hz, Hl, Hj, Hy.
  destruct (sub_tapes t1 a args EN EA) as (Ez & El & Ej & Ey & _). destruct (sub_tapes t2 b args EN2 EA2) as (Ez2 & El2 & Ej2 & Ey2 & _).
  pose proof (sub_l t1 W1 args EA) as Sl. rewrite <- El in Sl. pose proof (sub_l t2 W2 args EA2) as Sl2. rewrite <- El2 in Sl2.
  pose proof (sub_y t1 W1) as Sy. rewrite <- Ey in Sy. pose proof (sub_y t2 W2) as Sy2. rewrite <- Ey2 in Sy2.
  pose proof (sub_of_wf t1 W1 _ Sl) as Wl. pose proof (sub_of_wf t2 W2 _ Sl2) as Wl2. pose proof (sub_of_ops t1 _ Sl) as Nl.
  pose proof (sub_of_wf t1 W1 _ Sy) as Wy. pose proof (sub_of_wf t2 W2 _ Sy2) as Wy2. pose proof (sub_of_ops t1 _ Sy) as Ny.
  pose proof (sub_of_ops t2 _ Sy2) as Ny2.
  assert (length args = num_abs t1) as LA by (apply mapM_ok_length in EA; auto).
  pose proof (abs_ids_length t1) as LI.
  assert (num_indeps (l_tape a) = num_abs t1 /\ num_deps (l_tape a) = num_abs t1) as [Il Dl] by (rewrite El; split; [exact LI|exact LA]).
  assert (num_indeps (y_tape a) = num_abs t1 /\ num_deps (y_tape a) = num_deps t1) as [Iy Dy] by (rewrite Ey; split; [exact LI|reflexivity]).
  assert (num_indeps (y_tape b) = num_abs t1 /\ num_deps (y_tape b) = num_deps t1) as [Iy2 Dy2].
  { destruct Hy as [h1 h2 _ _]. unfold num_indeps, num_deps in *. rewrite <- h1, <- h2. auto. }
  clearbody a b.
  eapply rrel_bind_eq; [apply rel_an_z, HA|]. intros z z' Ezz Ezz' Hz'. rewrite Ezz, Ezz' in HD. cbn [bind] in HD.
  eapply rrel_bind_eq; [apply (rel_mul_right_vec _ _ _ H); eauto; apply (rel_v_abs _ _ _ H), Hz'|]. intros lz lz' Elz Elz' Hlz.
  rewrite Elz, Elz' in HD. cbn [bind] in HD.
  eapply rrel_bind_eq; [apply (rel_v_sub _ _ _ H); eauto|]. intros av av' Eav Eav' Ha. rewrite Eav, Eav' in HD. cbn [bind] in HD.
  eapply rrel_bind; [apply (rel_mul_right_vec _ _ _ H); eauto; apply (rel_v_abs _ _ _ H), Hz'|]. intros yz yz' Hyz.
  eapply rrel_bind_eq; [apply (rel_mul_right_vec _ _ _ H); eauto|]. intros zd zd' Ezd Ezd' Hzd. rewrite Ezd, Ezd' in HD. cbn [bind] in HD.
  eapply rrel_bind_eq; [apply (rel_v_add _ _ _ H); eauto|]. intros dt dt' Edt Edt' Hdt. rewrite Edt, Edt' in HD. cbn [bind] in HD.
  eapply rrel_bind_eq; [apply (rel_dz_loop _ _ _ _ _ H HE1 HE2 red1 red2 R1 R2); eauto|]. intros dz dz' Edz Edz' Hdz. specialize (HD dz dz' Edz Edz').
  assert (length dz = num_abs t1) as Ldz.
  { assert (length dt = num_abs t1) as Ldt.
    { unfold v_add in Edt. destruct (Nat.eqb_spec (length av) (length zd)) as [Lz|]; [|discriminate Edt]. injection Edt as <-.
      rewrite v_zip_len by auto. unfold v_sub in Eav. destruct (Nat.eqb_spec (length z) (length lz)) as [Lz2|]; [|discriminate Eav].
      injection Eav as <-. rewrite v_zip_len by auto. unfold an_z in Ezz. unfold an_new in EN. rewrite EA in EN. injection EN as <-.
      cbn in Ezz. rewrite EA in Ezz. cbn in Ezz. apply gather_length in Ezz. lia. }
    destruct (dz_loop_total O1 red1 R1 (l_tape a) dt (num_abs t1) Wl Il Dl Ldt (num_abs t1) dt Ldt) as (d' & Ed' & Ld'). congruence. }
  pose proof (rel_signs _ _ _ H bits dz dz' HD 0 0) as HS. pose proof (signs_loop_total O1 bits dz 0 0) as HL.
  destruct (signs_loop O1 bits 0 0 dz) as [sg q], (signs_loop O2 bits 0 0 dz') as [sg' q']. destruct HS as [HS <-].
  destruct (HL _ _ eq_refl) as (Lsg & _). rewrite Ldz in Lsg. clear HL.
  assert (exists g1 i1 m1 g2 i2, match n1 with
      | Some g => (g_hom g, g_inh g, q + g_mult g)
      | None => (m_id O1 (num_deps t1), repeat (f_zero O1) (num_deps t1), q) end = (g1, i1, m1) /\
    match n2 with
      | Some g => (g_hom g, g_inh g, q + g_mult g)
      | None => (m_id O2 (num_deps t1), repeat (f_zero O2) (num_deps t1), q) end = (g2, i2, m1) /\
    mQ g1 g2 /\ Qs i1 i2 /\ wf_mat g1 /\ wf_mat g2 /\ m_cols g1 = num_deps t1) as (g1 & i1 & m1 & g2 & i2 & -> & -> & HG & HI & Wg1 & Wg2 & Cg).
  { destruct n1 as [h1|], n2 as [h2|]; cbn in HN; try contradiction.
    - destruct HN as [G1 G2 G3]. rewrite <- G3. eexists _, _, _, _, _. split; [reflexivity|]. split; [reflexivity|].
      cbn in NF. destruct NF. auto 8.
    - eexists _, _, _, _, _. split; [reflexivity|]. split; [reflexivity|]. split; [apply (rel_m_id _ _ _ H)|].
      split; [apply rel_repeat_g, (q_zero _ _ _ H)|]. split; [apply m_tab_wf|]. split; [apply m_tab_wf|]. reflexivity. }
  pose proof HG as [Gr Gc _].
  destruct (mul_left_total O1 red1 R1 (y_tape a) g1 Wy Ny Wg1) as (ys & Eys & Wys & Rys & Cys); [lia|].
  destruct (mul_left_total O2 red2 R2 (y_tape b) g2 Wy2 Ny2 Wg2) as (ys2 & Eys2 & Wys2 & Rys2 & Cys2); [lia|].
  pose proof (rel_mul_left _ _ _ H red1 red2 R1 R2 _ _ _ _ Hy HG) as Hys. rewrite Eys, Eys2 in *. cbn [rrel bind] in *.
  assert (mQ (scale_cols O1 ys sg) (scale_cols O2 ys2 sg')) as HB by (apply (rel_scale _ _ _ H); auto).
  eapply rrel_bind.
  { eapply (rel_u_loop _ _ _ _ _ H HE1 HE2 C red1 red2 R1 R2) with (s := num_abs t1); eauto.
    - apply scale_cols_total; auto. lia.
    - apply scale_cols_total; auto. rewrite <- (F2_len _ _ _ HS). lia.
    - cbn. lia. }
  intros u u' Hu.
  eapply rrel_bind; [apply (rel_mul_left _ _ _ H); eauto|]. intros gj gj' Hgj.
  eapply rrel_bind; [apply (rel_mul_left _ _ _ H); eauto|]. intros uz uz' Huz.
  eapply rrel_bind; [apply (rel_m_add _ _ _ H); eauto|]. intros hom hom' Hh.
  eapply rrel_bind; [apply MV; auto; apply (rel_v_neg _ _ _ H), Hyz|]. intros gb gb' Hgb.
  eapply rrel_bind; [apply (rel_v_add _ _ _ H); eauto|]. intros j1 j1' Hj1.
  eapply rrel_bind; [apply MW; auto|]. intros ua ua' Hua.
  eapply rrel_bind; [apply (rel_v_add _ _ _ H); eauto|]. intros inh inh' Hinh.
  cbn. constructor; auto.
Qed.
End With.

Theorem rel_along_by os ts1 ts2 : Forall2 (tapes_related Q) ts1 ts2 -> forall i n x1 x2 dx1 dx2, fits ts1 n -> fits ts2 n ->
  length x1 = n -> length dx1 = n -> Qs x1 x2 -> Qs dx1 dx2 ->
  (forall d1 d2, along_switching O1 red1 ts1 x1 dx1 = Ok d1 -> along_switching O2 red2 ts2 x2 dx2 = Ok d2 ->
    Forall2 (same_sign O1 O2) d1 d2) ->
  rrel (g_rel Q) (along_by O1 red1 os i ts1 x1 dx1) (along_by O2 red2 os i ts2 x2 dx2).
Proof.
  induction 1 as [|t1 t2 ts1 ts2 HT HTs IH]; intros i n x1 x2 dx1 dx2 F1' F2' L1 Ld1 HX HD HS; cbn [along_by].
  - cbn. rewrite (F2_len _ _ _ HX). constructor; cbn; auto; [apply rel_m_id; auto|eapply rel_zeros; eauto].
  - destruct F1' as (W1 & N1 & F1'), F2' as (W2 & N2 & F2'). cbn [along_switching] in HS.
    pose proof (F2_len _ _ _ HX) as L2. pose proof (F2_len _ _ _ HD) as Ld2.
    destruct (stage_total O1 t1 x1 dx1 W1) as (a & y & d & Ea & Ey & Ed & Wa & Na & Da & Ly & Ldy); try congruence.
    destruct (stage_total O2 t2 x2 dx2 W2) as (b & y' & d' & Eb & Ey' & Ed' & Wb & Nb & Db & Ly' & Ldy'); try congruence.
    pose proof (rel_tape_zero _ _ _ H _ _ _ _ HT HX) as X. rewrite Ea, Eb in X. cbn in X.
    pose proof (rel_tape_y _ _ _ X) as Y. rewrite Ey, Ey' in Y. cbn in Y.
    pose proof (rel_tape_forward _ _ _ H _ _ _ _ X HD) as Z. rewrite Ed, Ed' in Z. cbn in Z.
    rewrite Ea, Eb in *. cbn [bind] in *. rewrite Ey, Ey' in *. cbn [bind] in *. rewrite Ed, Ed' in *. cbn [bind] in *.
    destruct (switching_total O1 red1 R1 a dx1 Wa) as (s & Es); [congruence|].
    destruct (switching_total O2 red2 R2 b dx2 Wb) as (s' & Es'); [congruence|].
    pose proof (rel_switching_values _ _ _ _ _ H HE1 HE2 red1 red2 R1 R2 _ _ _ _ X HD) as S. rewrite Es, Es' in *. cbn [rrel bind] in *.
    apply F2_len in S.
    destruct (along_total O1 red1 R1 ts1 _ y d F1' Ly Ldy) as (g0 & r & dd & Eg0 & Er & _ & Wg0 & Cg0 & Lg0 & _).
    destruct (along_total O2 red2 R2 ts2 _ y' d' F2' Ly' Ldy') as (g0' & r' & dd' & Eg0' & Er' & _ & Wg0' & Cg0' & Lg0' & _).
    rewrite Er, Er' in HS. cbn [bind] in HS. specialize (HS _ _ eq_refl eq_refl). destruct (F2_app_inv _ _ _ _ _ S HS) as [S1 S2].
    destruct (along_by_same O1 red1 R1 os ts1 (i + 1) _ y d F1' Ly Ldy) as (g & h & Eg & Eh & M1 & M2 & M3).
    destruct (along_by_same O2 red2 R2 os ts2 (i + 1) _ y' d' F2' Ly' Ldy') as (g' & h' & Eg' & Eh' & M1' & M2' & M3').
    assert (h = g0) as -> by congruence. assert (h' = g0') as -> by congruence.
    assert (num_deps t2 = num_deps t1) as ND by (unfold num_deps; now rewrite (tr_deps _ _ _ HT)).
    rewrite ND in F2'.
    pose proof (IH (i + 1) _ y y' d d' F1' F2' Ly Ldy Y Z) as G. rewrite Eg, Eg' in *. cbn [bind rrel] in *.
    apply (rel_gj_with _ _ _ _ (rel_mulv_by (fst (os i))) (rel_mulv_by (snd (os i))) a b dx1 dx2 [0%N] (Some g) (Some g')); auto.
    + apply G. intros d1 d2 U V. congruence.
    + cbn. rewrite M1. exact Wg0.
    + cbn. rewrite M1'. exact Wg0'.
    + cbn. rewrite M1. split; congruence.
    + intros d1 d2 U V. congruence.
Qed.
End Two.

(** ** Rounding errors, whatever the order *)
Local Open Scope R_scope.
Section Main.
Context (T : libm) (HT : libm_accurate T).
Context (red : list (list (nat * list spec_float)) -> list (nat * list spec_float))
  (redb : list (list (nat * list ball)) -> list (nat * list ball)) (redr : list (list (nat * list R)) -> list (nat * list R)).
Hypothesis HR : rayon red.
Hypothesis HRb : rayon redb.
Hypothesis HRr : rayon redr.

Theorem abs_normal_by_error o (t : tape spec_float) x t64 tb tr : valid2 o -> wf_tape t -> length x = num_indeps t -> replays T t x t64 tb tr ->
  exists N Nb Nr,
    abs_normal_by (f64ops T) red o t64 = Ok N /\ abs_normal_by Bops redb o tb = Ok Nb /\ abs_normal_tape Rops redr tr = Ok Nr /\
    bounded_mat (f_zmat N) (f_zmat Nb) (f_zmat Nr) /\ bounded_mat (f_lmat N) (f_lmat Nb) (f_lmat Nr) /\
    bounded_mat (f_jmat N) (f_jmat Nb) (f_jmat Nr) /\ bounded_mat (f_ymat N) (f_ymat Nb) (f_ymat Nr) /\
    bounded (f_a N) (f_a Nb) (f_a Nr) /\ bounded (f_b N) (f_b Nb) (f_b Nr).
Proof.
  intros HV W L HP. destruct (three_wf T HT t x t64 tb tr W L HP) as ([C1 C2] & W64 & Wb & Wr).
  destruct (abs_normal_total Rops redr HRr tr Wr) as (Nr & ER & _).
  rewrite <- (abs_normal_exact redr o) in ER by auto.
  pose proof (rel_abs_normal_with _ _ _ (inside_related T HT) red redb HR HRb _ _ _ _
    (rel_mulv_by _ _ _ (inside_related T HT) (fst o)) (rel_mulv_by _ _ _ (inside_related T HT) (snd o)) _ _ C1) as X.
  pose proof (rel_abs_normal_with _ _ _ about_related redb redr HRb HRr _ _ _ _
    (rel_mulv_by _ _ _ about_related (fst o)) (rel_mulv_by _ _ _ about_related (snd o)) _ _ C2) as Y.
  fold (abs_normal_by (f64ops T) red o t64) (abs_normal_by Bops redb o tb) in X.
  fold (abs_normal_by Bops redb o tb) (abs_normal_by Rops redr o tr) in Y.
  rewrite ER in Y. apply rrel_ok in Y as (Nb & EB & [y1 y2 y3 y4 y5 y6]). rewrite EB in X. apply rrel_ok in X as (N & EN & [x1 x2 x3 x4 x5 x6]).
  rewrite (abs_normal_exact redr o) in ER by auto.
  exists N, Nb, Nr. do 3 (split; [auto|]). do 4 (split; [apply bounded_mat_of; auto|]). split; apply bounded_of; auto.
Qed.

Theorem gj_by_error o (t : tape spec_float) x t64 tb tr : valid2 o -> wf_tape t -> length x = num_indeps t -> replays T t x t64 tb tr ->
  forall dx, length dx = num_indeps t ->
  forall bits db, switching_values Bops redb tb (map point dx) = Ok db -> Forall decided db ->
  exists G Gb Gr,
    gj_by (f64ops T) red o t64 dx bits None = Ok G /\
    gj_by Bops redb o tb (map point dx) bits None = Ok Gb /\
    generalized_jacobian_tape Rops redr tr (map real_of dx) bits None = Ok Gr /\
    g_mult G = g_mult Gr /\ bounded_mat (g_hom G) (g_hom Gb) (g_hom Gr) /\ bounded (g_inh G) (g_inh Gb) (g_inh Gr).
Proof.
  intros HV W L HP dx Ldx bits db EB DB. destruct (three_wf T HT t x t64 tb tr W L HP) as ([C1 C2] & W64 & Wb & Wr).
  pose proof (three_ops T HT t x t64 tb tr W L HP) as (I1 & D1 & O1 & I2 & D2 & O2 & I3 & D3 & O3).
  destruct (switching_rel T HT red redb redr HR HRb HRr t x t64 tb tr W L HP dx Ldx) as (dz & db' & dr & EZ & EB' & ER & HZ & HB).
  assert (db' = db) as -> by congruence.
  destruct (gj_by_total Bops redb HRb o tb (map point dx) bits None Wb I) as (Gb & EG & _); [|exact I|].
  { rewrite map_length. unfold num_indeps in *. congruence. }
  pose proof (rel_gj_with _ _ _ _ _ (inside_related T HT) (f64_eq_like T) ball_eq_like inside_compat red redb HR HRb _ _ _ _
    (rel_mulv_by _ _ _ (inside_related T HT) (fst o)) (rel_mulv_by _ _ _ (inside_related T HT) (snd o)) t64 tb dx (map point dx) bits None None
    C1 W64 Wb (inside_points dx) I I I I) as X.
  pose proof (rel_gj_with _ _ _ _ _ about_related ball_eq_like R_eq_like about_compat redb redr HRb HRr _ _ _ _
    (rel_mulv_by _ _ _ about_related (fst o)) (rel_mulv_by _ _ _ about_related (snd o)) tb tr (map point dx) (map real_of dx) bits None None
    C2 Wb Wr (about_points dx) I I I I) as Y.
  fold (gj_by (f64ops T) red o t64 dx bits None) (gj_by Bops redb o tb (map point dx) bits None) in X.
  fold (gj_by Bops redb o tb (map point dx) bits None) (gj_by Rops redr o tr (map real_of dx) bits None) in Y.
  rewrite (gj_exact redr o) in Y by auto.
  rewrite EG in X, Y. lapply X; [clear X; intros X|]. lapply Y; [clear Y; intros Y|].
  - apply rrel_ok in X as (G & E64 & [x1 x2 x3]). apply rrel_ok' in Y as (Gr & Er & [y1 y2 y3]).
    exists G, Gb, Gr. do 3 (split; [auto|]). split; [congruence|]. split; [apply bounded_mat_of; auto|apply bounded_of; auto].
  - intros d1 d2 E1 E2. replace d1 with db by congruence. replace d2 with dr by congruence.
    eapply F2_sign'; [exact about_sign|exact HB|exact DB].
  - intros d1 d2 E1 E2. replace d1 with dz by congruence. replace d2 with db by congruence.
    eapply F2_sign; [apply inside_sign|exact HZ|exact DB].
Qed.

Lemma along_by_exact os ts : (forall i, valid2 (os i)) -> forall i x dx, along_by Rops redr os i ts x dx = along Rops redr ts x dx.
Proof.
  intros HV. induction ts as [|t ts IH]; intros i x dx; cbn; [reflexivity|].
  destruct (tape_zero_order Rops t x) as [t1|]; [|reflexivity]. cbn. destruct (tape_y t1) as [y|]; [|reflexivity]. cbn.
  destruct (tape_forward Rops t1 dx) as [dy|]; [|reflexivity]. cbn. rewrite IH. destruct (along Rops redr ts y dy) as [g|]; [|reflexivity]. cbn.
  apply gj_exact, HV.
Qed.
Theorem chain_by_error os est c x dx k w ts : (forall i, valid2 (os i)) ->
  accurate est (Z.of_nat (chain_len c) + 1) -> (Z.of_nat (chain_len c) + 1 <= 2 ^ 32)%Z -> (2 <= k)%nat ->
  length dx = length x -> recorded (f64ops T) (fn_iter c) x dx ts ->
  exists db, along_switching Bops redb (map (map_tape point) ts) (map point x) (map point dx) = Ok db /\
    (Forall decided db -> exists G w' Gb Gr,
      generalized_jacobian_chain_by (f64ops T) red os est c x dx (Some k) w = Ok (G, w') /\
      along_by Bops redb os 0 (map (map_tape point) ts) (map point x) (map point dx) = Ok Gb /\
      along Rops redr (map (map_tape real_of) ts) (map real_of x) (map real_of dx) = Ok Gr /\
      g_mult G = g_mult Gr /\ bounded_mat (g_hom G) (g_hom Gb) (g_hom Gr) /\ bounded (g_inh G) (g_inh Gb) (g_inh Gr)).
Proof.
  intros HV A B Hk Ld HC. pose proof (recorded_fits _ _ _ _ _ HC Ld) as HF. set (n := length x) in *.
  destruct (chain_is_along_by (f64ops T) red HR os est c x dx k w ts A B Hk Ld HC) as (G & w' & EG & EA).
  destruct (close_tapes ts) as [C1 C2].
  pose proof (fits_map point ts n HF) as Fb. pose proof (fits_map real_of ts n HF) as Fr.
  assert (length (map point x) = n /\ length (map point dx) = n) as [Lbx Lbd] by (rewrite !map_length; auto).
  destruct (along_total Bops redb HRb _ n (map point x) (map point dx) Fb Lbx Lbd) as (_ & db & _ & _ & Eb & _).
  destruct (along_by_same Bops redb HRb os _ 0 n (map point x) (map point dx) Fb Lbx Lbd) as (Gb & _ & EGb & _).
  pose proof (rel_along_switching _ _ _ _ _ (inside_related T HT) (f64_eq_like T) ball_eq_like red redb HR HRb _ _ C1
    _ _ _ _ (inside_points x) (inside_points dx)) as X.
  pose proof (rel_along_switching _ _ _ _ _ about_related ball_eq_like R_eq_like redb redr HRb HRr _ _ C2
    _ _ _ _ (about_points x) (about_points dx)) as Y.
  rewrite Eb in X, Y. apply rrel_ok in X as (dz & Ez & HZ). apply rrel_ok' in Y as (dr & Er & HB).
  exists db. split; [auto|]. intros DB.
  pose proof (rel_along_by _ _ _ _ _ (inside_related T HT) (f64_eq_like T) ball_eq_like inside_compat red redb HR HRb os _ _ C1
    0%nat n _ _ _ _ HF Fb eq_refl Ld (inside_points x) (inside_points dx)) as X.
  pose proof (rel_along_by _ _ _ _ _ about_related ball_eq_like R_eq_like about_compat redb redr HRb HRr os _ _ C2
    0%nat n _ _ _ _ Fb Fr Lbx Lbd (about_points x) (about_points dx)) as Y.
  rewrite along_by_exact in Y by auto. rewrite EGb in X, Y. rewrite EA in X.
  lapply X; [clear X; intros X|]. lapply Y; [clear Y; intros Y|].
  - destruct X as [x1 x2 x3]. apply rrel_ok' in Y as (Gr & EGr & [y1 y2 y3]).
    exists G, w', Gb, Gr. do 3 (split; [auto|]). split; [congruence|]. split; [apply bounded_mat_of; auto|apply bounded_of; auto].
  - intros d1 d2 E1 E2. replace d1 with db by congruence. replace d2 with dr by congruence.
    eapply F2_sign'; [exact about_sign|exact HB|exact DB].
  - intros d1 d2 E1 E2. replace d1 with dz by congruence. replace d2 with db by congruence.
    eapply F2_sign; [apply inside_sign|exact HZ|exact DB].
Qed.
End Main.

(** ** Statements about every outcome *)
Theorem abs_normal_matrices {F} (Fo : Fops F) red o t :
  match abs_normal_by Fo red o t, abs_normal_tape Fo red t with
  | Ok N, Ok N' => same_anf N N'
  | Panic p, Panic q => p = q
  | _, _ => False
  end.
Proof. exact (anf_with_same Fo red _ _ t (by_like Fo _) (by_like Fo _)). Qed.
Theorem gj_homogeneous {F} (Fo : Fops F) red o t dx bits next :
  match gj_by Fo red o t dx bits next, generalized_jacobian_tape Fo red t dx bits next with
  | Ok G, Ok G' => same_hom G G'
  | Panic p, Panic q => p = q
  | _, _ => False
  end.
Proof.
  apply (gj_with_same Fo red _ _ t dx bits next next (by_like Fo _) (by_like Fo _)). destruct next; cbn; [|auto]. repeat split.
Qed.
