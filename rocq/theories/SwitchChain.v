(** Chains of functions: differentiation along the branches a direction selects. *)
From Coq Require Import Reals Lra List Arith ZArith NArith Bool Lia.
From Verif Require Import Base Float Operation Tape AContext Methods Function Spec TapeFacts AContextFacts
  SweepFacts RealInst Param Instances FunctionFacts RecordFacts ReplayFacts Replay2 ApiFacts3 DerivSpec DerivFacts LinearFacts DerivFacts2
  Matrix MatrixFacts Jacobian JacobianFacts AbsNormal AbsNormalFacts AnfSpec RVec AnfFacts AnfFacts2
  ChainFacts Checkpoint CheckSpec CheckMain GenJac GenSpec GenFacts GenMain GenExplicit DriverSpec TapeShape OnceMain ExamplesR ExamplesGen
  StraightSpec StraightFacts StraightMain LimitSpec LimitFacts SwitchSpec SwitchFacts SwitchMain.
Import ListNotations.
Local Open Scope R_scope.

Lemma zero_bits k : bit [0%N] k = false.
Proof. unfold bit. destruct (k / 8)%nat as [|q]; cbn; [|destruct q; reflexivity]. destruct (N.of_nat (k mod 8)); reflexivity. Qed.
Lemma branch_zero s1 s2 u : branch [0%N] s1 u = branch [0%N] s2 u.
Proof. unfold branch. rewrite !zero_bits. reflexivity. Qed.
Lemma zeros_app a b : zeros (a ++ b) = (zeros a + zeros b)%nat.
Proof. unfold zeros. rewrite filter_app, app_length. auto. Qed.

(** ** Forgetting that intermediate results count as inputs *)
Definition RVf (w : unit) (a b : bval) : Prop :=
  b_val a = b_val b /\ b_tan a = b_tan b /\ b_der a = b_der b /\
  (b_dep b = true -> b_dep a = true) /\ (b_dep b = false -> b_tan b = 0 /\ b_der b = 0).
Definition RSf (n : nat) (w : unit) (s1 s2 : list R) : Prop := (zeros s2 <= zeros s1 + n)%nat.

Lemma sim_forget n oc x1 y1 x2 y2 : arity_ok oc y1 -> RVf tt x1 x2 -> orel (RVf tt) y1 y2 ->
  simM false (fun _ _ => True) (RSf n) RVf tt (branch_fop [0%N] oc x1 y1) (branch_fop [0%N] oc x2 y2).
Proof.
  intros Ha (X1 & X2 & X3 & X4 & X5) Hy s1 s2 HS.
  assert (option_map b_val y1 = option_map b_val y2 /\ option_map b_tan y1 = option_map b_tan y2 /\
    option_map b_der y1 = option_map b_der y2) as (Y1 & Y2 & Y3).
  { destruct y1, y2; cbn in *; try contradiction; auto. destruct Hy as (-> & -> & -> & _). auto. }
  unfold branch_fop. rewrite X1, X2, X3, Y1, Y2, Y3.
  destruct (zero_order_value Rops oc (b_val x2) (option_map b_val y2)) as [v|]; cbn [bind]; [|discriminate].
  destruct (first_order_value Rops oc (b_val x2) (option_map b_val y2) (b_tan x2) (option_map b_tan y2)) as [e|] eqn:Ee; cbn [bind]; [|discriminate].
  destruct (opcode_eqb oc Abs) eqn:Eo.
  - apply opcode_eqb_eq in Eo. subst oc.
    destruct y1 as [y1|]; [discriminate Ha|]. destruct y2; [contradiction|].
    destruct (b_dep x2) eqn:D2.
    + rewrite X4 by auto. rewrite (branch_zero s1 s2).
      eexists _, _, tt. split; [reflexivity|]. split; [auto|]. split.
      * unfold RSf in *. rewrite !zeros_app. lia.
      * unfold RVf. cbn. repeat split; auto; discriminate.
    + destruct X5 as [Z1 Z2]; auto.
      assert (e = 0) as -> by (rewrite Z1 in Ee; eapply fov_zero; [|exact Ee]; auto).
      destruct (b_dep x1).
      * eexists _, _, tt. split; [reflexivity|]. split; [auto|]. split.
        -- unfold RSf in *. rewrite zeros_app. lia.
        -- unfold RVf. cbn. rewrite Z2, Rmult_0_r. repeat split; auto; discriminate.
      * eexists _, _, tt. split; [reflexivity|]. split; [auto|]. split; [auto|].
        unfold RVf. cbn. repeat split; auto.
  - assert (forall d, first_order_value Rops oc (b_val x2) (option_map b_val y2) (b_der x2) (option_map b_der y2) = Ok d ->
      b_dep x2 || match y2 with Some y' => b_dep y' | None => false end = false -> e = 0 /\ d = 0) as Z.
    { intros d Ef Eb. apply orb_false_iff in Eb as [E1 E2]. destruct X5 as [Z1 Z2]; auto. rewrite Z1 in Ee. rewrite Z2 in Ef.
      split; [eapply fov_zero; [|exact Ee]|eapply fov_zero; [|exact Ef]];
        (destruct y1 as [y1|], y2 as [y2|]; cbn in *; try contradiction; auto; right; f_equal; apply Hy; auto). }
    assert (b_dep x2 || match y2 with Some y' => b_dep y' | None => false end = true ->
      b_dep x1 || match y1 with Some y' => b_dep y' | None => false end = true) as M.
    { intros Eb. apply orb_true_iff in Eb as [Eb|Eb]; [rewrite X4; auto|]. apply orb_true_iff. right.
      destruct y1 as [y1|], y2 as [y2|]; cbn in *; try contradiction; try discriminate. apply Hy. auto. }
    destruct (first_order_value Rops oc (b_val x2) (option_map b_val y2) (b_der x2) (option_map b_der y2)) as [d|] eqn:Ef;
      destruct oc; cbn [bind]; try discriminate; try discriminate Eo;
      (eexists _, _, tt; split; [reflexivity|]; split; [auto|]; split; [auto|]; unfold RVf; cbn;
       do 3 (split; [auto|]); split; [exact M|]; intros Eb; exact (Z d eq_refl Eb)).
Qed.

Lemma forget_eval n (f : func R) xs1 xs2 s1 s2 ys1 s1' : RVs RVf tt xs1 xs2 -> RSf n tt s1 s2 ->
  feval Rops (branch_fop [0%N]) b_cst b_val f xs1 s1 = Ok (ys1, s1') ->
  exists ys2 s2', feval Rops (branch_fop [0%N]) b_cst b_val f xs2 s2 = Ok (ys2, s2') /\
    RVs RVf tt ys1 ys2 /\ RSf n tt s1' s2'.
Proof.
  intros HV HS E.
  assert (Sim := sim_feval Rops (branch_fop [0%N]) b_cst b_val (branch_fop [0%N]) b_cst b_val false
    (fun _ _ => True) (RSf n) RVf).
  specialize (Sim (fun _ => I) (fun _ _ _ _ _ => I) (fun a b x y _ H => match a, b return RVf a x y -> RVf b x y with tt, tt => fun h => h end H)).
  specialize (Sim (fun w => match w with tt => sim_forget n end)).
  assert (forall (w : unit) c, RVf w (b_cst c) (b_cst c)) as HC by (intros w c; unfold RVf; cbn; repeat split; auto).
  specialize (Sim HC f (or_introl (fun w a b HR => proj1 HR)) tt xs1 xs2 HV s1 s2 HS).
  rewrite E in Sim. destruct Sim as (ys2 & s2' & [] & E2 & _ & HS' & HV'). eauto.
Qed.

Lemma inputs_of ys : forall ys2, RVs RVf tt ys ys2 ->
  RVs RVf tt (b_inputs (map b_val ys) (map b_tan ys) (map b_der ys)) ys2.
Proof.
  induction ys as [|y ys IH]; intros ys2 H; inversion H as [|? b ? l Hb Hl]; subst; cbn; constructor.
  - destruct Hb as (A & B & C & D & E). unfold RVf. cbn. repeat split; auto; apply E; auto.
  - apply IH. auto.
Qed.

Lemma stages_pipe fs : forall x dx v ys s, stages fs x dx v = Ok (ys, s) -> forall xs s0, RVs RVf tt (b_inputs x dx v) xs ->
  exists ys' s', pipe (feval Rops (branch_fop [0%N]) b_cst b_val) fs xs s0 = Ok (ys', s') /\
    RVs RVf tt ys ys' /\ (zeros s' <= zeros s + zeros s0)%nat.
Proof.
  induction fs as [|f fs IH]; intros x dx v ys s E xs s0 HV; cbn [stages] in E.
  - injection E as <- <-. exists xs, s0. split; [reflexivity|]. split; auto.
  - apply bind_ok in E as ((y1 & s1) & E1 & E). apply bind_ok in E as ((y2 & s2) & E2 & E). injection E as <- <-. cbn [fst snd] in *.
    destruct (forget_eval (zeros s0) f (b_inputs x dx v) xs [] s0 y1 s1 HV) as (z1 & q1 & F1 & HV1 & HS1); auto.
    { unfold RSf. cbn. lia. }
    destruct (IH _ _ _ _ _ E2 z1 q1 (inputs_of _ _ HV1)) as (z2 & q2 & F2 & HV2 & HS2).
    exists z2, q2. split; [cbn [pipe]; unfold mbind; rewrite F1; exact F2|]. split; [auto|].
    unfold RSf in HS1. rewrite zeros_app. lia.
Qed.

Lemma RVf_maps ys ys' : RVs RVf tt ys ys' -> map b_val ys = map b_val ys' /\ map b_tan ys = map b_tan ys' /\ map b_der ys = map b_der ys'.
Proof.
  intros H. induction H as [|a b l l' (A & B & C & _) H (I1 & I2 & I3)]; cbn; auto. rewrite A, B, C, I1, I2, I3. auto.
Qed.
Lemma RVf_inputs x : forall dx v, RVs RVf tt (b_inputs x dx v) (b_inputs x dx v).
Proof.
  induction x as [|a x IH]; intros [|e dx] [|d v]; cbn; try constructor; auto; try apply IH.
  unfold RVf. cbn. repeat split; auto; discriminate.
Qed.

(** The composed function: the same values, tangents and derivatives, and not more zeros. *)
Theorem stages_whole c x dx v ys s : stages (fn_iter c) x dx v = Ok (ys, s) ->
  exists ys' s', branch_eval [0%N] c x dx v = Ok (ys', s') /\
    map b_val ys = map b_val ys' /\ map b_tan ys = map b_tan ys' /\ map b_der ys = map b_der ys' /\ (zeros s' <= zeros s)%nat.
Proof.
  intros E. destruct (stages_pipe _ _ _ _ _ _ E (b_inputs x dx v) [] (RVf_inputs _ _ _)) as (ys' & s' & E' & HV & HZ).
  destruct (RVf_maps _ _ HV) as (A & B & C). exists ys', s'. split; [unfold branch_eval; rewrite eval_is_pipe; exact E'|].
  cbn in HZ. rewrite Nat.add_0_r in HZ. auto.
Qed.

(** ** The chain driver *)
Theorem compose_branch red fs : rayon red -> forall x dx, tame fs x -> length dx = length x ->
  exists G, compose red fs x dx = Ok G /\
    forall v, length v = length x -> exists ys s, stages fs x dx v = Ok (ys, s) /\
      shape (g_hom G) (length ys) (length x) /\ length (g_inh G) = length ys /\
      mulv (g_hom G) v = map b_der ys /\ vadd (mulv (g_hom G) dx) (g_inh G) = map b_tan ys /\ g_mult G = zeros s.
Proof.
  intros HR. induction fs as [|f fs IH]; intros x dx HT L.
  - exists (mkG (m_id Rops (length x)) (repeat 0 (length x)) 0). split; [reflexivity|].
    intros v Lv. exists (b_inputs x dx v), []. cbn [g_hom g_inh g_mult].
    assert (length (b_inputs x dx v) = length x) as LB.
    { rewrite <- (map_length b_val), b_inputs_vals; auto. }
    rewrite LB. split; [reflexivity|]. split; [apply shape_id|]. split; [apply repeat_length|].
    rewrite !mulv_id by auto. rewrite b_inputs_ders, b_inputs_tans by auto. split; [auto|]. split; [|reflexivity].
    apply nth_ext0; [rewrite vadd_len; rewrite ?repeat_length; auto|]. intros i Hi.
    rewrite nth_vadd by (rewrite repeat_length; auto). rewrite nth_repeat. ring.
  - pose proof HT as HT0. destruct HT as (En & t & w0 & y & ET & ND & NA & Ey & HT).
    destruct (fn_tape_wf Rops _ _ _ _ _ ET) as ([W _] & _ & Nx).
    assert (num_deps t = length y) as Nd by (apply gather_length in Ey; auto).
    destruct (forward_is_tapeless Rops f x world0 t w0 dx ET L (R_const_tangents f x _)) as (outs & Eo & Ef).
    assert (map af_v outs = y) as Ev.
    { destruct (fn_tape_fresh Rops _ _ _ _ _ ET) as (_ & (y' & Hv & Hy' & _) & _).
      assert (y' = y) as -> by congruence.
      pose proof (Eo world0) as E. unfold pairs in E. rewrite eval_detached in E.
      pose proof (d_eval_values Rops f (combine x dx)) as Ed.
      rewrite map_fst_combine in Ed by auto. rewrite Hv in Ed.
      destruct (d_eval Rops f (combine x dx)) as [yy|]; cbn in E, Ed; [|discriminate].
      injection E as <-. injection Ed as Ed. rewrite map_map. transitivity (map fst yy); [|congruence]. apply map_ext. auto. }
    assert (length (map af_dv outs) = length y) as Ldv by (rewrite <- Ev, !map_length; auto).
    destruct (IH y (map af_dv outs) HT Ldv) as (G2 & E2 & H2).
    assert (exists ys0 s0, stages fs y (map af_dv outs) (map af_dv outs) = Ok (ys0, s0) /\
      shape (g_hom G2) (length ys0) (length y) /\ length (g_inh G2) = length ys0) as (ys0 & s0 & _ & S2 & L2).
    { destruct (H2 _ Ldv) as (a & b & A & B & C & _). eauto. }
    assert (next_ok (num_deps t) (Some G2)) as Hnx.
    { cbn. pose proof S2 as (_ & R2 & _). rewrite R2, Nd. auto. }
    destruct (gj_branch red HR f x world0 t w0 ET NA dx [0%N] (Some G2) L Hnx) as (G & EG & H).
    assert (generalized_jacobian Rops red f x dx [0%N] (Some G2) world0 = Ok (G, w0)) as EG'.
    { unfold generalized_jacobian, mbind, mlift. rewrite En, Nat.eqb_refl. cbn [assert]. rewrite ET.
      rewrite EG. reflexivity. }
    destruct (anf_exists t W) as [N HN].
    destruct (gj_correct red f x dx [0%N] (Some G2) world0 t w0 N HR En ET ND NA HN L Hnx)
      as (G' & dz & sigma & EG2 & SW & HSel & _ & SG & LG & HG).
    assert (G' = G) by congruence. subst G'. cbn [next_rows] in SG, LG. pose proof S2 as (_ & R2 & _). rewrite R2 in SG, LG.
    specialize (HG dx _ L (compatible_dx _ _ _ _ _ SW HSel) Ef). cbn [next_map] in HG.
    exists G. cbn [compose]. fold (pairs x dx). rewrite Eo. cbn [bind fst]. rewrite Ev, E2. cbn [bind].
    rewrite EG'. cbn [bind fst]. split; [reflexivity|].
    intros v Lv. destruct (H v Lv) as (ys & s & EB & Lys & Et & Em & Ed).
    assert (map b_tan ys = map af_dv outs) as Eyt by congruence.
    assert (map b_val ys = y) as Eyv.
    { pose proof (branch_values _ _ _ _ _ _ _ L Lv EB) as Q.
      destruct (fn_tape_fresh Rops _ _ _ _ _ ET) as (_ & (y' & Hv & Hy' & _) & _). congruence. }
    destruct (H2 (map b_der ys)) as (zs & sz & Ez & Sz & Lz & Ez1 & Ez2 & Ez3); [rewrite map_length; congruence|].
    exists zs, (s ++ sz). split.
    { cbn [stages]. rewrite EB. cbn [bind fst snd]. rewrite Eyv, Eyt, Ez. reflexivity. }
    assert (length zs = length ys0) as Lzs by congruence.
    split; [rewrite Lzs; exact SG|]. split; [rewrite Lzs; exact LG|].
    split.
    { rewrite Ed. cbn [next_hom]. rewrite seed_rows_nodup; auto; [apply S2|]. destruct S2 as (_ & _ & ->). auto. }
    split; [rewrite HG; exact Ez2|]. rewrite Em, zeros_app. cbn [next_mult]. lia.
Qed.

Theorem chain_branch red est (c : func R) x dx k w : rayon red -> tame (fn_iter c) x -> length dx = length x ->
  accurate est (Z.of_nat (chain_len c) + 1) -> (Z.of_nat (chain_len c) + 1 <= 2 ^ 32)%Z -> (2 <= k)%nat ->
  exists G w', generalized_jacobian_chain Rops red est c x dx (Some k) w = Ok (G, w') /\
    forall v, length v = length x -> exists ys s, branch_eval [0%N] c x dx v = Ok (ys, s) /\
      mulv (g_hom G) v = map b_der ys /\ vadd (mulv (g_hom G) dx) (g_inh G) = map b_tan ys /\ (zeros s <= g_mult G)%nat.
Proof.
  intros HR HT L A B Hk. destruct (compose_branch red (fn_iter c) HR x dx HT L) as (G & E & H).
  pose proof (gj_chain_compose red est c x dx k w A B Hk) as Q. rewrite E in Q. destruct Q as [w' Q].
  exists G, w'. split; [auto|]. intros v Lv. destruct (H v Lv) as (ys & s & Es & _ & _ & Ed & Et & Em).
  destruct (stages_whole _ _ _ _ _ _ Es) as (ys' & s' & Eb & _ & Ht & Hd & Hz).
  exists ys', s'. rewrite Em, Ed, Et, Ht, Hd. auto.
Qed.

(** ** One function, any bits *)
Theorem once_branch red (f : func R) x y w dx bits next : rayon red -> once_f f -> fn_n f = Ok (length x) ->
  eval_float Rops f x w = Ok (y, w) -> length dx = length x -> next_ok (length y) next ->
  exists G w', generalized_jacobian Rops red f x dx bits next w = Ok (G, w') /\
    forall v, length v = length x -> exists ys s, branch_eval bits f x dx v = Ok (ys, s) /\ map b_val ys = y /\
      mulv (g_hom G) v = mulv (next_hom (length y) next) (map b_der ys) /\ g_mult G = (zeros s + next_mult next)%nat.
Proof.
  intros HR HO En Ey Ldx Hnx. destruct (once_tape f x y w HO Ey) as (t & w' & ET & ND & NA & Hy).
  assert (num_deps t = length y) as Nd by (apply gather_length in Hy; auto).
  rewrite <- Nd in Hnx. destruct (gj_branch red HR f x w t w' ET NA dx bits next Ldx Hnx) as (G & EG & H).
  exists G, w'. split.
  { unfold generalized_jacobian, mbind, mlift. rewrite En, Nat.eqb_refl. cbn [assert]. rewrite ET, EG. reflexivity. }
  intros v Lv. destruct (H v Lv) as (ys & s & EB & Lys & _ & Em & Ed). exists ys, s. split; [auto|].
  split.
  { pose proof (branch_values _ _ _ _ _ _ _ Ldx Lv EB) as Q. rewrite eval_float_v, Q in Ey. cbn in Ey. congruence. }
  split; [|auto]. rewrite Ed, <- Nd, seed_rows_nodup; auto; destruct next as [g|]; cbn in *; try apply Hnx; apply shape_id.
Qed.


(** ** The composed function *)
Lemma branch_tape (c : func R) x dx v ys s w : length dx = length x -> length v = length x ->
  branch_eval [0%N] c x dx v = Ok (ys, s) -> exists t w', fn_tape Rops c x w = Ok (t, w') /\ num_deps t = length ys.
Proof.
  intros L L' E. pose proof (branch_values _ _ _ _ _ _ _ L L' E) as V.
  destruct (proj2 (record_iff Rops c x w)) as (t & w' & ET).
  { exists (map b_val ys), w. rewrite eval_float_v, V. reflexivity. }
  exists t, w'. split; [auto|]. destruct (fn_tape_fresh Rops _ _ _ _ _ ET) as (_ & (y' & Hv & Hy' & _) & _).
  apply gather_length in Hy'. assert (y' = map b_val ys) as -> by congruence. rewrite map_length in Hy'. auto.
Qed.

Theorem chain_composite red est (c : func R) x dx k w t wt : rayon red -> tame (fn_iter c) x -> length dx = length x ->
  accurate est (Z.of_nat (chain_len c) + 1) -> (Z.of_nat (chain_len c) + 1 <= 2 ^ 32)%Z -> (2 <= k)%nat ->
  fn_n c = Ok (length x) -> fn_tape Rops c x w = Ok (t, wt) -> NoDup (t_deps t) -> abs_once t ->
  exists G w' G2 w2, generalized_jacobian_chain Rops red est c x dx (Some k) w = Ok (G, w') /\
    generalized_jacobian Rops red c x dx [0%N] None w = Ok (G2, w2) /\
    g_hom G = g_hom G2 /\ g_inh G = g_inh G2 /\ (g_mult G2 <= g_mult G)%nat.
Proof.
  intros HR HT L A B Hk En ET ND NA.
  destruct (compose_branch red (fn_iter c) HR x dx HT L) as (G & E & H).
  pose proof (gj_chain_compose red est c x dx k w A B Hk) as Q. rewrite E in Q. destruct Q as [w' Q].
  destruct (gj_branch red HR c x w t wt ET NA dx [0%N] None L I) as (G2 & E2 & H2).
  assert (generalized_jacobian Rops red c x dx [0%N] None w = Ok (G2, wt)) as EG.
  { unfold generalized_jacobian, mbind, mlift. rewrite En, Nat.eqb_refl. cbn [assert]. rewrite ET, E2. reflexivity. }
  destruct (fn_tape_wf Rops _ _ _ _ _ ET) as ([W _] & _ & _). destruct (anf_exists t W) as [N HN].
  destruct (gj_correct red c x dx [0%N] None w t wt N HR En ET ND NA HN L I) as (G' & dz & sg & EG' & SW & HS & _ & SG & LG & HG).
  assert (G' = G2) by congruence. subst G'. cbn [next_rows] in SG, LG.
  exists G, w', G2, wt. split; [auto|]. split; [auto|].
  destruct (H dx L) as (ys & s & Es & S1 & L1 & _ & Et & Em).
  destruct (stages_whole _ _ _ _ _ _ Es) as (ys' & s' & Eb & _ & Ht & _ & Hz).
  destruct (H2 dx L) as (ys2 & s2 & Eb2 & Ln2 & Ef & Em2 & _). rewrite Eb in Eb2. injection Eb2 as <- <-.
  assert (length ys = num_deps t) as Ly by (rewrite <- Ln2, <- (map_length b_tan ys), Ht, map_length; auto).
  rewrite Ly in *.
  assert (g_hom G = g_hom G2) as Eh.
  { apply (mulv_inj _ _ _ _ S1 SG). intros v Lv.
    destruct (H v Lv) as (yv & sv & Ev & _ & _ & Ed & _). destruct (stages_whole _ _ _ _ _ _ Ev) as (yv' & sv' & Ebv & _ & _ & Hd & _).
    destruct (H2 v Lv) as (yw & sw & Ew & Lw & _ & _ & Edw). rewrite Ebv in Ew. injection Ew as <- <-.
    rewrite Ed, Edw, Hd. cbn [next_hom]. rewrite seed_rows_nodup; auto; [|apply shape_id].
    rewrite mulv_id; auto. rewrite map_length. auto. }
  split; [auto|]. split; [|cbn in Em2; lia].
  specialize (HG dx _ L (compatible_dx _ _ _ _ _ SW HS) Ef). cbn [next_map] in HG. rewrite Eh, Ht in Et.
  apply nth_ext0; [congruence|]. intros i Hi.
  assert (length (mulv (g_hom G2) dx) = num_deps t) as LM by (eapply mulv_len; eauto).
  assert (nth i (vadd (mulv (g_hom G2) dx) (g_inh G)) 0 = nth i (vadd (mulv (g_hom G2) dx) (g_inh G2)) 0) as Q2 by congruence.
  rewrite !nth_vadd in Q2 by congruence. lra.
Qed.

Theorem chain_limiting red est (c : func R) x dx k w : rayon red -> tame (fn_iter c) x -> length dx = length x ->
  accurate est (Z.of_nat (chain_len c) + 1) -> (Z.of_nat (chain_len c) + 1 <= 2 ^ 32)%Z -> (2 <= k)%nat ->
  exists G w', generalized_jacobian_chain Rops red est c x dx (Some k) w = Ok (G, w') /\
    ((g_mult G <= 1)%nat ->
     limiting (fun dx' r => exists ys, (forall w, eval Rops c (map (fun p => af_new (fst p) (snd p)) (combine x dx')) w = Ok (ys, w)) /\
       r = map af_dv ys) (g_hom G) (g_inh G) dx).
Proof.
  intros HR HT L A B Hk. destruct (compose_branch red (fn_iter c) HR x dx HT L) as (G & E & H).
  pose proof (gj_chain_compose red est c x dx k w A B Hk) as Q. rewrite E in Q. destruct Q as [w' Q].
  exists G, w'. split; [auto|]. intros HM.
  destruct (H dx L) as (ys & s & Es & S1 & L1 & _ & Et & Em).
  destruct (stages_whole _ _ _ _ _ _ Es) as (ys' & s' & Eb & Hv & Ht & _ & Hz).
  destruct (branch_tape c x dx dx ys' s' w L L Eb) as (t & wt & ET & Nd).
  assert (length ys = num_deps t) as Ly by (rewrite Nd, <- (map_length b_tan ys), Ht, map_length; auto).
  rewrite Ly in *.
  assert (limiting (fun dx' r => tape_forward Rops t dx' = Ok r) (g_hom G) (g_inh G) dx) as HL.
  { apply (branch_limiting c x w t wt ET dx [0%N]); auto. intros v Lv.
    destruct (H v Lv) as (yv & sv & Ev & _ & _ & Ed & Etv & Emv). destruct (stages_whole _ _ _ _ _ _ Ev) as (yv' & sv' & Ebv & _ & Htv & Hd & Hzv).
    exists yv', sv'. split; [auto|]. split; [congruence|]. split; [congruence|]. lia. }
  intros e He. destruct (HL e He) as (p & Lp & Hp & d & Hd & HA). exists p. split; [auto|]. split; [auto|].
  exists d. split; [auto|]. intros dx' L' Hn. specialize (HA dx' L' Hn).
  assert (length dx' = length x) as Lx by congruence.
  destruct (forward_is_tapeless Rops c x w t wt dx' ET Lx (R_const_tangents c x _)) as (outs & Eo & Ef).
  exists outs. split; [exact Eo|]. congruence.
Qed.

(** ** Programs that return no variable twice and pass none to abs twice *)
Theorem once_chain_branch red est (c : func R) x z dx k w : rayon red -> Forall once_f (fn_iter c) -> reaches Rops (fn_iter c) x z ->
  length dx = length x ->
  accurate est (Z.of_nat (chain_len c) + 1) -> (Z.of_nat (chain_len c) + 1 <= 2 ^ 32)%Z -> (2 <= k)%nat ->
  exists G w', generalized_jacobian_chain Rops red est c x dx (Some k) w = Ok (G, w') /\
    forall v, length v = length x ->
      (exists ys s, branch_eval [0%N] c x dx v = Ok (ys, s) /\
        mulv (g_hom G) v = map b_der ys /\ vadd (mulv (g_hom G) dx) (g_inh G) = map b_tan ys) /\
      (exists ys s, stages (fn_iter c) x dx v = Ok (ys, s) /\ g_mult G = zeros s).
Proof.
  intros HR HF HZ L A B Hk. pose proof (once_tame _ _ _ HF HZ) as HT.
  destruct (compose_branch red (fn_iter c) HR x dx HT L) as (G & E & H).
  pose proof (gj_chain_compose red est c x dx k w A B Hk) as Q. rewrite E in Q. destruct Q as [w' Q].
  exists G, w'. split; [auto|]. intros v Lv. destruct (H v Lv) as (ys & s & Es & _ & _ & Ed & Et & Em).
  destruct (stages_whole _ _ _ _ _ _ Es) as (ys' & s' & Eb & _ & Ht & Hd & _).
  split; [exists ys', s'|exists ys, s]; auto. rewrite Ed, Et, Ht, Hd. auto.
Qed.

Theorem once_chain_limiting red est (c : func R) x z dx k w : rayon red -> Forall once_f (fn_iter c) -> reaches Rops (fn_iter c) x z ->
  length dx = length x ->
  accurate est (Z.of_nat (chain_len c) + 1) -> (Z.of_nat (chain_len c) + 1 <= 2 ^ 32)%Z -> (2 <= k)%nat ->
  exists G w', generalized_jacobian_chain Rops red est c x dx (Some k) w = Ok (G, w') /\
    ((g_mult G <= 1)%nat ->
     limiting (fun dx' r => exists ys, (forall w, eval Rops c (map (fun p => af_new (fst p) (snd p)) (combine x dx')) w = Ok (ys, w)) /\
       r = map af_dv ys) (g_hom G) (g_inh G) dx).
Proof. intros HR HF HZ. apply chain_limiting; auto. eapply once_tame; eauto. Qed.

Theorem once_chain_composite red est (c : func R) x z dx k w t wt : rayon red -> Forall once_f (fn_iter c) -> reaches Rops (fn_iter c) x z ->
  length dx = length x ->
  accurate est (Z.of_nat (chain_len c) + 1) -> (Z.of_nat (chain_len c) + 1 <= 2 ^ 32)%Z -> (2 <= k)%nat ->
  fn_n c = Ok (length x) -> fn_tape Rops c x w = Ok (t, wt) -> NoDup (t_deps t) -> abs_once t ->
  exists G w' G2 w2, generalized_jacobian_chain Rops red est c x dx (Some k) w = Ok (G, w') /\
    generalized_jacobian Rops red c x dx [0%N] None w = Ok (G2, w2) /\
    g_hom G = g_hom G2 /\ g_inh G = g_inh G2 /\ (g_mult G2 <= g_mult G)%nat.
Proof. intros HR HF HZ. apply chain_composite; auto. eapply once_tame; eauto. Qed.

(** ** The multiplicities differ: the constant 0 followed by abs *)
Definition rx_cst : func R := Simple 1 1 (LetC 0 (Ret [1]%nat)).
Definition rx_cst_abs : func R := Chain [rx_cst; rx_abs].
Lemma rx_cst_stages v : exists ys, stages (fn_iter rx_cst_abs) [1] [1] [v] = Ok (ys, [0 + 0]).
Proof. eexists. cbn. unfold m_abs, branch_fop. cbn. reflexivity. Qed.
Lemma rx_cst_whole v : exists ys, branch_eval [0%N] rx_cst_abs [1] [1] [v] = Ok (ys, []).
Proof. eexists. unfold branch_eval. cbn. unfold m_abs, mbind, branch_fop. cbn. reflexivity. Qed.
Lemma rx_cst_once : Forall once_f (fn_iter rx_cst_abs).
Proof. repeat constructor; cbn; intuition discriminate. Qed.
Lemma rx_cst_reaches : exists z, reaches Rops (fn_iter rx_cst_abs) [1] z.
Proof.
  eexists. eapply reaches_cons; [reflexivity|rewrite eval_float_v; reflexivity|].
  eapply reaches_cons; [reflexivity|rewrite eval_float_v; reflexivity|]. apply reaches_nil.
Qed.
Lemma rx_cst_tape : exists t w', fn_tape Rops rx_cst_abs [1] world0 = Ok (t, w') /\ NoDup (t_deps t) /\ abs_once t.
Proof.
  destruct (fn_tape Rops rx_cst_abs [1] world0) as [[t w']|p] eqn:E; [|exfalso; revert E; rtape; discriminate].
  exists t, w'. split; [reflexivity|]. revert E; rtape; intros [= <- _].
  split; cbn; repeat constructor; cbn; intuition discriminate.
Qed.

Theorem multiplicity_counterexample : forall red est, rayon red -> accurate est 3 ->
  exists (c : func R) x dx G w' G2 w2, Forall once_f (fn_iter c) /\
    generalized_jacobian_chain Rops red est c x dx (Some 2%nat) world0 = Ok (G, w') /\
    generalized_jacobian Rops red c x dx [0%N] None world0 = Ok (G2, w2) /\
    g_mult G = 1%nat /\ g_mult G2 = 0%nat.
Proof.
  intros red est HR HA. destruct rx_cst_reaches as [z HZ]. destruct rx_cst_tape as (t & wt & ET & ND & NA).
  assert (chain_len rx_cst_abs = 2%nat) as EL by reflexivity.
  destruct (once_chain_branch red est rx_cst_abs [1] z [1] 2 world0 HR rx_cst_once HZ eq_refl) as (G & w' & E & H).
  { rewrite EL. exact HA. } { rewrite EL. vm_compute. discriminate. } { lia. }
  destruct (gj_branch red HR rx_cst_abs [1] world0 t wt ET NA [1] [0%N] None eq_refl I) as (G2 & E2 & H2).
  exists rx_cst_abs, [1], [1], G, w', G2, wt. split; [apply rx_cst_once|]. split; [exact E|]. split.
  { assert (fn_n rx_cst_abs = Ok (length [1])) as En by reflexivity.
    unfold generalized_jacobian, mbind, mlift. rewrite En, Nat.eqb_refl. cbn [assert]. rewrite ET, E2. reflexivity. }
  split.
  - destruct (H [1] eq_refl) as [_ (ys & s & Es & ->)]. destruct (rx_cst_stages 1) as (ys' & Es'). rewrite Es in Es'. injection Es' as _ ->.
    unfold zeros, is_zero. cbn. destruct (Req_EM_T (0 + 0) 0); [reflexivity|lra].
  - destruct (H2 [1] eq_refl) as (ys & s & Es & _ & _ & -> & _). destruct (rx_cst_whole 1) as (ys' & Es'). rewrite Es in Es'. injection Es' as _ ->.
    reflexivity.
Qed.
