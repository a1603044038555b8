(** The generalized Jacobian is the derivative along the branches the direction selects. *)
From Coq Require Import Reals Lra List Arith ZArith NArith Bool Lia.
From Verif Require Import Base Float Operation Tape AContext Methods Function Spec TapeFacts AContextFacts
  SweepFacts RealInst Param Instances FunctionFacts RecordFacts ReplayFacts Replay2 ApiFacts3 DerivSpec DerivFacts LinearFacts DerivFacts2
  Matrix MatrixFacts Jacobian JacobianFacts AbsNormal AbsNormalFacts AnfSpec RVec AnfFacts AnfFacts2
  ChainFacts Checkpoint CheckSpec CheckMain GenJac GenSpec GenFacts GenMain GenExplicit
  StraightSpec StraightFacts StraightMain LimitSpec LimitFacts SwitchSpec SwitchFacts.
Import ListNotations.
Local Open Scope R_scope.

(** ** The values are the ordinary ones. *)
Lemma b_inputs_vals x : forall dx v, length dx = length x -> length v = length x -> map b_val (b_inputs x dx v) = x.
Proof. induction x as [|a x IH]; intros [|e dx] [|d v] L L'; try discriminate; cbn; auto. f_equal. auto. Qed.
Lemma b_inputs_tans x : forall dx v, length dx = length x -> length v = length x -> map b_tan (b_inputs x dx v) = dx.
Proof. induction x as [|a x IH]; intros [|e dx] [|d v] L L'; try discriminate; cbn; auto. f_equal. auto. Qed.
Lemma b_inputs_ders x : forall dx v, length dx = length x -> length v = length x -> map b_der (b_inputs x dx v) = v.
Proof. induction x as [|a x IH]; intros [|e dx] [|d v] L L'; try discriminate; cbn; auto. f_equal. auto. Qed.

Theorem branch_values bits (f : func R) x dx v ys s : length dx = length x -> length v = length x ->
  branch_eval bits f x dx v = Ok (ys, s) -> v_eval Rops f x = Ok (map b_val ys).
Proof.
  intros L L' E. unfold branch_eval in E.
  assert (Sim := sim_feval Rops (branch_fop bits) b_cst b_val (v_fop Rops) (fun c => c) (fun v => v) false
    (fun _ _ => True) (fun (_ : unit) (_ : list R) (_ : unit) => True) (fun _ (a : bval) b => b_val a = b)).
  specialize (Sim (fun _ => I) (fun _ _ _ _ _ => I) (fun a b x y _ H => H)).
  assert (forall (w : unit) oc (x1 : bval) y1 x2 y2, arity_ok oc y1 -> b_val x1 = x2 ->
    orel (fun (a : bval) b => b_val a = b) y1 y2 ->
    simM false (fun _ _ => True) (fun (_ : unit) (_ : list R) (_ : unit) => True) (fun _ (a : bval) b => b_val a = b) w
      (branch_fop bits oc x1 y1) (v_fop Rops oc x2 y2)) as HF.
  { intros w oc x1 y1 x2 y2 Ha <- Hy s1 s2 _.
    assert (option_map b_val y1 = y2) as <- by (destruct y1, y2; cbn in *; try contradiction; congruence).
    unfold branch_fop, v_fop, mlift. destruct (zero_order_value Rops oc (b_val x1) (option_map b_val y1)) as [r|]; cbn [bind]; [|discriminate].
    match goal with |- context [bind ?m _] => destruct m as [d|] end; cbn [bind]; [|discriminate].
    destruct (opcode_eqb oc Abs) eqn:Eo.
    - apply opcode_eqb_eq in Eo. subst oc. destruct (b_dep x1); eexists _, _, tt; (split; [reflexivity|]); auto.
    - match goal with |- context [bind ?m _] => destruct m as [d2|] end;
        destruct oc; try discriminate Eo; cbn [bind]; try discriminate; eexists _, _, tt; (split; [reflexivity|]); auto. }
  specialize (Sim HF (fun w c => eq_refl) f (or_introl (fun w a b HR => HR)) tt (b_inputs x dx v) x).
  assert (RVs (fun (_ : unit) (a : bval) b => b_val a = b) tt (b_inputs x dx v) x) as HRl.
  { rewrite <- (b_inputs_vals x dx v L L') at 2. clear. induction (b_inputs x dx v); cbn; constructor; auto. }
  specialize (Sim HRl [] tt I). rewrite E in Sim. destruct Sim as (qs & [] & [] & Ez & _ & _ & HRz).
  unfold v_eval. rewrite Ez. cbn. f_equal. clear - HRz. induction HRz; cbn; auto. f_equal; auto.
Qed.

(** ** Signs *)
Definition branches (bits : list N) (s : list R) : list R :=
  map (fun k => branch bits (firstn k s) (nth k s 0)) (seq 0 (length s)).
Lemma branches_len bits s : length (branches bits s) = length s.
Proof. unfold branches. rewrite map_length, seq_length. auto. Qed.
Lemma branches_nth bits s k : (k < length s)%nat -> nth k (branches bits s) 0 = branch bits (firstn k s) (nth k s 0).
Proof. intros H. unfold branches. rewrite (nth_map_seq (fun k => _)) by auto. reflexivity. Qed.
Lemma branches_selected bits s : selected bits s (branches bits s).
Proof.
  split; [apply branches_len|]. intros k Hk. rewrite branches_nth by auto. unfold branch.
  destruct (Rlt_dec 0 (nth k s 0)); [repeat split; auto; lra|].
  destruct (Rlt_dec (nth k s 0) 0); [repeat split; auto; lra|]. repeat split; auto; lra.
Qed.
Lemma selected_branches bits s sg : selected bits s sg -> sg = branches bits s.
Proof.
  intros [L H]. apply nth_ext0; [rewrite branches_len; auto|]. intros k Hk. rewrite L in Hk.
  destruct (H k Hk) as (A & B & C). rewrite branches_nth by auto. unfold branch.
  destruct (Rlt_dec 0 (nth k s 0)); [auto|]. destruct (Rlt_dec (nth k s 0) 0); [auto|]. apply C. lra.
Qed.

(** ** What the tape says about tangents, derivatives and switching values *)
Section Tape.
Context (t : tape R) (HRec : recorded_tape t) (N : anf) (HN : anf_of t N).
Context (bits : list N.t) (dx v T D s : list R).
Context (Ldx : length dx = num_indeps t) (Lv : length v = num_indeps t).
Context (HS : switch_at bits dx v (t_indeps t) (t_ops t) (t_vals t) T D s).

Lemma switch_s args : abs_args t = Ok args -> s = map (fun i => at0 (t_vals t) i + at0 T i) args.
Proof.
  intros EA. destruct HRec as [W _]. destruct HS as [LT LD ST SD OT OD NS A].
  assert (length args = num_abs t) as LA by (apply mapM_ok_length in EA; auto).
  apply nth_ext0; [rewrite map_length, LA; exact NS|]. intros k Hk.
  destruct (nth_error (filter is_abs (t_ops t)) k) as [o|] eqn:Eo.
  2: { apply nth_error_None in Eo. lia. }
  destruct (abs_nth t W args k o EA Eo) as (Ho & Ha & Hi & j & Hj & Ej & Hlt).
  destruct (A k o Eo) as (i & a & e & d & A1 & A2 & A3 & A4 & A5 & A6). assert (i = j) by congruence. subst i.
  rewrite (nth_error_nth _ _ _ A5). symmetry. apply nth_error_nth. rewrite nth_error_map, Hj. cbn. f_equal.
  rewrite (nth_at0 _ _ _ A2), (nth_at0 _ _ _ A3). auto.
Qed.

Theorem switch_forward : exists dy, tape_forward Rops t dx = Ok dy /\ gather (t_deps t) T = Ok dy.
Proof.
  pose proof HRec as [W _]. destruct HS as [LT LD ST SD OT OD NS A].
  destruct (forward_tangents Rops t dx W Ldx) as (T' & dy & HT & E & G). exists dy. split; [auto|].
  assert (T' = T) as <-; [|auto]. eapply tangents_at_unique; [exact W|exact HT|].
  constructor; auto. intros k Hk H1 H2. exfalso.
  destruct (rt_cover k Hk) as [G'|G']; auto.
Qed.

Theorem switch_derivative :
  exists w, length w = num_abs t /\ w = sg_step (f_lmat N) (branches bits s) (mulv (f_zmat N) v) w /\
    map (at0 D) (t_deps t) = vadd (mulv (f_jmat N) v) (mulv (f_ymat N) (vmul (branches bits s) w)).
Proof.
  pose proof HRec as [W _]. pose proof HS as [LT LD ST SD OT OD NS A].
  pose proof HN as [(a & z & EN & EZ & Rz & Rl & Rj & Ry & Ea & Eb)].
  destruct (abs_args_ok t W) as (args & EA & LA).
  assert (length s = num_abs t) as Ls by exact NS.
  set (sigma := branches bits s).
  destruct (straight_equations t a args (fun k _ => nth k sigma 0) v D W HRec) as (pz & pl & pj & py & F1 & F2 & F3 & F4 & Q1 & Q2); auto.
  { constructor; auto. intros k o Eo. destruct (A k o Eo) as (i & b & e & d & A1 & A2 & A3 & A4 & A5 & A6).
    exists i, b, d. split; [auto|]. split; [auto|]. split; [auto|].
    assert (k < length s)%nat as Hk by (apply nth_error_Some; congruence).
    unfold sigma. rewrite branches_nth, (nth_error_nth _ _ _ A5) by auto. exact A6. }
  destruct (subtapes_ok t a W EN) as (_ & N1 & N2 & N3 & N4 & N5 & N6 & N7 & N8).
  assert (map (fun k => nth k sigma 0 * nth k (map (at0 D) args) 0) (seq 0 (num_abs t)) = vmul sigma (map (at0 D) args)) as Es.
  { assert (length sigma = num_abs t) as Lsg by (unfold sigma; rewrite branches_len; auto).
    apply nth_ext0; [rewrite vmul_len; rewrite ?map_length, ?seq_length; congruence|].
    intros k Hk. rewrite map_length, seq_length in Hk.
    rewrite (nth_map_seq (fun k => _)) by auto. rewrite nth_vmul by (rewrite map_length; congruence). reflexivity. }
  rewrite Es in *.
  assert (length (vmul sigma (map (at0 D) args)) = num_abs t) as Lw.
  { rewrite vmul_len; unfold sigma; rewrite branches_len; rewrite ?map_length; congruence. }
  rewrite (proj2 Rz) in F1 by congruence. rewrite (proj2 Rl) in F2 by congruence.
  rewrite (proj2 Rj) in F3 by congruence. rewrite (proj2 Ry) in F4 by congruence.
  injection F1 as <-. injection F2 as <-. injection F3 as <-. injection F4 as <-.
  exists (map (at0 D) args). split; [rewrite map_length; auto|]. split; [exact Q1|exact Q2].
Qed.

Definition secant (a e : R) : R := if Req_EM_T e 0 then 0 else (Rabs (a + e) - Rabs a) / e.
Lemma secant_ok a e : secant a e * e = Rabs (a + e) - Rabs a.
Proof. unfold secant. destruct (Req_EM_T e 0) as [->|H]; [rewrite Rplus_0_r; ring|field; auto]. Qed.

Theorem switch_switching : switching N dx s.
Proof.
  pose proof HRec as [W _]. pose proof HS as [LT LD ST SD OT OD NS A].
  pose proof HN as [(a & z & EN & EZ & Rz & Rl & Rj & Ry & Ea & Eb)].
  destruct (abs_args_ok t W) as (args & EA & LA).
  assert (length s = num_abs t) as Ls by exact NS.
  set (es := map (at0 T) args).
  destruct (straight_equations t a args (fun k b => secant b (nth k es 0)) dx T W HRec) as (pz & pl & pj & py & F1 & F2 & F3 & F4 & Q1 & Q2); auto.
  { constructor; auto. intros k o Eo. destruct (A k o Eo) as (i & b & e & d & A1 & A2 & A3 & A4 & A5 & A6).
    exists i, b, e. split; [auto|]. split; [auto|]. split; [auto|].
    destruct (abs_nth t W args k o EA Eo) as (Ho & Ha & Hi & j & Hj & Ej & Hlt). assert (i = j) by congruence. subst i.
    assert (nth k es 0 = e) as ->.
    { apply nth_error_nth. unfold es. rewrite nth_error_map, Hj. cbn. f_equal. apply nth_at0; auto. }
    rewrite secant_ok. apply is_abs_iff in Ha. pose proof (OT o Ho) as TE. apply tangent_eq_inv in TE; try congruence.
    destruct TE as (i & b' & e' & r & B1 & B2 & B3 & B4 & B5).
    assert (i = j) by congruence. subst i. assert (b' = b) by congruence. assert (e' = e) by congruence. subst.
    destruct (abs_op_wf t W o Ho) as (_ & _ & E2); [apply is_abs_iff; auto|].
    rewrite E2, Ha in B5. cbn in B5. apply Ok_inj in B5. subst r. exact B4. }
  destruct (subtapes_ok t a W EN) as (_ & N1 & N2 & N3 & N4 & N5 & N6 & N7 & N8).
  destruct (anf_shapes t N W HN) as (SZ & SL & La).
  assert (z = map (at0 (t_vals t)) args) as Ez.
  { unfold an_z in EZ. unfold an_new in EN. rewrite EA in EN. cbn in EN. injection EN as <-.
    cbn in EZ. rewrite EA in EZ. cbn in EZ. apply gather_map in EZ. auto. }
  assert (length z = num_abs t) as Lz by (rewrite Ez, map_length; auto).
  assert (length es = num_abs t) as Le by (unfold es; rewrite map_length; auto).
  assert (s = vadd z es) as Es.
  { rewrite (switch_s args EA), Ez. unfold es. apply nth_ext0; [rewrite vadd_len; rewrite !map_length; auto|].
    intros k Hk. rewrite map_length in Hk. rewrite nth_vadd by (rewrite !map_length; auto).
    destruct (nth_error args k) as [i|] eqn:Ei; [|apply nth_error_None in Ei; lia].
    assert (forall g : nat -> R, nth k (map g args) 0 = g i) as Hg by (intros g; apply nth_error_nth; rewrite nth_error_map, Ei; reflexivity).
    rewrite !Hg. auto. }
  set (q := map (fun k => secant (nth k (map (at0 (t_vals t)) args) 0) (nth k es 0) * nth k (map (at0 T) args) 0) (seq 0 (num_abs t))) in *.
  assert (q = vsub (vabs s) (vabs z)) as Eq.
  { apply nth_ext0; [unfold q; rewrite vsub_len; rewrite ?vabs_len, ?map_length, ?seq_length; congruence|].
    intros k Hk. unfold q in *. rewrite map_length, seq_length in Hk. rewrite (nth_map_seq (fun k => _)) by auto.
    rewrite nth_vsub by (rewrite !vabs_len; congruence). rewrite !nth_vabs.
    fold es. rewrite secant_ok, <- Ez, Es, nth_vadd by congruence. reflexivity. }
  assert (length q = num_abs t) as Lq by (unfold q; rewrite map_length, seq_length; auto).
  rewrite (proj2 Rz) in F1 by congruence. rewrite (proj2 Rl) in F2 by congruence.
  injection F1 as <-. injection F2 as <-. rewrite Eq in Q1. fold es in Q1.
  rewrite mulv_vsub in Q1 by (rewrite !vabs_len; congruence).
  split; [congruence|]. apply nth_ext0.
  - rewrite !vadd_len; rewrite ?(mulv_len _ _ _ _ SZ), ?(mulv_len _ _ _ _ SL); try congruence.
    rewrite vadd_len; rewrite ?(mulv_len _ _ _ _ SZ); congruence.
  - intros k Hk.
    assert (nth k es 0 = nth k (mulv (f_zmat N) dx) 0 + (nth k (mulv (f_lmat N) (vabs s)) 0 - nth k (mulv (f_lmat N) (vabs z)) 0)) as E.
    { rewrite Q1 at 1. rewrite nth_vadd by (rewrite vsub_len; rewrite !(mulv_len _ _ _ _ SL), ?(mulv_len _ _ _ _ SZ); auto).
      rewrite nth_vsub by (rewrite !(mulv_len _ _ _ _ SL); auto). reflexivity. }
    rewrite Es at 1. rewrite nth_vadd by congruence. rewrite E.
    rewrite nth_vadd.
    2: { rewrite vadd_len; rewrite ?(mulv_len _ _ _ _ SL), ?(mulv_len _ _ _ _ SZ); auto. }
    rewrite nth_vadd by (rewrite ?(mulv_len _ _ _ _ SZ); auto).
    rewrite Ea, nth_vsub by (rewrite (mulv_len _ _ _ _ SL); auto). lra.
Qed.
End Tape.

(** ** A single function *)
Section One.
Context (red : list (list (nat * list R)) -> list (nat * list R)) (HR : rayon red).
Context (f : func R) (x : list R) (w : world R) (t : tape R) (w' : world R).
Context (HT : fn_tape Rops f x w = Ok (t, w')) (NA : abs_once t).

Theorem gj_branch dx bits next : length dx = length x -> next_ok (num_deps t) next ->
  exists G, generalized_jacobian_tape Rops red t dx bits next = Ok G /\
    forall v, length v = length x -> exists ys s, branch_eval bits f x dx v = Ok (ys, s) /\
      length ys = num_deps t /\ tape_forward Rops t dx = Ok (map b_tan ys) /\
      g_mult G = (zeros s + next_mult next)%nat /\
      mulv (g_hom G) v = mulv (seed_rows (t_deps t) (next_hom (num_deps t) next)) (map b_der ys).
Proof.
  intros Ldx Hnx. destruct (fn_tape_wf Rops _ _ _ _ _ HT) as (HRec & _ & Nx). pose proof HRec as [W _].
  destruct (anf_exists t W) as (N & HN).
  destruct (gj_tape_seeded red t N dx bits next HR W) as (G & dz & sigma & E & HSw & HSel & Hm & U & SU & EU & EG & _); auto.
  { intros args EA. eapply abs_args_nodup; eauto. }
  { congruence. }
  exists G. split; [auto|]. intros v Lv.
  destruct (branch_recorded bits f x dx v w t w' HT Ldx Lv) as (ys & s & T & D & EB & HS & GT & GD).
  exists ys, s. split; [auto|]. split; [apply gather_length in GD; rewrite map_length in GD; exact GD|].
  destruct (switch_forward t HRec bits dx v T D s ltac:(congruence) HS) as (dy & EF & GF).
  split; [rewrite EF; congruence|].
  pose proof (switch_switching t HRec N HN bits dx v T D s ltac:(congruence) ltac:(congruence) HS) as HSs.
  destruct (anf_correct t N dx W HN ltac:(congruence)) as (zh & _ & Uz & _).
  assert (dz = s) as -> by (rewrite (Uz _ HSw), (Uz _ HSs); auto).
  split; [auto|]. apply selected_branches in HSel. subst sigma. rewrite branches_len in *.
  destruct (switch_derivative t HRec N HN bits dx v T D s ltac:(congruence) HS) as (u & Lu & Eu & ED).
  destruct (anf_shapes t N W HN) as (SZ & SL & La).
  pose proof HN as [(a & z & EN & EZ & Rz & Rl & Rj & Ry & Ea & Eb)].
  destruct (subtapes_ok t a W EN) as (_ & N1 & N2 & N3 & N4 & N5 & N6 & N7 & N8).
  assert (shape (f_jmat N) (num_deps t) (num_indeps t)) as SJ by (rewrite <- N5, <- N6; apply Rj).
  assert (shape (f_ymat N) (num_deps t) (num_abs t)) as SY by (rewrite <- N7, <- N8; apply Ry).
  assert (length s = num_abs t) as Ls by (rewrite (proj1 HSs); auto).
  apply gather_map in GD. rewrite GD, ED, EG.
  assert (shape (next_hom (num_deps t) next) (next_rows (num_deps t) next) (num_deps t)) as SG.
  { destruct next as [g|]; cbn in *; [apply Hnx|apply shape_id]. }
  rewrite Ls in SU.
  eapply solve_both with (dz := u) (sigma := branches bits s); eauto.
  - apply seed_rows_shape; auto.
  - rewrite branches_len; auto.
  - congruence.
Qed.

(** Any affine map with the branch derivatives and the right value at [dx] is a limiting one. *)
Theorem branch_limiting dx bits A c : length dx = length x -> shape A (num_deps t) (length x) -> length c = num_deps t ->
  (forall v, length v = length x -> exists ys s, branch_eval bits f x dx v = Ok (ys, s) /\
     mulv A v = map b_der ys /\ vadd (mulv A dx) c = map b_tan ys /\ (zeros s <= 1)%nat) ->
  limiting (fun dx' r => tape_forward Rops t dx' = Ok r) A c dx.
Proof.
  intros Ldx SA Lc H. destruct (fn_tape_wf Rops _ _ _ _ _ HT) as (HRec & _ & Nx). pose proof HRec as [W _].
  destruct (anf_exists t W) as (N & HN).
  destruct (H dx Ldx) as (ys & s & EB & EA & Ec & Hz).
  destruct (branch_recorded bits f x dx dx w t w' HT Ldx Ldx) as (ys' & s' & T & D & EB' & HS & GT & GD).
  rewrite EB in EB'. injection EB' as <- <-.
  pose proof (switch_switching t HRec N HN bits dx dx T D s ltac:(congruence) ltac:(congruence) HS) as HSs.
  destruct (switch_forward t HRec bits dx dx T D s ltac:(congruence) HS) as (dy & EF & GF).
  assert (map b_tan ys = dy) as Ey by congruence.
  destruct (anf_shapes t N W HN) as (SZ & SL & La).
  pose proof HN as [(a & z & EN & EZ & Rz & Rl & Rj & Ry & Ea & Eb)].
  destruct (subtapes_ok t a W EN) as (_ & N1 & N2 & N3 & N4 & N5 & N6 & N7 & N8).
  assert (shape (f_jmat N) (num_deps t) (num_indeps t)) as SJ by (rewrite <- N5, <- N6; apply Rj).
  assert (shape (f_ymat N) (num_deps t) (num_abs t)) as SY by (rewrite <- N7, <- N8; apply Ry).
  destruct (an_z_ok t a W EN) as (z' & EZ' & Lz). assert (z' = z) as -> by congruence.
  assert (length (f_b N) = num_deps t) as Lb.
  { rewrite Eb, map_length, (mulv_len _ _ _ _ SY). auto. }
  pose proof (anf_lower t N W HN) as Low.
  set (sg := branches bits s).
  assert (selected bits s sg) as HSel by apply branches_selected.
  intros e He.
  destruct (region_one t N W HN dx s sg bits ltac:(congruence) HSs HSel Hz e He) as (p & Lp & Hp & d & Hd & HC).
  exists p. split; [congruence|]. split; [auto|]. exists d. split; [auto|].
  intros dx' L' Hn. rewrite Lp in L'. destruct (HC dx' L' Hn) as (zh & HSw & Hsg).
  destruct (anf_correct t N dx' W HN L') as (zh2 & _ & U2 & EF2). pose proof (U2 _ HSw) as Q2. subst zh. clear U2.
  destruct (anf_correct t N dx W HN ltac:(congruence)) as (zh1 & _ & U1 & EF1). pose proof (U1 _ HSs) as Q1. subst zh1. clear U1.
  rewrite EF in EF1. injection EF1 as EF1.
  rewrite EF2. f_equal.
  assert (length s = num_abs t) as Ls by (rewrite (proj1 HSs); auto).
  assert (length sg = num_abs t) as Lsg by (unfold sg; rewrite branches_len; auto).
  assert (length zh2 = num_abs t) as Lzh by (rewrite (proj1 HSw); auto).
  (* derivative along dx' - dx *)
  set (v := vsub dx' dx). assert (length v = length x) as Lv by (unfold v; rewrite vsub_len; congruence).
  destruct (H v Lv) as (yv & sv & EBv & EAv & _ & _).
  destruct (branch_recorded bits f x dx v w t w' HT Ldx Lv) as (ys' & s' & Tv & Dv & EB' & HSv & GTv & GDv).
  rewrite EBv in EB'. injection EB' as <- <-.
  pose proof (switch_switching t HRec N HN bits dx v Tv Dv sv ltac:(congruence) ltac:(congruence) HSv) as HSs'.
  assert (sv = s) as ->.
  { destruct (anf_correct t N dx W HN ltac:(congruence)) as (z1 & _ & U1 & _). rewrite (U1 _ HSs'), (U1 _ HSs). auto. }
  destruct (switch_derivative t HRec N HN bits dx v Tv Dv s ltac:(congruence) HSv) as (u & Lu & Eu & EDv).
  apply gather_map in GDv. rewrite <- GDv, <- EAv in EDv. fold sg in Eu, EDv.
  assert (vabs s = vmul sg s) as Es1 by (symmetry; apply (selected_abs bits s sg HSel)).
  assert (vabs zh2 = vmul sg zh2) as Es2.
  { apply nth_ext0; [rewrite vabs_len, vmul_len; congruence|]. intros k Hk. rewrite vabs_len in Hk.
    rewrite nth_vabs, nth_vmul by congruence. rewrite Hsg by auto. auto. }
  (* the difference of switching values solves the same system *)
  assert (length (vsub zh2 s) = num_abs t) as Ldf by (rewrite vsub_len; congruence).
  assert (vmul sg (vsub zh2 s) = vsub (vmul sg zh2) (vmul sg s)) as Edv.
  { apply nth_ext0; [rewrite vsub_len, !vmul_len; rewrite ?vsub_len, ?vmul_len; congruence|]. intros k Hk.
    rewrite vmul_len in Hk by congruence.
    rewrite nth_vsub by (rewrite !vmul_len; congruence). rewrite !nth_vmul by congruence.
    rewrite nth_vsub by congruence. ring. }
  assert (vsub zh2 s = sg_step (f_lmat N) sg (mulv (f_zmat N) v) (vsub zh2 s)) as Edf.
  { unfold sg_step. rewrite Edv, <- Es1, <- Es2. unfold v.
    rewrite mulv_vsub by congruence. rewrite mulv_vsub by (rewrite !vabs_len; congruence).
    destruct HSs as [_ E1]. destruct HSw as [_ E2].
    apply nth_ext0.
    { rewrite vadd_len; rewrite !vsub_len; rewrite ?(mulv_len _ _ _ _ SZ), ?(mulv_len _ _ _ _ SL); congruence. }
    intros k Hk. rewrite nth_vsub by congruence.
    rewrite nth_vadd by (rewrite !vsub_len; rewrite ?(mulv_len _ _ _ _ SZ), ?(mulv_len _ _ _ _ SL); congruence).
    rewrite !nth_vsub by (rewrite ?(mulv_len _ _ _ _ SZ), ?(mulv_len _ _ _ _ SL); congruence).
    rewrite E1 at 1. rewrite E2 at 1.
    rewrite !nth_vadd by (rewrite ?vadd_len; rewrite ?(mulv_len _ _ _ _ SZ), ?(mulv_len _ _ _ _ SL); congruence). ring. }
  assert (u = vsub zh2 s) as Euu.
  { assert (forall k i, (i < k)%nat -> nth i u 0 = nth i (vsub zh2 s) 0) as Hk.
    { induction k as [|k IH]; intros i Hi; [lia|].
      rewrite Eu, Edf. unfold sg_step.
      rewrite !nth_vadd by (rewrite ?(mulv_len _ _ _ _ SZ), ?(mulv_len _ _ _ _ SL); congruence). f_equal.
      apply (lower_prefix (f_lmat N) (num_abs t)); auto.
      - rewrite !vmul_len by congruence. auto.
      - intros j Hj. rewrite !nth_vmul by congruence. rewrite IH by lia. auto. }
    apply nth_ext0; [congruence|]. intros i Hi. apply (Hk (S i)). lia. }
  (* put together *)
  assert (vadd dx v = dx') as Edx by (unfold v; apply vsub_add_cancel; congruence).
  assert (mulv A dx' = vadd (mulv A dx) (mulv A v)) as EAd.
  { rewrite <- Edx. apply mulv_vadd. congruence. }
  rewrite EAd, EDv, Euu, Edv, <- Es1, <- Es2. unfold v. rewrite !mulv_vsub by (rewrite ?vabs_len; congruence).
  rewrite Ey in Ec. unfold increment in *.
  assert (forall k, nth k (mulv A dx) 0 + nth k c 0 = nth k dy 0) as Ek.
  { intros k. rewrite <- Ec. rewrite nth_vadd; auto. rewrite (mulv_len A _ _ _ SA). auto. }
  assert (forall k, nth k dy 0 = nth k (f_b N) 0 + nth k (mulv (f_jmat N) dx) 0 + nth k (mulv (f_ymat N) (vabs s)) 0) as Ed.
  { intros k. rewrite EF1. rewrite !nth_vadd by (rewrite ?vadd_len; rewrite ?(mulv_len _ _ _ _ SJ), ?(mulv_len _ _ _ _ SY); congruence). auto. }
  apply nth_ext0.
  { repeat (rewrite ?vadd_len, ?vsub_len); rewrite ?(mulv_len A _ _ _ SA), ?(mulv_len _ _ _ _ SJ), ?(mulv_len _ _ _ _ SY); congruence. }
  intros k Hk. specialize (Ek k). specialize (Ed k).
  repeat (rewrite ?nth_vadd, ?nth_vsub by (repeat (rewrite ?vadd_len, ?vsub_len);
    rewrite ?(mulv_len A _ _ _ SA), ?(mulv_len _ _ _ _ SJ), ?(mulv_len _ _ _ _ SY); congruence)).
  lra.
Qed.
End One.
