(** The library's unit tests, for all inputs (continued). *)
From Coq Require Import Reals Lra List Arith ZArith Bool Lia.
From Verif Require Import Base Float Operation Tape AContext Methods Function Spec TapeFacts AContextFacts
  RealInst Param Instances FunctionFacts MethodSpec MethodFacts DerivFacts2 Matrix MatrixFacts Jacobian JacobianFacts
  AbsNormal AbsNormalFacts AnfSpec AnfFacts2 SampleFacts UnitTests UnitFacts.
Import ListNotations.
Local Close Scope R_scope.
Local Open Scope nat_scope.

Section Any.
Context {F : Type} (Fo : Fops F).

(** ** Functions of vectors *)
Lemma sum_chain_eval : exists c, sum_chain (F := F) = Ok c /\ chain_len c = 3 /\ fn_n c = Ok 10 /\ fn_m c = Ok 1 /\
  forall x0 x1 x2 x3 x4 x5 x6 x7 x8 x9 w, let a := f_add Fo in
  eval_float Fo c [x0; x1; x2; x3; x4; x5; x6; x7; x8; x9] w =
  Ok ([a (a (a (a x0 x1) (a x2 x3)) (a x4 x5)) (a (a x6 x7) (a x8 x9))], w).
Proof.
  eexists. split; [reflexivity|]. split; [reflexivity|]. split; [reflexivity|]. split; [reflexivity|].
  intros. reflexivity.
Qed.

Lemma mapM_get_all (l : list nat) (env : list F) ys : Forall2 (fun r y => nth_error env r = Some y) l ys ->
  mapM (get env) l = Ok ys.
Proof.
  induction 1 as [|r y l ys H HF IH]; cbn; auto. rewrite (get_some _ _ _ H). cbn. rewrite IH. reflexivity.
Qed.

Lemma mul_loop_eval factor k : forall i env done x', 
  (forall j e, nth_error x' j = Some e -> nth_error env (i + j) = Some e) -> length x' = k ->
  forall outs, Forall2 (fun r y => nth_error env r = Some y) outs done ->
  run Fo (v_fop Fo) (fun c => c) (fun v => v) (mul_loop factor i k (length env) outs) env tt =
  Ok (done ++ map (fun e => f_mul Fo e factor) x', tt).
Proof.
  induction k as [|k IH]; intros i env done x' HX HL outs HO; cbn [mul_loop].
  - destruct x'; [|discriminate]. cbn. unfold mlift. rewrite (mapM_get_all _ _ _ HO), app_nil_r. reflexivity.
  - destruct x' as [|e x']; [discriminate|]. cbn [run].
    pose proof (HX 0 e eq_refl) as He. rewrite Nat.add_0_r in He.
    unfold mbind at 1, mlift at 1. rewrite (get_some _ _ _ (nth_app_l _ [factor] _ _ He)).
    unfold mbind at 1, mlift at 1. rewrite (get_some _ _ _ (nth_last env factor)).
    cbn [meth2]. unfold mbind at 1, m_mul, v_fop, mlift. cbn [zero_order_value]. cbn [bind unwrap].
    set (env' := (env ++ [factor]) ++ [f_mul Fo e factor]).
    replace (length env + 2) with (length env') by (unfold env'; rewrite !app_length; cbn; lia).
    assert (forall r y, nth_error env r = Some y -> nth_error env' r = Some y) as EX
      by (intros; unfold env'; apply nth_app_l, nth_app_l; auto).
    rewrite (IH (i + 1) env' (done ++ [f_mul Fo e factor]) x').
    + rewrite <- app_assoc. reflexivity.
    + intros j u Hu. apply EX. replace (i + 1 + j) with (i + S j) by lia. apply HX. exact Hu.
    + cbn in HL. lia.
    + apply Forall2_app.
      * eapply Forall2_impl; [|exact HO]. cbn. auto.
      * constructor; [|constructor]. unfold env'. replace (length env + 1) with (length (env ++ [factor])) by (rewrite app_length; auto).
        apply nth_last.
Qed.

Theorem multiplicate_eval n factor x w : length x = n ->
  eval_float Fo (multiplicate n factor) x w = Ok (map (fun e => f_mul Fo e factor) x, w).
Proof.
  intros HL. rewrite eval_float_v. unfold v_eval, multiplicate. cbn [feval]. unfold mbind, mlift.
  rewrite HL, Nat.eqb_refl. cbn [assert].
  pose proof (mul_loop_eval factor n 0 x [] x) as E. rewrite HL in E. rewrite E; auto. cbn [app].
  rewrite map_length, HL, Nat.eqb_refl. reflexivity.
Qed.

Lemma mapM_repeat (v : F) n : mapM (get [v]) (repeat 0 n) = Ok (repeat v n).
Proof. induction n as [|n IH]; cbn; auto. rewrite IH. reflexivity. Qed.

Theorem duplicate_eval times v w : eval_float Fo (duplicate times) [v] w = Ok (repeat v times, w).
Proof.
  rewrite eval_float_v. unfold v_eval, duplicate. cbn [feval run length]. unfold mbind, mlift. cbn [Nat.eqb assert].
  rewrite mapM_repeat, repeat_length, Nat.eqb_refl. reflexivity.
Qed.

(** ** What recordings contain *)
Ltac rec_step := repeat (unfold mbind, mlift, mret, ctx_new, set_indep, set_dep, ctx_tape, ctx_drop, with_ctx, from_op, record, from_cid,
  pick_cid, ensure_id; cbn; rewrite ?Nat.eqb_refl).

Theorem record_sum_both va vb w : exists w', record_sum Fo true true va vb w =
  Ok (mkTape [0; 1] [2] [mkOp Add 2 (Some 0) (Some 1)] [va; vb; f_add Fo va vb], w').
Proof. unfold record_sum. rec_step. eexists. reflexivity. Qed.
Theorem record_sum_left va vb w : exists w', record_sum Fo true false va vb w =
  Ok (mkTape [0] [2] [mkOp Const 1 None None; mkOp Add 2 (Some 0) (Some 1)] [va; vb; f_add Fo va vb], w').
Proof. unfold record_sum. rec_step. eexists. reflexivity. Qed.
Theorem record_sum_right va vb w : exists w', record_sum Fo false true va vb w =
  Ok (mkTape [0] [2] [mkOp Const 1 None None; mkOp Add 2 (Some 1) (Some 0)] [vb; va; f_add Fo va vb], w').
Proof. unfold record_sum. rec_step. eexists. reflexivity. Qed.

Lemma taped_anywhere (f : func F) x t w0 w : fn_tape Fo f x world0 = Ok (t, w0) ->
  exists w', fn_tape Fo f x w = Ok (t, w').
Proof. intros H. pose proof (ReplayFacts.fn_tape_world Fo f x world0 w) as E. rewrite H in E. exact E. Qed.

Theorem decompose_tape a b w : exists t w' A, fn_tape Fo decompose [a; b] w = Ok (t, w') /\
  t_indeps t = [0; 1] /\ t_deps t = [6] /\ map opcode (t_ops t) = [Sin; Abs; Cos; Add; Abs] /\
  an_new t = Ok A /\
  t_indeps (z_tape A) = [0; 1] /\ t_deps (z_tape A) = [2; 5] /\
  t_indeps (l_tape A) = [3; 6] /\ t_deps (l_tape A) = [2; 5] /\
  t_indeps (j_tape A) = [0; 1] /\ t_deps (j_tape A) = [6] /\
  t_indeps (y_tape A) = [3; 6] /\ t_deps (y_tape A) = [6] /\
  map opcode (t_ops (an_tape A)) = [Sin; Nop; Cos; Add; Nop].
Proof.
  let v := eval lazy in (fn_tape Fo decompose [a; b] world0) in
  match v with Ok (?t, ?w0) => destruct (taped_anywhere decompose [a; b] t w0 w) as (w' & E); [lazy; reflexivity|]; exists t end.
  eexists w', _. split; [exact E|].
  do 3 (split; [reflexivity|]). split; [reflexivity|]. repeat split.
Qed.
End Any.

Local Open Scope R_scope.

Theorem sum_chain_sum : exists c, sum_chain (F := R) = Ok c /\ chain_len c = 3%nat /\ fn_n c = Ok 10%nat /\ fn_m c = Ok 1%nat /\
  forall x w, length x = 10%nat -> eval_float Rops c x w = Ok ([fold_right Rplus 0 x], w).
Proof.
  destruct (sum_chain_eval Rops) as (c & H1 & H2 & H3 & H4 & H5). exists c. do 4 (split; [assumption|]).
  intros x w L. do 10 (destruct x as [|? x]; [discriminate|]). destruct x; [|discriminate].
  rewrite H5. cbn. do 3 f_equal. ring.
Qed.

(** ** all_arithmetic_test_func *)
Ltac rz := unfold powerRZ; change (Pos.to_nat 2) with 2%nat.

Definition arith_tape (x0 : R) : tape R.
Proof.
  let v := rlazy (fn_tape Rops (all_arithmetic Rops) [x0] world0) in
  match v with Ok (?t, _) => exact t end.
Defined.
Lemma arith_recorded x0 w : exists w', fn_tape Rops (all_arithmetic Rops) [x0] w = Ok (arith_tape x0, w').
Proof. eapply recorded_anywhere. rtape. reflexivity. Qed.

Theorem arithmetic_right x0 w : exists t w', fn_tape Rops (all_arithmetic Rops) [x0] w = Ok (t, w') /\
  forall x, x <> 0 -> 
    eval_float Rops (all_arithmetic Rops) [x] w = Ok ([x], w) /\
    exists t', tape_zero_order Rops t [x] = Ok t' /\ tape_y t' = Ok [x] /\
      forall d, tape_forward Rops t' [d] = Ok [d] /\ tape_reverse Rops t' [d] = Ok [d].
Proof.
  destruct (arith_recorded x0 w) as (w' & E). exists (arith_tape x0), w'. split; [exact E|]. intros x Hx.
  split.
  { rewrite eval_float_v. rcomp (v_eval Rops (all_arithmetic Rops) [x]). cbn. do 3 f_equal. field. lra. }
  eexists. split; [rcomp (tape_zero_order Rops (arith_tape x0) [x]); reflexivity|].
  split; [|intros d; split].
  - match goal with |- ?t = _ => rcomp t end. do 2 f_equal. rz. field. lra.
  - match goal with |- ?t = _ => rcomp t end. do 2 f_equal. rz. field. lra.
  - match goal with |- ?t = _ => rcomp t end. do 2 f_equal. rz. field. lra.
Qed.

(** ** Unary functions *)
Lemma powf_half_m1 x : 0 < x -> Rpowf x (/ 2 - 1) = / sqrt x.
Proof.
  intros H. rewrite Rpowf_pos by auto. replace (/ 2 - 1) with (- / 2) by field.
  rewrite Rpower_Ropp. rewrite Rpower_sqrt; auto.
Qed.

(** what both sweeps of the tape of a unary function yield for the seed 1 *)
Definition sweeps_to (u : un) (x d : R) : Prop :=
  forall w, exists t w', fn_tape Rops (unary u) [x] w = Ok (t, w') /\ tape_forward Rops t [1] = Ok [d] /\ tape_reverse Rops t [1] = Ok [d].

Ltac unary_start :=
  let w := fresh "w" in intros w; let E := fresh "E" in let w' := fresh "w'" in
  match goal with |- exists _ _, fn_tape ?o ?f ?x w = _ /\ _ =>
    let v := rlazy (fn_tape o f x world0) in
    match v with Ok (?t, ?w0) =>
      destruct (recorded_anywhere f x t w0 w) as (w' & E); [rtape; reflexivity|]; exists t; exists w' end
  end; split; [exact E|]; split; match goal with |- ?t = _ => rcomp t end.

Lemma sin_sweeps x : sweeps_to USin x (cos x).
Proof. unary_start; do 2 f_equal; rz; ring. Qed.
Lemma cos_sweeps x : sweeps_to UCos x (- sin x).
Proof. unary_start; do 2 f_equal; rz; ring. Qed.
Lemma exp_sweeps x : sweeps_to UExp x (exp x).
Proof. unary_start; do 2 f_equal; rz; ring. Qed.
Lemma ln_sweeps x : 0 < x -> sweeps_to ULn x (1 / x).
Proof. intros H. unary_start; do 2 f_equal; rz; field; lra. Qed.
Lemma tan_sweeps x : cos x <> 0 -> sweeps_to UTan x ((1 / cos x) ^ 2).
Proof. intros H. unary_start; do 2 f_equal; rz; field; auto. Qed.
Lemma sqrt_sweeps x : 0 < x -> sweeps_to USqrt x (/ 2 / sqrt x).
Proof.
  intros H. assert (sqrt x <> 0) by (apply Rgt_not_eq, sqrt_lt_R0; lra).
  unary_start; do 2 f_equal; rewrite ?powf_half_m1 by auto; [|field; auto].
  destruct (Reqb 1 0) eqn:E1; [apply Reqb_true in E1; lra|].
  destruct (Reqb 0 0) eqn:E0; [|apply Reqb_false in E0; lra]. field. auto.
Qed.
Lemma root_pos x : -1 < x < 1 -> sqrt (1 - x ^ 2) <> 0.
Proof. intros H. apply Rgt_not_eq, sqrt_lt_R0. nra. Qed.
Lemma asin_sweeps x : -1 < x < 1 -> sweeps_to UAsin x (1 / sqrt (1 - x ^ 2)).
Proof. intros H. pose proof (root_pos x H). unary_start; do 2 f_equal; rz; field; auto. Qed.
Lemma acos_sweeps x : -1 < x < 1 -> sweeps_to UAcos x (-1 / sqrt (1 - x ^ 2)).
Proof. intros H. pose proof (root_pos x H). unary_start; do 2 f_equal; rz; field; auto. Qed.
Lemma atan_sweeps x : sweeps_to UAtan x (1 / (1 + x ^ 2)).
Proof. assert (1 + x ^ 2 <> 0) by nra. unary_start; do 2 f_equal; rz; field; auto. Qed.

(** ** Polar coordinates *)
Definition polar_tape (r phi : R) : tape R.
Proof.
  let v := rlazy (fn_tape Rops polar [r; phi] world0) in
  match v with Ok (?t, _) => exact t end.
Defined.
Definition polar_ref (r phi : R) : matrix R := mkM 2 2 [[cos phi; - r * sin phi]; [sin phi; r * cos phi]].

Theorem polar_forward red r phi w : rayon red -> jacobian_forward Rops red polar [r; phi] w = Ok (polar_ref r phi).
Proof.
  intros H. rewrite (jacobian_forward_det Rops red (@concat _) polar [r; phi] w H (@rayon_exists _)).
  match goal with |- ?t = _ => rcomp t end. unfold polar_ref. do 2 f_equal; repeat (f_equal; try ring).
Qed.
Theorem polar_reverse red r0 phi0 r phi w : rayon red ->
  exists t w' t', fn_tape Rops polar [r0; phi0] w = Ok (t, w') /\ tape_zero_order Rops t [r; phi] = Ok t' /\
    jacobian_reverse Rops red t' = Ok (polar_ref r phi).
Proof.
  intros H. destruct (recorded_anywhere polar [r0; phi0] (polar_tape r0 phi0) _ w ltac:(rtape; reflexivity)) as (w' & E).
  eexists _, w', _. split; [exact E|]. split; [rcomp (tape_zero_order Rops (polar_tape r0 phi0) [r; phi]); reflexivity|].
  rewrite (jacobian_reverse_det Rops red (@concat _) _ H (@rayon_exists _)).
  match goal with |- ?t = _ => rcomp t end. unfold polar_ref. do 2 f_equal; repeat (f_equal; try ring).
Qed.

(** ** |x1| + x2 *)
Definition abs_plus_anf (x1 : R) : anf (F := R) :=
  mkANF [x1] (mkM 1 2 [[1; 0]]) (mkM 1 1 [[0]]) [- Rabs x1] (mkM 1 2 [[0; 1]]) (mkM 1 1 [[1]]).
Definition abs_plus_tape (x1 x2 : R) : tape R.
Proof.
  let v := rlazy (fn_tape Rops abs_plus [x1; x2] world0) in
  match v with Ok (?t, _) => exact t end.
Defined.
Theorem abs_plus_right red x1 x2 w : rayon red -> abs_normal Rops red abs_plus [x1; x2] w = Ok (abs_plus_anf x1).
Proof.
  intros HR. destruct (recorded_anywhere abs_plus [x1; x2] (abs_plus_tape x1 x2) _ w ltac:(rtape; reflexivity)) as (w' & HT).
  destruct (abs_normal_correct red abs_plus [x1; x2] w _ w' HR HT) as (N & E & HN).
  - cbn. repeat constructor; cbn; intuition discriminate.
  - unfold abs_once. cbn. repeat constructor; cbn; intuition discriminate.
  - rewrite E. f_equal. apply (anf_of_unique _ _ _ HN). constructor. eexists _, _. split; [reflexivity|]. split; [reflexivity|].
    split; [|split; [|split; [|split; [|split]]]].
    1, 3: rep_start; cbn; f_equal; repeat (f_equal; try lra).
    3, 4: cbn; repeat (f_equal; try lra).
    all: split; [split; [split; [reflexivity|repeat constructor]|split; reflexivity]|];
      intros [|d1 [|]] L; cbn in L; try discriminate; match goal with |- ?t = _ => rcomp t end; cbn; f_equal; repeat (f_equal; try lra).
Qed.
