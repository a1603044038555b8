(** Functions on plain numbers and on AFloats. *)
From Coq Require Import Reals Lra List Arith ZArith Bool Lia SpecFloat.
From Flocq Require Import Core BinarySingleNaN.
From Verif Require Import Base Float FloatInst Operation Tape AContext Methods MethodSpec Function RealInst
  Spec Param Instances FunctionFacts MethodFacts F64Facts F64Ops Native.
Import ListNotations.

Section Generic.
Context {S : Type} (So : Fops S) (N : native S) (ok1 : un -> S -> Prop) (ok2 : bin -> S -> S -> Prop).
Local Notation vf := (v_fop So).
Local Notation idc := (fun c : S => c).
Hypothesis H1 : forall u x, ok1 u x -> meth1 So vf idc u x tt = Ok (n1 N u x, tt).
Hypothesis H2 : forall b x y, ok2 b x y -> meth2 So vf idc b x y tt = Ok (n2 N b x y, tt).

Definition liftu {A : Type} (r : res A) : res (A * unit) := y <- r ;; Ok (y, tt).

Section NoMulAdd.
Hypothesis H3 : forall x y z, m_mul_add vf x y z tt = Ok (n_mul_add N x y z, tt).

Lemma run_plain p : forall env, calls_in N ok1 ok2 p env ->
  run So vf idc (fun v => v) p env tt = liftu (plain_run N p env).
Proof.
  induction p as [outs|c p IH|u a p IH|b a1 a2 p IH|a1 a2 a3 p IH|a k IH| ]; intros env C;
    cbn [run plain_run calls_in] in *; unfold mbind, mlift, liftu in *.
  - destruct (mapM (get env) outs); reflexivity.
  - apply IH, C.
  - destruct (get env a) as [x|]; cbn [bind]; [|reflexivity].
    destruct (C x eq_refl) as [C1 C2]. rewrite (H1 _ _ C1). apply IH, C2.
  - destruct (get env a1) as [x|]; cbn [bind]; [|reflexivity].
    destruct (get env a2) as [y|]; cbn [bind]; [|reflexivity].
    destruct (C x y eq_refl eq_refl) as [C1 C2]. rewrite (H2 _ _ _ C1). apply IH, C2.
  - destruct (get env a1) as [x|]; cbn [bind]; [|reflexivity].
    destruct (get env a2) as [y|]; cbn [bind]; [|reflexivity].
    destruct (get env a3) as [z|]; cbn [bind]; [|reflexivity].
    rewrite H3. apply IH. auto.
  - destruct (get env a) as [x|]; cbn [bind]; [|reflexivity]. apply IH. auto.
  - reflexivity.
Qed.

Lemma eval_plain f : forall x, calls_in_f N ok1 ok2 f x -> v_eval So f x = plain N f x.
Proof.
  induction f as [n m p|n m p|fs IH] using func_ind'; intros x C; cbn [calls_in_f plain] in *.
  - unfold v_eval. cbn [feval]. rewrite run_plain by auto. unfold liftu. destruct (plain_run N p x); reflexivity.
  - unfold v_eval. cbn [feval]. unfold mbind, mlift. destruct (assert (length x =? n)) as [[]|]; [|reflexivity].
    rewrite run_plain by auto. unfold liftu. destruct (plain_run N p x) as [r|]; [|reflexivity]. cbn [bind].
    destruct (assert (length r =? m)) as [[]|]; reflexivity.
  - revert x C. induction fs as [|g fs IHfs]; intros x C; [reflexivity|].
    inversion IH; subst. destruct C as [C1 C2]. rewrite v_eval_cons, H4 by auto.
    destruct (plain N g x) as [y|]; [|reflexivity]. cbn [bind]. apply IHfs; [auto|]. apply (C2 y eq_refl).
Qed.
End NoMulAdd.
End Generic.

(** ** Exact arithmetic *)
Local Open Scope R_scope.

Lemma real1 u x : valid1 u x -> meth1 Rops (v_fop Rops) (fun c => c) u x tt = Ok (sem1 u x, tt).
Proof.
  intros HV. destruct u; cbn [valid1] in HV; try contradiction;
    cbn -[powerRZ IZR pow Rpowf sqrt]; cbn [sem1]; do 2 f_equal; try reflexivity.
  - lra.
  - apply Rpowf_int.
  - apply Rpowf_half.
  - apply Rpowf_pos; lra.
  - rewrite Rpowf_pos by auto. f_equal. lra.
Qed.

Lemma real2 b x y : valid2 b x y -> meth2 Rops (v_fop Rops) (fun c => c) b x y tt = Ok (sem2 b x y, tt).
Proof.
  intros HV. destruct b; cbn [valid2] in HV; try contradiction;
    cbn -[powerRZ IZR pow Rpowf sqrt]; cbn [sem2]; do 2 f_equal; try reflexivity.
  - apply Rpowf_pos; auto.
  - apply max_abs.
  - apply min_abs.
  - rewrite Rmax_left by lra. apply Rabs_pos_eq. lra.
  - rewrite !Rpowf_2. apply Rpowf_half.
Qed.

Theorem exact_agree f x (w : world R) : calls_in_f exact_methods valid1 valid2 f x ->
  eval_float Rops f x w = (y <- plain exact_methods f x ;; Ok (y, w)).
Proof.
  intros C. rewrite eval_float_v. f_equal.
  apply (eval_plain Rops exact_methods valid1 valid2); auto using real1, real2.
Qed.

Theorem exact_recorded f env (w : world R) ys w' :
  calls_in_f exact_methods valid1 valid2 f (map af_v env) -> eval Rops f env w = Ok (ys, w') ->
  plain exact_methods f (map af_v env) = Ok (map af_v ys).
Proof.
  intros C E. rewrite <- (eval_plain Rops exact_methods valid1 valid2); auto using real1, real2.
  apply (feval_values Rops (from_op Rops Some) (af_const Rops) af_v (from_op_val Rops) (fun _ => eq_refl) _ _ _ _ _ E).
Qed.

(** ** Binary64 *)
Lemma double_B (b : b64) : double (B2SF b). Proof. exists b; auto. Qed.
Lemma double_add x y : double x -> double y -> double (sf_add x y).
Proof. intros [a <-] [b <-]. rewrite add_equiv. apply double_B. Qed.
Lemma double_sub x y : double x -> double y -> double (sf_sub x y).
Proof. intros [a <-] [b <-]. rewrite sub_equiv. apply double_B. Qed.
Lemma double_mul x y : double x -> double y -> double (sf_mul x y).
Proof. intros [a <-] [b <-]. rewrite mul_equiv. apply double_B. Qed.
Lemma double_div x y : double x -> double y -> double (sf_div x y).
Proof. intros [a <-] [b <-]. rewrite div_equiv. apply double_B. Qed.
Lemma double_opp x : double x -> double (SFopp x).
Proof. intros [a <-]. exists (Bopp a). destruct a; reflexivity. Qed.
Lemma double_abs x : double x -> double (SFabs x).
Proof. intros [a <-]. exists (Babs a). destruct a; reflexivity. Qed.
Lemma double_f64 x a : f64 x a -> double x.
Proof. intros (b & E & _). exists b; auto. Qed.

Definition neg1 : b64 := B754_finite (prec := prec64) (emax := emax64) true 4503599627370496 (-52) eq_refl.

(** -x as the product (0 - 1) * x *)
Lemma mul_neg1 x : double x -> sf_mul (sf_sub (S754_zero false) (sf_of_Z 1)) x = SFopp x.
Proof.
  intros [b <-]. replace (sf_sub (S754_zero false) (sf_of_Z 1)) with (B2SF neg1) by (vm_compute; reflexivity).
  rewrite mul_equiv. replace (SFopp (B2SF b)) with (B2SF (Bopp b)) by (destruct b; reflexivity). f_equal.
  destruct (is_finite b) eqn:Fb.
  - pose proof (Bmult_correct _ _ Hprec64 Hmax64 mode_NE neg1 b) as C.
    change (round radix2 _ _ ?z) with (rnd z) in C.
    assert (B2R neg1 = -1) as R1.
    { unfold neg1. cbn [B2R]. unfold F2R. cbn [Fnum Fexp cond_Zopp]. cbn. lra. }
    assert (rnd (B2R neg1 * B2R b) = - B2R b) as R2.
    { rewrite R1. replace (-1 * B2R b) with (B2R (Bopp b)) by (rewrite B2R_Bopp; ring).
      rewrite (rnd_id (B2SF (Bopp b))); [apply B2R_Bopp|]. exists (Bopp b). rewrite is_finite_Bopp. auto. }
    rewrite R2 in C. rewrite Rlt_bool_true in C.
    2:{ rewrite Rabs_Ropp. apply abs_B2R_lt_emax. }
    destruct C as (C1 & C2 & C3). rewrite Fb in C2.
    assert (is_nan (Bmult mode_NE neg1 b) = false) as Nn by (destruct (Bmult mode_NE neg1 b); auto; discriminate).
    specialize (C3 Nn). apply B2R_Bsign_inj; [exact C2|rewrite is_finite_Bopp; auto|rewrite B2R_Bopp; auto|].
    rewrite C3, Bsign_Bopp by (destruct b; auto; discriminate). reflexivity.
  - destruct b; try discriminate Fb; destruct_all bool; reflexivity.
Qed.

Section Basic64.
Context (T : libm) (HT : libm_doubles T) (L1 : un -> spec_float -> spec_float)
  (L2 : bin -> spec_float -> spec_float -> spec_float) (fma : spec_float -> spec_float -> spec_float -> spec_float).
Local Notation N := (native64 T L1 L2 fma).
Local Notation D := (f64ops T).

Lemma basic_meth1 u x : basic1 u = true -> double x ->
  meth1 D (v_fop D) (fun c => c) u x tt = Ok (n1 N u x, tt) /\ double (n1 N u x).
Proof.
  intros B Hx. destruct HT as [HL _]. destruct (HL x Hx) as (A1 & A2 & A3 & A4 & A5 & A6 & A7 & A8).
  destruct u; try discriminate B; cbn [n1 native64]; (split; [|auto using double_opp, double_abs]); try reflexivity.
  - cbn [meth1]. unfold m_neg, m_sub, m_mul, c_zero, c_one, mbind, v_fop, mlift.
    cbn [zero_order_value f64ops f_zero f_one f_sub f_mul bind unwrap]. rewrite mul_neg1 by auto. reflexivity.
  - apply double_div; auto. apply (double_f64 _ 1). apply one_f64.
Qed.

Lemma basic_meth2 b x y : basic2 b = true -> double x -> double y ->
  meth2 D (v_fop D) (fun c => c) b x y tt = Ok (n2 N b x y, tt) /\ double (n2 N b x y).
Proof.
  intros B Hx Hy. destruct HT as [HL HP]. destruct (HL x Hx) as (_ & _ & _ & _ & A5 & _).
  destruct (HL y Hy) as (_ & _ & _ & _ & B5 & _).
  destruct b; try discriminate B; cbn [n2 native64];
    (split; [reflexivity|auto using double_add, double_sub, double_mul, double_div]).
Qed.

Lemma get_double env a x : Forall double env -> get env a = Ok x -> double x.
Proof.
  unfold get. destruct (nth_error env a) eqn:E; [|discriminate]. intros H [= <-].
  eapply Forall_forall in H; eauto. eapply nth_error_In; eauto.
Qed.

Lemma mapM_double env outs r : Forall double env -> mapM (get env) outs = Ok r -> Forall double r.
Proof.
  intros H. revert r. induction outs as [|o outs IH]; intros r; cbn [mapM].
  - intros [= <-]. constructor.
  - destruct (get env o) as [x|] eqn:E; [|discriminate]. cbn [bind].
    destruct (mapM (get env) outs) as [r'|]; [|discriminate]. intros [= <-]. constructor; auto.
    eapply get_double; eauto.
Qed.

Lemma app_double env x : Forall double env -> double x -> Forall double (env ++ [x]).
Proof. intros H1 H2. apply Forall_app. auto. Qed.

Lemma basic_run p : basic p -> forall env, Forall double env ->
  run D (v_fop D) (fun c => c) (fun v => v) p env tt = liftu (plain_run N p env) /\
  (forall r, plain_run N p env = Ok r -> Forall double r).
Proof.
  induction p as [outs|c p IH|u a p IH|b a1 a2 p IH|a1 a2 a3 p IH|a k IH| ]; intros B env HE;
    cbn [basic] in B; cbn [run plain_run]; unfold mbind, mlift, liftu in *.
  - split; [destruct (mapM (get env) outs); reflexivity|]. intros r. apply mapM_double; auto.
  - destruct B as [B1 B2]. apply IH; auto using app_double.
  - destruct B as [B1 B2]. destruct (get env a) as [x|] eqn:E; cbn [bind]; [|split; [reflexivity|discriminate]].
    destruct (basic_meth1 u x B1 (get_double _ _ _ HE E)) as [-> Dx]. apply IH; auto using app_double.
  - destruct B as [B1 B2].
    destruct (get env a1) as [x|] eqn:E; cbn [bind]; [|split; [reflexivity|discriminate]].
    destruct (get env a2) as [y|] eqn:E'; cbn [bind]; [|split; [reflexivity|discriminate]].
    destruct (basic_meth2 b x y B1 (get_double _ _ _ HE E) (get_double _ _ _ HE E')) as [-> Dx].
    apply IH; auto using app_double.
  - contradiction.
  - destruct (get env a) as [x|] eqn:E; cbn [bind]; [|split; [reflexivity|discriminate]]. apply IH; auto.
  - split; [reflexivity|discriminate].
Qed.

Lemma basic_eval f : basic_f f -> forall x, Forall double x ->
  v_eval D f x = plain N f x /\ (forall r, plain N f x = Ok r -> Forall double r).
Proof.
  induction f as [n m p|n m p|fs IH] using func_ind'; intros B x HE; cbn [basic_f plain] in *.
  - destruct (basic_run p B x HE) as [E1 E2]. split; auto.
    unfold v_eval. cbn [feval]. rewrite E1. unfold liftu. destruct (plain_run N p x); reflexivity.
  - destruct (basic_run p B x HE) as [E1 E2]. unfold v_eval. cbn [feval]. unfold mbind, mlift.
    destruct (assert (length x =? n)) as [[]|]; [|split; [reflexivity|discriminate]]. rewrite E1. unfold liftu.
    destruct (plain_run N p x) as [r|]; [|split; [reflexivity|discriminate]]. cbn [bind].
    destruct (assert (length r =? m)) as [[]|]; [|split; [reflexivity|discriminate]]. cbn [bind].
    split; [reflexivity|]. intros r' [= <-]. auto.
  - revert x HE B. induction fs as [|g fs IHfs]; intros x HE B; [split; [reflexivity|intros r [= <-]; auto]|].
    inversion IH; subst. destruct B as [B1 B2]. destruct (H1 B1 x HE) as [E1 E2]. rewrite v_eval_cons, E1.
    destruct (plain N g x) as [y|]; [|split; [reflexivity|discriminate]]. cbn [bind]. apply IHfs; auto.
Qed.

Theorem basic_agree f x (w : world spec_float) : basic_f f -> Forall double x ->
  eval_float D f x w = (y <- plain N f x ;; Ok (y, w)).
Proof. intros B HE. rewrite eval_float_v. f_equal. apply basic_eval; auto. Qed.

Theorem basic_recorded f env (w : world spec_float) ys w' : basic_f f -> Forall double (map af_v env) ->
  eval D f env w = Ok (ys, w') -> plain N f (map af_v env) = Ok (map af_v ys).
Proof.
  intros B HE E. destruct (basic_eval f B _ HE) as [<- _].
  apply (feval_values D (from_op D Some) (af_const D) af_v (from_op_val D) (fun _ => eq_refl) _ _ _ _ _ E).
Qed.

End Basic64.

(** ** Where the two differ in binary64 *)
Definition call1 (u : un) : func spec_float := Simple 1 1 (Let1 u 0 (Ret [1%nat])).
Definition call2 (b : bin) : func spec_float := Simple 2 1 (Let2 b 0 1 (Ret [2%nat])).
Definition call3 : func spec_float := Simple 3 1 (LetMulAdd 0 1 2 (Ret [3%nat])).

Definition big1 : Z := 2 ^ 27 + 1.
Definition big2 : Z := 2 ^ 54 + 2 ^ 28.
Definition b_one : b64 := B754_finite (prec := prec64) (emax := emax64) false 4503599627370496 (-52) eq_refl.
Definition b_big1 : b64 := B754_finite (prec := prec64) (emax := emax64) false 4503599660924928 (-25) eq_refl.
Definition b_big2 : b64 := B754_finite (prec := prec64) (emax := emax64) true 4503599694479360 2 eq_refl.

Lemma big1_f64 : f64 (lit big1) (IZR big1).
Proof.
  exists b_big1. split; [vm_compute; reflexivity|]. split; [reflexivity|].
  unfold b_big1, big1. cbn [B2R]. unfold F2R. cbn [Fnum Fexp cond_Zopp]. cbn. lra.
Qed.
Lemma big2_f64 : f64 (lit (- big2)) (IZR (- big2)).
Proof.
  exists b_big2. split; [vm_compute; reflexivity|]. split; [reflexivity|].
  unfold b_big2, big2. cbn [B2R]. unfold F2R. cbn [Fnum Fexp cond_Zopp]. cbn. lra.
Qed.

Lemma big_sum : IZR big1 * IZR big1 + IZR (- big2) = 1.
Proof. rewrite <- mult_IZR, <- plus_IZR. reflexivity. Qed.

Lemma nearest_one x : nearest x 1 -> f64 x 1.
Proof.
  intros (v & Fv & H). specialize (H _ _ one_f64). rewrite Rminus_eq_0, Rabs_R0 in H.
  assert (v - 1 = 0) as E.
  { destruct (Req_dec (v - 1) 0) as [E|E]; auto. apply Rabs_pos_lt in E. lra. }
  replace 1 with v by lra. exact Fv.
Qed.

Theorem derived_differ :
  forall (T : libm) L1 L2 fma (w : world spec_float),
  (forall b v, b = BMax \/ b = BMin -> SFeqb v v = true ->
     eval_float (f64ops T) (call2 b) [S754_nan; v] w = Ok ([S754_nan], w) /\
     plain (native64 T L1 L2 fma) (call2 b) [S754_nan; v] = Ok [v] /\
     eval_float (f64ops T) (call2 b) [v; S754_nan] w = Ok ([S754_nan], w) /\
     plain (native64 T L1 L2 fma) (call2 b) [v; S754_nan] = Ok [v]) /\
  eval_float (f64ops T) (call2 BAbsSub) [lit 1; lit 2] w = Ok ([lit 1], w) /\
  plain (native64 T L1 L2 fma) (call2 BAbsSub) [lit 1; lit 2] = Ok [lit 0].
Proof.
  intros T L1 L2 fma w. split; [|split; vm_compute; reflexivity].
  intros b v Hb Hv. assert (v <> S754_nan) as Hn by (intros ->; discriminate).
  destruct Hb as [-> | ->]; (split; [|split; [|split]]).
  1, 5: rewrite eval_float_v; destruct v; reflexivity.
  2, 5: rewrite eval_float_v; destruct v; reflexivity.
  all: unfold plain, plain_run, call2; cbn [get nth_error bind n2 native64 app]; rewrite ?Hv; reflexivity.
Qed.

Theorem sqrt_differs :
  forall (T : libm) L1 L2 fma (w : world spec_float),
  l_powf T (S754_infinity true) half64 = S754_infinity false ->
  eval_float (f64ops T) (call1 USqrt) [S754_infinity true] w = Ok ([S754_infinity false], w) /\
  plain (native64 T L1 L2 fma) (call1 USqrt) [S754_infinity true] = Ok [S754_nan].
Proof.
  intros T L1 L2 fma w H. split; [|reflexivity]. rewrite eval_float_v. unfold half64 in H.
  unfold v_eval, call1. cbn [feval run]. unfold mbind, mlift. cbn [get nth_error].
  cbn [meth1]. unfold m_sqrt, m_powf, v_fop, mlift. cbn [zero_order_value unwrap bind f64ops f_powf f_half].
  rewrite H. reflexivity.
Qed.

Theorem mul_add_differs :
  forall (T : libm) L1 L2 fma (w : world spec_float),
  (forall x y z a b c, f64 x a -> f64 y b -> f64 z c -> (Rabs (a * b + c) <= 2 ^ 1000)%R ->
     nearest (fma x y z) (a * b + c)%R) ->
  eval_float (f64ops T) call3 [lit big1; lit big1; lit (- big2)] w = Ok ([lit 0], w) /\
  exists r, plain (native64 T L1 L2 fma) call3 [lit big1; lit big1; lit (- big2)] = Ok [r] /\ f64 r 1.
Proof.
  intros T L1 L2 fma w H. split; [vm_compute; reflexivity|]. eexists. split; [reflexivity|].
  apply nearest_one. rewrite <- big_sum. apply H; auto using big1_f64, big2_f64.
  rewrite big_sum, Rabs_R1. apply pow_R1_Rle. lra.
Qed.
