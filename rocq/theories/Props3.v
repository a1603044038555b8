(** Property theorems C19-C24, C42, C43: determinism of the parallel drivers, float methods,
    conversions, function objects. *)
From Coq Require Import Reals Lra List Arith ZArith Bool Lia SpecFloat.
From Flocq Require IEEE754.BinarySingleNaN Core.Zaux.
From Verif Require Import Base Float Operation Tape AContext Methods Function Spec Param
  Instances ApiFacts3 RealInst FloatInst DerivSpec LinearFacts Matrix MatrixFacts Jacobian
  JacobianFacts MethodSpec MethodFacts Cast CastFacts ChainFacts AbsNormal AbsNormalFacts Examples ExamplesR.
Import ListNotations.
Open Scope R_scope.

(** *** C19 Parallel drivers are deterministic.
    [rayon red]: every call of [red] combines the partial results in some binary tree, with empty
    leaves anywhere, depending on anything. *)
Theorem C19_jacobian_forward :
  forall (F : Type) (Fo : Fops F) red1 red2 (f : func F) (x : list F) (w : world F),
  rayon red1 -> rayon red2 ->
  jacobian_forward Fo red1 f x w = jacobian_forward Fo red2 f x w.
Proof. exact @jacobian_forward_det. Qed.
Print Assumptions C19_jacobian_forward.

Theorem C19_jacobian_reverse :
  forall (F : Type) (Fo : Fops F) red1 red2 (t : tape F),
  rayon red1 -> rayon red2 -> jacobian_reverse Fo red1 t = jacobian_reverse Fo red2 t.
Proof. exact @jacobian_reverse_det. Qed.
Print Assumptions C19_jacobian_reverse.

Theorem C19_mul_right :
  forall (F : Type) (Fo : Fops F) red1 red2 (t : tape F) (B : matrix F),
  rayon red1 -> rayon red2 -> mul_right Fo red1 t B = mul_right Fo red2 t B.
Proof. exact @mul_right_det. Qed.
Print Assumptions C19_mul_right.

Theorem C19_mul_left :
  forall (F : Type) (Fo : Fops F) red1 red2 (t : tape F) (A : matrix F),
  rayon red1 -> rayon red2 -> mul_left Fo red1 t A = mul_left Fo red2 t A.
Proof. exact @mul_left_det. Qed.
Print Assumptions C19_mul_left.

Example C19_example : exists red, @rayon (nat * list R) red.
Proof. exists (@concat _). apply rayon_exists. Qed.

(** *** C20 Derived float methods have their mathematical values ([sem1], [sem2], [valid1],
    [valid2] in MethodSpec.v), for attached and unattached variables, whatever the tape does. *)
Theorem C20_unary_values :
  forall (F : Type) (tof : R -> option F) (u : un) (x : AF R) (w : world F) (r : AF R) (w' : world F),
  meth1 Rops (from_op Rops tof) (af_const Rops) u x w = Ok (r, w') ->
  valid1 u (af_v x) -> af_v r = sem1 u (af_v x).
Proof. exact @method1_value. Qed.
Print Assumptions C20_unary_values.

Theorem C20_binary_values :
  forall (F : Type) (tof : R -> option F) (b : bin) (x y : AF R) (w : world F) (r : AF R) (w' : world F),
  meth2 Rops (from_op Rops tof) (af_const Rops) b x y w = Ok (r, w') ->
  valid2 b (af_v x) (af_v y) -> af_v r = sem2 b (af_v x) (af_v y).
Proof. exact @method2_value. Qed.
Print Assumptions C20_binary_values.

(** Supported methods never panic on unattached variables, in any arithmetic. *)
Theorem C20_supported_methods_return :
  forall (Sc F : Type) (So : Fops Sc) (tof : Sc -> option F) (u : un) (x : AF Sc) (w : world F),
  af_ctx x = None -> u <> UUnsupported ->
  exists r, meth1 So (from_op So tof) (af_const So) u x w = Ok (r, w) /\ af_ctx r = None.
Proof. exact @meth_detached1. Qed.
Print Assumptions C20_supported_methods_return.

Theorem C20_supported_binary_methods_return :
  forall (Sc F : Type) (So : Fops Sc) (tof : Sc -> option F) (b : bin) (x y : AF Sc) (w : world F),
  af_ctx x = None -> af_ctx y = None -> b <> BUnsupported ->
  exists r, meth2 So (from_op So tof) (af_const So) b x y w = Ok (r, w) /\ af_ctx r = None.
Proof. exact @meth_detached2. Qed.
Print Assumptions C20_supported_binary_methods_return.

Theorem C20_mul_add :
  forall (F : Type) (tof : R -> option F) (x y z : AF R) (w : world F) (r : AF R) (w' : world F),
  m_mul_add (from_op Rops tof) x y z w = Ok (r, w') ->
  af_v r = af_v x * af_v y + af_v z /\
  af_dv r = af_dv x * af_v y + af_v x * af_dv y + af_dv z.
Proof. exact @mul_add_value. Qed.
Print Assumptions C20_mul_add.

Theorem C20_sin_cos :
  forall (F : Type) (tof : R -> option F) (x : AF R) (w : world F) (s c : AF R) (w' : world F),
  m_sin_cos (from_op Rops tof) x w = Ok ((s, c), w') ->
  af_v s = sin (af_v x) /\ af_v c = cos (af_v x) /\
  af_dv s = af_dv x * cos (af_v x) /\ af_dv c = - (af_dv x * sin (af_v x)).
Proof. exact @sin_cos_value. Qed.
Print Assumptions C20_sin_cos.

(** The specification of cbrt and log is the intended one. *)
Example C20_spec_cbrt : forall x, 0 < x -> sem1 UCbrt x * sem1 UCbrt x * sem1 UCbrt x = x.
Proof.
  intros x H. cbn. rewrite <- !Rpower_plus. replace (/ 3 + / 3 + / 3) with 1 by lra.
  apply Rpower_1; auto.
Qed.
Example C20_spec_log : forall x y, valid2 BLog x y -> Rpower y (sem2 BLog x y) = x.
Proof.
  intros x y (Hx & Hy & H1). cbn. unfold Rpower, Rdiv.
  rewrite Rmult_assoc, Rinv_l, Rmult_1_r by (apply ln_neq_0; auto). apply exp_ln; auto.
Qed.
Example C20_example :
  exists r w', meth2 Rops (from_op Rops Some) (af_const Rops) BHypot (af_new 3 1) (af_new 4 0)
                 (world0 (F := R)) = Ok (r, w') /\ valid2 BHypot 3 4 /\ smooth2 BHypot 3 4.
Proof.
  destruct (meth_detached2 Rops Some BHypot (af_new 3 1) (af_new 4 0) (world0 (F := R)))
    as (r & E & _); try discriminate; auto.
  exists r, world0. cbn [valid2 smooth2]. split; [exact E|]. split; [exact I|]. left. lra.
Qed.

(** *** C21 ... and their mathematical derivatives: dvalue() is the derivative along the
    operands' derivatives. *)
Theorem C21_unary_derivatives :
  forall (F : Type) (tof : R -> option F) (u : un) (x : AF R) (w : world F) (r : AF R) (w' : world F),
  meth1 Rops (from_op Rops tof) (af_const Rops) u x w = Ok (r, w') ->
  smooth1 u (af_v x) ->
  derivable_pt_lim (fun s => sem1 u (af_v x + s * af_dv x)) 0 (af_dv r).
Proof. exact @method1_derivative. Qed.
Print Assumptions C21_unary_derivatives.

Theorem C21_binary_derivatives :
  forall (F : Type) (tof : R -> option F) (b : bin) (x y : AF R) (w : world F) (r : AF R) (w' : world F),
  meth2 Rops (from_op Rops tof) (af_const Rops) b x y w = Ok (r, w') ->
  smooth2 b (af_v x) (af_v y) ->
  derivable_pt_lim (fun s => sem2 b (af_v x + s * af_dv x) (af_v y + s * af_dv y)) 0 (af_dv r).
Proof. exact @method2_derivative. Qed.
Print Assumptions C21_binary_derivatives.

(** For abs, max and min dvalue() is the exact increment instead (C13, C14). *)
Theorem C21_max_min_increments :
  forall (F : Type) (tof : R -> option F) (b : bin) (x y : AF R) (w : world F) (r : AF R) (w' : world F),
  meth2 Rops (from_op Rops tof) (af_const Rops) b x y w = Ok (r, w') ->
  b = BMax \/ b = BMin ->
  af_dv r = sem2 b (af_v x + af_dv x) (af_v y + af_dv y) - sem2 b (af_v x) (af_v y).
Proof. exact @max_min_increment. Qed.
Print Assumptions C21_max_min_increments.

Theorem C21_abs_increment :
  forall (F : Type) (tof : R -> option F) (x : AF R) (w : world F) (r : AF R) (w' : world F),
  meth1 Rops (from_op Rops tof) (af_const Rops) UAbs x w = Ok (r, w') ->
  af_dv r = Rabs (af_v x + af_dv x) - Rabs (af_v x).
Proof. exact @abs_increment. Qed.
Print Assumptions C21_abs_increment.

(** *** C22 abs_sub.  It returns |a - b| for all a and b ... *)
Theorem C22_abs_sub_value :
  forall (F : Type) (tof : R -> option F) (x y : AF R) (w : world F) (r : AF R) (w' : world F),
  meth2 Rops (from_op Rops tof) (af_const Rops) BAbsSub x y w = Ok (r, w') ->
  af_v r = Rabs (af_v x - af_v y).
Proof. exact @abs_sub_value. Qed.
Print Assumptions C22_abs_sub_value.

(** ... which differs from the documented positive difference for every a < b. *)
Theorem C22_positive_difference_refuted :
  forall (F : Type) (tof : R -> option F) (x y : AF R) (w : world F) (r : AF R) (w' : world F),
  meth2 Rops (from_op Rops tof) (af_const Rops) BAbsSub x y w = Ok (r, w') ->
  af_v x < af_v y -> af_v r <> Rmax (af_v x - af_v y) 0.
Proof. exact @abs_sub_wrong. Qed.
Print Assumptions C22_positive_difference_refuted.

(** In binary64: (1).abs_sub(3) = 2. *)
Theorem C22_binary64_refuted :
  exists r, meth2 d64 (from_op d64 Some) (af_const d64) BAbsSub (af_const d64 (lit 1))
              (af_const d64 (lit 3)) (world0 (F := spec_float)) = Ok (r, world0) /\
    af_v r = lit 2.
Proof. eexists. split; vm_compute; reflexivity. Qed.
Print Assumptions C22_binary64_refuted.

(** *** C23 max and min return one of their arguments: in exact arithmetic (C20) they do, *)
Theorem C23_max_min_exact :
  forall (F : Type) (tof : R -> option F) (b : bin) (x y : AF R) (w : world F) (r : AF R) (w' : world F),
  meth2 Rops (from_op Rops tof) (af_const Rops) b x y w = Ok (r, w') ->
  (b = BMax -> af_v r = Rmax (af_v x) (af_v y)) /\ (b = BMin -> af_v r = Rmin (af_v x) (af_v y)).
Proof. exact @max_min_exact. Qed.
Print Assumptions C23_max_min_exact.

(** in binary64 they do not: min(10^16, 1) = 0, min(inf, 1) = NaN, for every libm. *)
Theorem C23_min_rounding_refuted :
  forall T : libm,
  exists r, meth2 (f64ops T) (from_op (f64ops T) Some) (af_const (f64ops T)) BMin
              (af_const (f64ops T) (lit (10 ^ 16))) (af_const (f64ops T) (lit 1))
              (world0 (F := spec_float)) = Ok (r, world0) /\
    af_v r = lit 0 /\ lit 0 <> lit 1 /\ lit 0 <> lit (10 ^ 16).
Proof.
  intros T. eexists. split; [vm_compute; reflexivity|]. split; [vm_compute; reflexivity|].
  split; vm_compute; discriminate.
Qed.
Print Assumptions C23_min_rounding_refuted.

Theorem C23_min_infinity_refuted :
  forall T : libm,
  exists r, meth2 (f64ops T) (from_op (f64ops T) Some) (af_const (f64ops T)) BMin
              (af_const (f64ops T) (S754_infinity false)) (af_const (f64ops T) (lit 1))
              (world0 (F := spec_float)) = Ok (r, world0) /\ af_v r = S754_nan.
Proof. intros T. eexists. split; vm_compute; reflexivity. Qed.
Print Assumptions C23_min_infinity_refuted.

(** *** C24 Conversions.  [AFloat::cast] keeps value, derivative and context, ... *)
Theorem C24_cast_keeps :
  forall (T S : Type) (from : T -> option S) (x : AF T),
  match from (af_v x), from (af_dv x) with
  | Some v, Some dv => af_cast from x = Ok (mkAF v dv (af_ctx x))
  | _, _ => af_cast from x = Panic PUnwrap
  end.
Proof. exact @cast_keeps. Qed.
Print Assumptions C24_cast_keeps.

(** ... [NumCast::from] an ADouble only ever returns integers: 3/2 becomes 1, *)
Theorem C24_numcast_integral :
  forall (x : AF spec_float) (y : spec_float), f64_from_af x = Some y -> exists z, y = sf_of_Z z.
Proof. exact numcast_integral. Qed.
Print Assumptions C24_numcast_integral.

(** ... exactly: the value rounded toward zero, if that fits an i64 or a u64; nothing otherwise.
    [truncation r z]: z is r rounded toward zero (CastFacts.v); SF2R is the real number a float
    stands for. *)
Theorem C24_to_i64 :
  forall (x : AF spec_float) z, af_to_i64 x = Some z <->
  is_fin (af_v x) /\ truncation (BinarySingleNaN.SF2R Zaux.radix2 (af_v x)) z /\ (- 2 ^ 63 <= z < 2 ^ 63)%Z.
Proof. exact to_i64_exact. Qed.
Print Assumptions C24_to_i64.
Theorem C24_to_u64 :
  forall (x : AF spec_float) z, af_to_u64 x = Some z <->
  is_fin (af_v x) /\ truncation (BinarySingleNaN.SF2R Zaux.radix2 (af_v x)) z /\ (0 <= z < 2 ^ 64)%Z.
Proof. exact to_u64_exact. Qed.
Print Assumptions C24_to_u64.
Theorem C24_numcast_exact :
  forall (x : AF spec_float) y, f64_from_af x = Some y <->
  exists z, is_fin (af_v x) /\ truncation (BinarySingleNaN.SF2R Zaux.radix2 (af_v x)) z /\
    (- 2 ^ 63 <= z < 2 ^ 64)%Z /\ y = sf_of_Z z.
Proof. exact numcast_exact. Qed.
Print Assumptions C24_numcast_exact.

(** An ADouble converted from another one is a constant: derivative zero, no context. *)
Theorem C24_numcast_makes_constants :
  forall x y : AF spec_float, af_from_af x = Some y <->
  (exists z, is_fin (af_v x) /\ truncation (BinarySingleNaN.SF2R Zaux.radix2 (af_v x)) z /\
     (- 2 ^ 63 <= z < 2 ^ 64)%Z /\ af_v y = sf_of_Z z) /\
  af_dv y = S754_zero false /\ af_ctx y = None.
Proof. exact from_afloat_exact. Qed.
Print Assumptions C24_numcast_makes_constants.

Theorem C24_numcast_refuted :
  exists x, af_v x = f_div d64 (lit 3) (lit 2) /\
    f64_from_af x = Some (lit 1) /\ lit 1 <> f_div d64 (lit 3) (lit 2).
Proof.
  exists (af_new (f_div d64 (lit 3) (lit 2)) (lit 0)). split; [reflexivity|].
  split; [vm_compute; reflexivity|vm_compute; discriminate].
Qed.
Print Assumptions C24_numcast_refuted.

(** so taping a nested AFloat<AFloat<f64>> stores the truncated value. *)
Theorem C24_nested_tape_refuted :
  exists (x : AF (AF spec_float)) t w',
    af_v (af_v x) = f_div d64 (lit 3) (lit 2) /\
    (c <~ ctx_new ;; x' <~ set_indep f64_from_af c x ;; _ <~ set_dep f64_from_af c x' ;;
     ctx_tape c) world0 = Ok (t, w') /\
    tape_y t = Ok [lit 1].
Proof.
  exists (mkAF (af_new (f_div d64 (lit 3) (lit 2)) (lit 0)) (af_new (lit 0) (lit 0)) None).
  eexists _, _. split; [reflexivity|]. split; vm_compute; reflexivity.
Qed.
Print Assumptions C24_nested_tape_refuted.

(** *** C42 Chain evaluation is composition, for arbitrarily nested chains and every instance of
    the methods (recording, float, ...).  [fn_iter] is iter(); [pipe] runs functions in order. *)
Theorem C42_eval_is_composition :
  forall (F : Type) (Fo : Fops F) (V St : Type) (fop : OpCode -> V -> option V -> M St V)
    (cst : F -> V) (val : V -> F) (f : func F) (x : list V) (s : St),
  feval Fo fop cst val f x s = pipe (feval Fo fop cst val) (fn_iter f) x s.
Proof. exact @eval_is_pipe. Qed.
Print Assumptions C42_eval_is_composition.

(** iter() never yields a chain. *)
Theorem C42_iter_yields_leaves :
  forall (F : Type) (f : func F), Forall (fun g => is_chain g = false) (fn_iter f).
Proof. exact @iter_leaves. Qed.
Print Assumptions C42_iter_yields_leaves.

Theorem C42_len_nth :
  forall (F : Type) (f : func F) (i : nat),
  match nth_error (fn_iter f) i with
  | Some g => (i < chain_len f)%nat /\ chain_nth f i = Ok g
  | None => (chain_len f <= i)%nat /\ chain_nth f i = Panic PUnwrap
  end.
Proof. exact @chain_index. Qed.
Print Assumptions C42_len_nth.

Theorem C42_dimensions :
  forall (F : Type) (f : func F), built f ->
  exists n m, fn_n f = Ok n /\ fn_m f = Ok m /\ (0 < chain_len f)%nat /\
    (forall g, chain_nth f 0 = Ok g -> fn_n g = Ok n) /\
    (forall g, chain_nth f (chain_len f - 1) = Ok g -> fn_m g = Ok m) /\
    forall i g h, chain_nth f i = Ok g -> chain_nth f (S i) = Ok h ->
      exists k, fn_m g = Ok k /\ fn_n h = Ok k.
Proof. exact @chain_dims. Qed.
Print Assumptions C42_dimensions.

Theorem C42_append :
  forall (F : Type) (fs : list (func F)) (f : func F) (m n : nat),
  built (Chain fs) -> built f -> fn_m (Chain fs) = Ok m -> fn_n f = Ok n ->
  (m = n -> exists c, chain_append (Chain fs) f = Ok c /\
                      fn_iter c = fn_iter (Chain fs) ++ fn_iter f) /\
  (m <> n -> chain_append (Chain fs) f = Panic PAssert).
Proof. exact @chain_append_ok. Qed.
Print Assumptions C42_append.

Example C42_example :
  exists c, built c /\ chain_len c = 3%nat /\ is_chain c = true /\
    fn_iter c = [rx_f; rx_pl; AdvFn 1 1 (Ret [0%nat])].
Proof.
  exists (Chain [rx_f; Chain [rx_pl; AdvFn 1 1 (Ret [0%nat])]]).
  split; [|repeat split].
  apply built_append with [rx_f] (Chain [rx_pl; AdvFn 1 1 (Ret [0%nat])]).
  - apply (built_new rx_f). constructor.
  - apply built_append with [rx_pl] (AdvFn 1 1 (Ret [0%nat])); [|constructor|reflexivity].
    apply (built_new rx_pl). constructor.
  - reflexivity.
Qed.

(** *** C43 adv_fn! enforces its dimensions. *)
Theorem C43_adv_fn_dimensions :
  forall (F : Type) (Fo : Fops F) (V St : Type) (fop : OpCode -> V -> option V -> M St V)
    (cst : F -> V) (val : V -> F) (n m : nat) (p : prog F) (x : list V) (s : St),
  match feval Fo fop cst val (AdvFn n m p) x s with
  | Ok (y, _) => length x = n /\ length y = m
  | Panic _ => True
  end /\
  (length x <> n -> feval Fo fop cst val (AdvFn n m p) x s = Panic PAssert) /\
  (length x = n -> forall y s', feval Fo fop cst val (Simple n m p) x s = Ok (y, s') ->
     feval Fo fop cst val (AdvFn n m p) x s
       = if (length y =? m)%nat then Ok (y, s') else Panic PAssert).
Proof. exact @advfn_dims. Qed.
Print Assumptions C43_adv_fn_dimensions.

Theorem C43_reported_dimensions :
  forall (F : Type) (n m : nat) (p : prog F), fn_n (AdvFn n m p) = Ok n /\ fn_m (AdvFn n m p) = Ok m.
Proof. exact @advfn_reports. Qed.
Print Assumptions C43_reported_dimensions.
