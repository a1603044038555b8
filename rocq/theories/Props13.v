(** Property theorems C58 (rounding of variables in binary64), and what C20 and C23 become in
    binary64.  [f64 x v]: x is a finite binary64 number of value v (F64Facts.v); [nearest x z]: x is a
    finite binary64 number, and none is closer to z (F64Ops.v).  Operands may be attached to a
    context or not; [w], [w'] are the states before and after. *)
From Coq Require Import Reals Lra List Arith ZArith Bool Lia SpecFloat.
From Verif Require Import Base Float FloatInst Operation Tape AContext Methods F64Facts F64Ops EstF64 F64Std.
Import ListNotations.
Open Scope R_scope.

(** *** C58 Values are correctly rounded: the result of + - * / is the double nearest to the exact
    result of the operation on the operands. *)
Theorem C58_values_correctly_rounded :
  forall (T : libm) (F : Type) (tof : spec_float -> option F) (x y r : AF spec_float) (w w' : world F) a b o f,
  meth2 (f64ops T) (from_op (f64ops T) tof) (af_const (f64ops T)) o x y w = Ok (r, w') ->
  In (o, f) [(BAdd, Rplus); (BSub, Rminus); (BMul, Rmult); (BDiv, Rdiv)] ->
  f64 (af_v x) a -> f64 (af_v y) b -> (o = BDiv -> b <> 0) -> Rabs (f a b) <= 2 ^ 1023 ->
  nearest (af_v r) (f a b).
Proof. exact @basic_binary64. Qed.
Print Assumptions C58_values_correctly_rounded.

(** Negation and abs are exact. *)
Theorem C58_neg_abs_exact :
  forall (T : libm) (F : Type) (tof : spec_float -> option F) (x r : AF spec_float) (w w' : world F) a,
  f64 (af_v x) a ->
  (meth1 (f64ops T) (from_op (f64ops T) tof) (af_const (f64ops T)) UNeg x w = Ok (r, w') ->
     f64 (af_v r) (- a)) /\
  (meth1 (f64ops T) (from_op (f64ops T) tof) (af_const (f64ops T)) UAbs x w = Ok (r, w') ->
     f64 (af_v r) (Rabs a)).
Proof.
  exact (fun T F tof x r w w' a Fx =>
    conj (fun E => neg_binary64 T tof x r w w' a E Fx) (fun E => abs_binary64 T tof x r w w' a E Fx)).
Qed.
Print Assumptions C58_neg_abs_exact.

(** Derivatives of sums and differences are correctly rounded, ... *)
Theorem C58_derivatives_of_sums :
  forall (T : libm) (F : Type) (tof : spec_float -> option F) (x y r : AF spec_float) (w w' : world F) da db o f,
  meth2 (f64ops T) (from_op (f64ops T) tof) (af_const (f64ops T)) o x y w = Ok (r, w') ->
  In (o, f) [(BAdd, Rplus); (BSub, Rminus)] ->
  f64 (af_dv x) da -> f64 (af_dv y) db -> Rabs (f da db) <= 2 ^ 1023 ->
  nearest (af_dv r) (f da db).
Proof. exact @basic_dv_binary64. Qed.
Print Assumptions C58_derivatives_of_sums.

(** ... those of products and quotients have a small error relative to the terms of the rule. *)
Theorem C58_derivative_of_product :
  forall (T : libm) (F : Type) (tof : spec_float -> option F) (x y r : AF spec_float) (w w' : world F) a b da db,
  meth2 (f64ops T) (from_op (f64ops T) tof) (af_const (f64ops T)) BMul x y w = Ok (r, w') ->
  f64 (af_v x) a -> f64 (af_v y) b -> f64 (af_dv x) da -> f64 (af_dv y) db ->
  Rabs a <= 2 ^ 200 -> Rabs b <= 2 ^ 200 -> Rabs da <= 2 ^ 200 -> Rabs db <= 2 ^ 200 ->
  exists d, f64 (af_dv r) d /\
    Rabs (d - (da * b + a * db)) <= / 2 ^ 51 * (Rabs (da * b) + Rabs (a * db)) + 3 * / 2 ^ 1074.
Proof. exact @mul_dv_binary64. Qed.
Print Assumptions C58_derivative_of_product.

Theorem C58_derivative_of_quotient :
  forall (T : libm) (F : Type) (tof : spec_float -> option F) (x y r : AF spec_float) (w w' : world F) a b da db,
  meth2 (f64ops T) (from_op (f64ops T) tof) (af_const (f64ops T)) BDiv x y w = Ok (r, w') ->
  f64 (af_v x) a -> f64 (af_v y) b -> f64 (af_dv x) da -> f64 (af_dv y) db ->
  Rabs a <= 2 ^ 200 -> / 2 ^ 200 <= Rabs b <= 2 ^ 200 -> Rabs da <= 2 ^ 200 -> Rabs db <= 2 ^ 200 ->
  exists d, f64 (af_dv r) d /\
    Rabs (d - (da * b - a * db) / (b * b)) <=
      / 2 ^ 50 * ((Rabs (da * b) + Rabs (a * db)) / (b * b)) + / 2 ^ 600.
Proof. exact @div_dv_binary64. Qed.
Print Assumptions C58_derivative_of_quotient.

(** 1/10 is not a double; the quotient of the variables 1 and 10 is the double nearest to it. *)
Example C58_example : exists r,
  meth2 d64 (from_op d64 Some) (af_const d64) BDiv (af_const d64 (lit 1)) (af_const d64 (lit 10)) world0
    = Ok (r, world0) /\ af_v r = S754_finite false 7205759403792794 (-56).
Proof. eexists. split; vm_compute; reflexivity. Qed.
Example C58_example_lit : f64 (lit 1) 1 /\ f64 (lit 10) 10.
Proof. split; [apply (f64_Z 1)|apply (f64_Z 10)]; lia. Qed.

(** *** C23 max and min of finite arguments are right up to a rounding error relative to the larger
    of the two (in absolute value). *)
Theorem C23_max_error :
  forall (T : libm) (F : Type) (tof : spec_float -> option F) (x y r : AF spec_float) (w w' : world F) a b,
  meth2 (f64ops T) (from_op (f64ops T) tof) (af_const (f64ops T)) BMax x y w = Ok (r, w') ->
  f64 (af_v x) a -> f64 (af_v y) b -> Rabs a <= 2 ^ 1020 -> Rabs b <= 2 ^ 1020 ->
  exists v, f64 (af_v r) v /\ Rabs (v - Rmax a b) <= / 2 ^ 51 * (Rabs a + Rabs b) + / 2 ^ 1074.
Proof. exact @max_binary64. Qed.
Print Assumptions C23_max_error.

Theorem C23_min_error :
  forall (T : libm) (F : Type) (tof : spec_float -> option F) (x y r : AF spec_float) (w w' : world F) a b,
  meth2 (f64ops T) (from_op (f64ops T) tof) (af_const (f64ops T)) BMin x y w = Ok (r, w') ->
  f64 (af_v x) a -> f64 (af_v y) b -> Rabs a <= 2 ^ 1020 -> Rabs b <= 2 ^ 1020 ->
  exists v, f64 (af_v r) v /\ Rabs (v - Rmin a b) <= / 2 ^ 51 * (Rabs a + Rabs b) + / 2 ^ 1074.
Proof. exact @min_binary64. Qed.
Print Assumptions C23_min_error.

(** *** C20 In binary64, with a pow that follows the C and IEEE standards ([pow_std], F64Std.v), cbrt
    of every negative number is NaN ... *)
Theorem C20_cbrt_of_negative_refuted :
  forall (T : libm), pow_std T ->
  forall (F : Type) (tof : spec_float -> option F) (x r : AF spec_float) (w w' : world F) a,
  meth1 (f64ops T) (from_op (f64ops T) tof) (af_const (f64ops T)) UCbrt x w = Ok (r, w') ->
  f64 (af_v x) a -> a < 0 -> af_v r = S754_nan.
Proof. exact @cbrt_negative. Qed.
Print Assumptions C20_cbrt_of_negative_refuted.

(** ... and hypot overflows although its value is far from doing so. *)
Theorem C20_hypot_overflow_refuted :
  forall (T : libm), pow_std T ->
  forall (F : Type) (tof : spec_float -> option F) (x y r : AF spec_float) (w w' : world F) a b,
  meth2 (f64ops T) (from_op (f64ops T) tof) (af_const (f64ops T)) BHypot x y w = Ok (r, w') ->
  f64 (af_v x) a -> f64 (af_v y) b -> 2 ^ 512 <= a -> 2 ^ 512 <= b -> af_v r = S754_infinity false.
Proof. exact @hypot_overflow. Qed.
Print Assumptions C20_hypot_overflow_refuted.

(** There is such a libm, even a correctly rounded one; and such arguments, with hypot at most 2^601. *)
Example C20_example_std : pow_std libm_std /\ libm_ok libm_std.
Proof. exact (conj libm_std_pow libm_std_ok). Qed.
Example C20_example_big : f64 (lit (2 ^ 600)) (2 ^ 600) /\ 2 ^ 512 <= 2 ^ 600 /\
  sqrt (2 ^ 600 * 2 ^ 600 + 2 ^ 600 * 2 ^ 600) <= 2 ^ 601.
Proof.
  split; [|split].
  - exists (BinarySingleNaN.B754_finite (prec := prec64) (emax := emax64) false (2 ^ 52) 548 eq_refl).
    split; [vm_compute; reflexivity|]. split; [reflexivity|].
    cbn [BinarySingleNaN.B2R]. unfold Defs.F2R. cbn [Defs.Fnum Defs.Fexp].
    rewrite Raux.bpow_powerRZ. change (Zaux.cond_Zopp false (Z.pos (2 ^ 52))) with (2 ^ 52)%Z.
    replace (IZR (2 ^ 52)) with (2 ^ 52) by (rewrite pow_IZR; reflexivity).
    change (powerRZ (IZR (Zaux.radix_val Zaux.radix2)) 548) with (2 ^ 548). rewrite <- pow_add. f_equal.
  - apply Rle_pow; [lra|lia].
  - set (h := 2 ^ 600). assert (0 < h) as H by (apply pow_lt; lra).
    replace (2 ^ 601) with (2 * h) by reflexivity.
    rewrite <- (sqrt_square (2 * h)) by lra. apply sqrt_le_1_alt. nra.
Qed.
