(** Property theorems C88: conversions between degrees and radians, and epsilon().  The methods
    ([m_to_degrees], [m_to_radians], [ad_epsilon]) and the functions of one variable that call them
    ([degrees_fn], [radians_fn]) are in Angles.v. *)
From Coq Require Import Reals Lra List Arith ZArith Bool SpecFloat.
From Flocq Require Import Core.
From Verif Require Import Base Float FloatInst Operation Tape AContext Methods Function RealInst Matrix MatrixFacts Jacobian F64Facts BallSpec
  Angles AnglesMain.
Import ListNotations.
Local Open Scope R_scope.

(** *** C88 Over the reals the conversions multiply value and derivative by 180 / pi and pi / 180. *)
Theorem C88_degrees :
  forall (F : Type) (tof : R -> option F) (x : AF R) (w : world F) (r : AF R) (w' : world F),
  m_to_degrees Rops (from_op Rops tof) (af_const Rops) x w = Ok (r, w') ->
  af_v r = af_v x * (180 / PI) /\ af_dv r = af_dv x * (180 / PI).
Proof. exact @degrees_exact. Qed.
Print Assumptions C88_degrees.
Theorem C88_radians :
  forall (F : Type) (tof : R -> option F) (x : AF R) (w : world F) (r : AF R) (w' : world F),
  m_to_radians Rops (from_op Rops tof) (af_const Rops) x w = Ok (r, w') ->
  af_v r = af_v x * (PI / 180) /\ af_dv r = af_dv x * (PI / 180).
Proof. exact @radians_exact. Qed.
Print Assumptions C88_radians.

(** They return for all unattached variables, in every arithmetic. *)
Theorem C88_return :
  forall (Sc F : Type) (So : Fops Sc) (tof : Sc -> option F) (x : AF Sc) (w : world F), af_ctx x = None ->
  (exists r, m_to_degrees So (from_op So tof) (af_const So) x w = Ok (r, w) /\ af_ctx r = None) /\
  (exists r, m_to_radians So (from_op So tof) (af_const So) x w = Ok (r, w) /\ af_ctx r = None).
Proof. exact @angles_return. Qed.
Print Assumptions C88_return.

(** Both Jacobian drivers agree; the tape may be recorded anywhere. *)
Theorem C88_jacobians :
  forall red x0 x w, rayon red ->
  jacobian_forward Rops red (degrees_fn Rops) [x] w = Ok (mkM 1 1 [[180 / PI]]) /\
  jacobian_forward Rops red (radians_fn Rops) [x] w = Ok (mkM 1 1 [[PI / 180]]) /\
  (exists t w' t', fn_tape Rops (degrees_fn Rops) [x0] w = Ok (t, w') /\ tape_zero_order Rops t [x] = Ok t' /\
     tape_y t' = Ok [x * (180 / PI)] /\ jacobian_reverse Rops red t' = Ok (mkM 1 1 [[180 / PI]])) /\
  (exists t w' t', fn_tape Rops (radians_fn Rops) [x0] w = Ok (t, w') /\ tape_zero_order Rops t [x] = Ok t' /\
     tape_y t' = Ok [x * (PI / 180)] /\ jacobian_reverse Rops red t' = Ok (mkM 1 1 [[PI / 180]])).
Proof.
  exact (fun red x0 x w H => conj (degrees_forward red x w H) (conj (radians_forward red x w H)
           (conj (degrees_reverse red x0 x w H) (radians_reverse red x0 x w H)))).
Qed.
Print Assumptions C88_jacobians.

(** In double precision the relative error of the value is at most 2^-48, unless it is extremely
    large or small. *)
Theorem C88_degrees_error :
  forall (F : Type) (tof : spec_float -> option F) (T : libm) (x : AF spec_float) (a : R) (w : world F) r w',
  libm_accurate T -> f64 (af_v x) a -> bpow radix2 (-900) <= Rabs a <= bpow radix2 900 ->
  m_to_degrees (f64ops T) (from_op (f64ops T) tof) (af_const (f64ops T)) x w = Ok (r, w') ->
  exists v, f64 (af_v r) v /\ Rabs (v - a * (180 / PI)) <= / 2 ^ 48 * Rabs (a * (180 / PI)).
Proof. exact @degrees_error. Qed.
Print Assumptions C88_degrees_error.
Theorem C88_radians_error :
  forall (F : Type) (tof : spec_float -> option F) (T : libm) (x : AF spec_float) (a : R) (w : world F) r w',
  libm_accurate T -> f64 (af_v x) a -> bpow radix2 (-900) <= Rabs a <= bpow radix2 900 ->
  m_to_radians (f64ops T) (from_op (f64ops T) tof) (af_const (f64ops T)) x w = Ok (r, w') ->
  exists v, f64 (af_v r) v /\ Rabs (v - a * (PI / 180)) <= / 2 ^ 48 * Rabs (a * (PI / 180)).
Proof. exact @radians_error. Qed.
Print Assumptions C88_radians_error.

(** For extremely large arguments the conversion overflows although the result is a double: at
    2^1018, where Rust's conversion of plain doubles (x times the constant [rust_degrees]) does not. *)
Theorem C88_no_overflow_refuted :
  forall (F : Type) (tof : spec_float -> option F) (T : libm) (w : world F), libm_accurate T ->
  (exists v, f64 (f_mul (f64ops T) large rust_degrees) v) /\
  forall r w', m_to_degrees (f64ops T) (from_op (f64ops T) tof) (af_const (f64ops T)) (af_const (f64ops T) large) w = Ok (r, w') ->
    af_v r = S754_infinity false.
Proof. exact @degrees_overflow. Qed.
Print Assumptions C88_no_overflow_refuted.

(** epsilon() is not the spacing of doubles at 1: it is 2^-23, and half of it still changes 1. *)
Theorem C88_epsilon_refuted :
  f64 (af_v ad_epsilon) (/ 2 ^ 23) /\ f_add d64 (lit 1) (f_div d64 (af_v ad_epsilon) (lit 2)) <> lit 1.
Proof. exact (conj (proj2 epsilon_single) (proj1 epsilon_single)). Qed.
Print Assumptions C88_epsilon_refuted.

Example C88_example :
  f64 (lit 90) 90 /\ bpow radix2 (-900) <= Rabs 90 <= bpow radix2 900 /\
  exists r, m_to_radians d64 (from_op d64 (@Some spec_float)) (af_const d64) (af_new (lit 90) (lit 1)) world0 = Ok (r, world0).
Proof.
  split; [exact lit90|]. split.
  - rewrite Rabs_right by lra. split.
    + apply Rle_trans with (bpow radix2 0); [apply bpow_le; discriminate|cbn; lra].
    + apply Rle_trans with (bpow radix2 7); [cbn; lra|apply bpow_le; discriminate].
  - eexists. reflexivity.
Qed.
