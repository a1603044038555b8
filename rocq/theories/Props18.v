(** Property theorems C67: recordings with other number types (vocabulary in Mixed.v); C68: the
    optimisation loop of the perceptron example (model in Descent.v, vocabulary in DescentSpec.v). *)
From Coq Require Import Reals Lra List Arith ZArith Bool Lia SpecFloat.
From Verif Require Import Base Float FloatInst Operation Tape AContext Methods Function Instances
  Mixed MixedFacts F64Facts SingleFacts SingleRound Matrix MatrixFacts RealInst Programs PerceptronFacts Descent
  DescentSpec DescentFacts.
Import ListNotations.
Local Open Scope nat_scope.

(** *** C67 Tapes recorded with another number type.
    [So] is the arithmetic of the recording's numbers, [Fo] that of the tape, [tof] the
    conversion.  A recorded tape holds the inputs and the results of the recorded run,
    converted. *)
Theorem C67_tape_holds_converted_values :
  forall (S F : Type) (So : Fops S) (Fo : Fops F) (tof : S -> option F) (p : prog S) (x : list S)
    (w : world F) t w',
  record_prog So tof p x w = Ok (t, w') ->
  exists y, v_run So p x = Ok y /\
    tape_x t = Ok (map (conv Fo tof) x) /\ tape_y t = Ok (map (conv Fo tof) y) /\
    (forall s, In s (x ++ y) -> tof s = Some (conv Fo tof s)).
Proof. exact @record_prog_values. Qed.
Print Assumptions C67_tape_holds_converted_values.

(** A replay and a forward sweep compute what depends on the inputs in the tape's arithmetic,
    and keep what does not as it was computed in the recording's arithmetic. *)
Theorem C67_replay_in_two_precisions :
  forall (S F : Type) (So : Fops S) (Fo : Fops F) (tof : S -> option F) (p : prog S) (x : list S)
    (w : world F) t w',
  straight p -> record_prog So tof p x w = Ok (t, w') ->
  forall x' dx, length x' = length x -> length dx = length x ->
  exists zs t',
    mixed_run So Fo tof p x' dx = Ok zs /\
    tape_zero_order Fo t x' = Ok t' /\ tape_y t' = Ok (map fst zs) /\
    tape_forward Fo t' dx = Ok (map snd zs).
Proof. exact @record_prog_straight. Qed.
Print Assumptions C67_replay_in_two_precisions.

(** Programs with branches: along the path taken by the recorded run. *)
Theorem C67_replay_along_recorded_path :
  forall (S F : Type) (So : Fops S) (Fo : Fops F) (tof : S -> option F) (p : prog S) (x : list S)
    (w : world F) t w',
  record_prog So tof p x w = Ok (t, w') ->
  forall x' dx, length x' = length x -> length dx = length x ->
  exists zs t',
    mixed_run So Fo tof (resolve So p x) x' dx = Ok zs /\
    tape_zero_order Fo t x' = Ok t' /\ tape_y t' = Ok (map fst zs) /\
    tape_forward Fo t' dx = Ok (map snd zs).
Proof. exact @record_prog_path. Qed.
Print Assumptions C67_replay_along_recorded_path.

(** Recording succeeds exactly if the plain run does, when every number converts. *)
Theorem C67_recording_succeeds_iff_run_does :
  forall (S F : Type) (So : Fops S) (Fo : Fops F) (tof : S -> option F) (p : prog S) (x : list S)
    (w : world F),
  (forall s, tof s <> None) ->
  ((exists t w', record_prog So tof p x w = Ok (t, w')) <-> (exists y, v_run So p x = Ok y)).
Proof. exact @record_prog_total. Qed.
Print Assumptions C67_recording_succeeds_iff_run_does.

(** For [ADouble] ([S] = [f64]) this is [Function::tape]. *)
Theorem C67_double_precision_sweeps :
  forall (F : Type) (Fo : Fops F) n m (p : prog F) (x : list F) (w : world F) t w',
  fn_tape Fo (Simple n m p) x w = Ok (t, w') ->
  forall x' dx, length x' = length x -> length dx = length x ->
  exists zs t',
    mixed_run Fo Fo Some (resolve Fo p x) x' dx = Ok zs /\
    tape_zero_order Fo t x' = Ok t' /\ tape_y t' = Ok (map fst zs) /\
    tape_forward Fo t' dx = Ok (map snd zs).
Proof. exact (fun F Fo n m p x w t w' => record_prog_path Fo Fo Some p x w t w'). Qed.
Print Assumptions C67_double_precision_sweeps.

(** Replaying at the point of recording gives the recorded results if every operation of the run
    gave the number the tape's arithmetic gives ... *)
Theorem C67_exact_runs_are_reproduced :
  forall (S F : Type) (So : Fops S) (Fo : Fops F) (tof : S -> option F) (p : prog S) (x : list S)
    (w : world F) t w',
  record_prog So tof p x w = Ok (t, w') -> converts_exactly So Fo tof p x ->
  exists t', tape_zero_order Fo t (map (conv Fo tof) x) = Ok t' /\ tape_y t' = tape_y t.
Proof. exact @exact_replay. Qed.
Print Assumptions C67_exact_runs_are_reproduced.

(** ... but not in general: single precision, one multiplication. *)
Theorem C67_replay_at_recording_point_refuted :
  exists t w' t' y y',
    record_prog (f32ops libm0) tof32 square [next_after_one] world0 = Ok (t, w') /\
    tape_y t = Ok y /\
    tape_zero_order d64 t (map (conv d64 tof32) [next_after_one]) = Ok t' /\
    tape_y t' = Ok y' /\ y' <> y.
Proof. exact square_differs. Qed.
Print Assumptions C67_replay_at_recording_point_refuted.

(** The conversion from [f32] is exact, and always succeeds. *)
Theorem C67_single_to_double_exact :
  (forall x v, f32 x v -> f64 (widen x) v) /\ (forall x, tof32 x = Some (widen x)) /\
  widen S754_nan = S754_nan /\ (forall s, widen (S754_infinity s) = S754_infinity s) /\
  (forall s, widen (S754_zero s) = S754_zero s).
Proof. exact (conj widen_exact (conj (fun _ => eq_refl) widen_special)). Qed.
Print Assumptions C67_single_to_double_exact.

(** *** C58 The values [ASingle] variables get are correctly rounded in single precision: the result of
    + - * / is the single nearest to the exact result ([f32 x v]: x is a finite single of value v,
    SingleFacts.v; [nearest32]: SingleRound.v), *)
Theorem C58_single_values_correctly_rounded :
  forall (T : libm) (F : Type) (tof : spec_float -> option F) (x y r : AF spec_float) (w w' : world F) (a b : R) o f,
  meth2 (f32ops T) (from_op (f32ops T) tof) (af_const (f32ops T)) o x y w = Ok (r, w') ->
  In (o, f) [(BAdd, Rplus); (BSub, Rminus); (BMul, Rmult); (BDiv, Rdiv)] ->
  f32 (af_v x) a -> f32 (af_v y) b -> (o = BDiv -> b <> 0%R) -> (Rabs (f a b) <= 2 ^ 127)%R ->
  nearest32 (af_v r) (f a b).
Proof. exact @basic_binary32. Qed.
Print Assumptions C58_single_values_correctly_rounded.

(** negation and abs are exact, and the derivatives of sums and differences correctly rounded. *)
Theorem C58_single_neg_abs_exact :
  forall (T : libm) (F : Type) (tof : spec_float -> option F) (x r : AF spec_float) (w w' : world F) (a : R),
  f32 (af_v x) a ->
  (meth1 (f32ops T) (from_op (f32ops T) tof) (af_const (f32ops T)) UNeg x w = Ok (r, w') -> f32 (af_v r) (- a)%R) /\
  (meth1 (f32ops T) (from_op (f32ops T) tof) (af_const (f32ops T)) UAbs x w = Ok (r, w') -> f32 (af_v r) (Rabs a)).
Proof.
  exact (fun T F tof x r w w' a Fx =>
    conj (fun E => neg_binary32 T tof x r w w' a E Fx) (fun E => abs_binary32 T tof x r w w' a E Fx)).
Qed.
Print Assumptions C58_single_neg_abs_exact.

Theorem C58_single_derivatives_of_sums :
  forall (T : libm) (F : Type) (tof : spec_float -> option F) (x y r : AF spec_float) (w w' : world F) o f (da db : R),
  meth2 (f32ops T) (from_op (f32ops T) tof) (af_const (f32ops T)) o x y w = Ok (r, w') ->
  In (o, f) [(BAdd, Rplus); (BSub, Rminus)] ->
  f32 (af_dv x) da -> f32 (af_dv y) db -> (Rabs (f da db) <= 2 ^ 127)%R ->
  nearest32 (af_dv r) (f da db).
Proof. exact @basic_dv_binary32. Qed.
Print Assumptions C58_single_derivatives_of_sums.

Example C58_single_example : exists r,
  meth2 (f32ops libm0) (from_op (f32ops libm0) tof32) (af_const (f32ops libm0)) BDiv
    (af_const (f32ops libm0) (sf32_of_Z 1)) (af_const (f32ops libm0) (sf32_of_Z 3)) world0 = Ok (r, world0) /\
  af_v r = S754_finite false 11184811 (-25) /\ f32 (sf32_of_Z 1) 1.
Proof. eexists. split; [vm_compute; reflexivity|]. split; [reflexivity|apply one_f32]. Qed.

(** [x * (1 / 3)], with a branch on x: the third is a single precision third also in the replay. *)
Definition ex_single : prog spec_float :=
  Inspect 0 (fun v => if SFltb v (sf32_of_Z 0) then Abort else
    LetC (sf32_of_Z 1) (LetC (sf32_of_Z 3) (Let2 BDiv 1 2 (Let2 BMul 0 3 (Ret [4; 0; 3]))))).
Definition third32 : spec_float := S754_finite false 11184811 (-25).
Example C67_example :
  exists t w',
    record_prog (f32ops libm0) tof32 ex_single [sf32_of_Z 7] (world0 (F := spec_float)) = Ok (t, w') /\
    v_run (f32ops libm0) ex_single [sf32_of_Z 7] =
      Ok [S754_finite false 9786710 (-22); sf32_of_Z 7; third32] /\
    mixed_run (f32ops libm0) d64 tof32 (resolve (f32ops libm0) ex_single [sf32_of_Z 7])
      [lit 5] [lit 2] =
      Ok [(sf_mul (lit 5) (widen third32), sf_mul (lit 2) (widen third32));
          (lit 5, lit 2); (widen third32, lit 0)].
Proof.
  eexists _, _. split; [vm_compute; reflexivity|]. split; vm_compute; reflexivity.
Qed.
Definition ex_ints : prog spec_float := Let2 BMul 0 1 (LetC (sf32_of_Z 5) (Let2 BSub 2 3 (Ret [4]))).
Example C67_example_exact :
  converts_exactly (f32ops libm0) d64 tof32 ex_ints [sf32_of_Z 300; sf32_of_Z (-41)].
Proof.
  intros ys P. vm_compute. intros [= _ <-]. repeat split; reflexivity.
Qed.

(** *** C68 The perceptron example's loop is gradient descent on the network's error.
    In exact arithmetic, for every reduction tree of the parallel driver, initial values, initial
    step, epsilon and number of iterations: nothing panics, every move is along the gradient at the
    current parameters, what is printed are the errors of the visited networks, and the loop ends
    exactly when the gradient is not longer than epsilon. *)
Theorem C68_loop_is_gradient_descent :
  forall red eps step (start : list R) fuel w,
  rayon red -> length start = 9 ->
  exists s fin w' g0,
    perceptron_main Rops red eps step start fuel w = Ok ((s, fin), w') /\
    descends network_error eps start g0 step (gd_printed s) (gd_params s) (gd_grad s) /\
    (fin = true -> is_gradient network_error (gd_params s) (gd_grad s) /\
                   (length2 (gd_grad s) <= eps)%R) /\
    (fin = false -> length (gd_printed s) = fuel /\ (eps < length2 (gd_grad s))%R).
Proof. exact perceptron_descends. Qed.
Print Assumptions C68_loop_is_gradient_descent.

(** In binary64 the loop ends as well as soon as a component of the gradient is NaN ... *)
Theorem C68_nan_ends_the_loop :
  forall (T : libm) red eps fuel (s : descent),
  In S754_nan (gd_grad s) -> descent_loop (f64ops T) red eps fuel s = Ok (s, true).
Proof. exact nan_ends_loop. Qed.
Print Assumptions C68_nan_ends_the_loop.

(** ... and an iteration whose step is too small to change the parameters makes the next step, and
    then all parameters, NaN (the difference of the gradients is zero). *)
Theorem C68_stalled_iterations :
  forall (T : libm) red (s s' : descent) t,
  gradient (f64ops T) red (gd_tape s) (gd_params s) = Ok (gd_grad s, t) ->
  Forall finite64 (gd_grad s) ->
  descent_body (f64ops T) red s = Ok s' -> gd_params s' = gd_params s ->
  gd_grad s' = gd_grad s /\ gd_step s' = S754_nan /\
  forall s'', descent_body (f64ops T) red s' = Ok s'' -> Forall (eq S754_nan) (gd_params s'').
Proof. exact stalled. Qed.
Print Assumptions C68_stalled_iterations.

(** So in binary64 the loop may end, "finished", with parameters that are not numbers: from
    parameters 1 and an initial step 2^-60, with the values of the exponential function listed in
    [exp_values]. *)
Theorem C68_ends_at_small_gradient_refuted :
  exists s w', perceptron_main (f64ops libm_exp) (@concat _) eps20 tiny ones 5 world0 = Ok ((s, true), w') /\
    length (gd_printed s) = 2 /\ Forall (eq S754_nan) (gd_params s).
Proof. exact ends_with_nan. Qed.
Print Assumptions C68_ends_at_small_gradient_refuted.

Example C68_example :
  @rayon (nat * list R) (@concat _) /\ length (perceptron_start Rops) = 9 /\
  (exists s w', perceptron_main (f64ops libm_exp) (@concat _) eps20 tiny ones 1 world0
     = Ok ((s, false), w')).
Proof.
  split; [apply rayon_exists|]. split; [reflexivity|].
  assert (match perceptron_main (f64ops libm_exp) (@concat _) eps20 tiny ones 1 world0
    with Ok ((_, false), _) => true | _ => false end = true) as H by (vm_compute; reflexivity).
  destruct (perceptron_main _ _ _ _ _ _ _) as [[[s []] w']|]; try discriminate. eauto.
Qed.
