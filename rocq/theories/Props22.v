(** Property theorems C71: what the library's unit tests check on a few inputs holds for all of
    them.  (The half pipe tests: C59.)  The functions are those of UnitTests.v. *)
From Coq Require Import Reals Lra List Arith ZArith Bool Lia SpecFloat.
From Verif Require Import Base Float Operation Tape AContext Methods Function FloatInst RealInst Matrix Jacobian AbsNormal
  Checkpoint CheckSpec UnitTests UnitFacts UnitFacts2 UnitFacts3.
Import ListNotations.
Local Open Scope R_scope.

(** *** C71 function.rs macro_function: the maximum of a vector is its greatest entry, ... *)
Theorem C71_vector_max :
  forall n (x : list R) w, (1 <= n)%nat -> length x = n ->
  exists m, eval_float Rops (vector_max n) x w = Ok ([m], w) /\ In m x /\ forall e, In e x -> e <= m.
Proof. exact vector_max_value. Qed.
Print Assumptions C71_vector_max.

(** ... and its tape has n inputs, one output and n - 1 absolute values, in every arithmetic. *)
Theorem C71_vector_max_tape :
  forall (F : Type) (Fo : Fops F) n x w, (1 <= n)%nat -> length x = n ->
  exists t w', fn_tape Fo (vector_max n) x w = Ok (t, w') /\ num_indeps t = n /\ num_deps t = 1%nat /\
    num_abs t = (n - 1)%nat.
Proof. exact @vector_max_tape. Qed.
Print Assumptions C71_vector_max_tape.

(** function.rs function_chain_eval: the chain of three functions sums ten numbers. *)
Theorem C71_chain_of_sums :
  exists c, sum_chain (F := R) = Ok c /\ chain_len c = 3%nat /\ fn_n c = Ok 10%nat /\ fn_m c = Ok 1%nat /\
  forall x w, length x = 10%nat -> eval_float Rops c x w = Ok ([fold_right Rplus 0 x], w).
Proof. exact sum_chain_sum. Qed.
Print Assumptions C71_chain_of_sums.

(** function.rs function_extra_args, function_dim_expressions, function_complex_dim_expressions, in
    every arithmetic: extra arguments arrive, dimensions may depend on them. *)
Theorem C71_extra_arguments :
  forall (F : Type) (Fo : Fops F) n factor x w, length x = n ->
  eval_float Fo (multiplicate n factor) x w = Ok (map (fun e => f_mul Fo e factor) x, w).
Proof. exact @multiplicate_eval. Qed.
Print Assumptions C71_extra_arguments.
Theorem C71_dimension_expressions :
  forall (F : Type) (Fo : Fops F) times1 times2 v w,
  eval_float Fo (duplicate2 times1 times2) [v] w = Ok (repeat v (times1 * times2), w).
Proof. exact (fun F Fo t1 t2 v w => duplicate_eval Fo (t1 * t2) v w). Qed.
Print Assumptions C71_dimension_expressions.

(** tape.rs zero_order_arithmetic, first_order_forward_arithmetic, first_order_reverse_arithmetic,
    afloat.rs afloat_consistency: the function is the identity except at 0; its tape, wherever it
    was recorded, also at 0, replays it and yields the derivative 1 in both modes. *)
Theorem C71_all_arithmetic :
  forall x0 w, exists t w', fn_tape Rops (all_arithmetic Rops) [x0] w = Ok (t, w') /\
  forall x, x <> 0 ->
    eval_float Rops (all_arithmetic Rops) [x] w = Ok ([x], w) /\
    exists t', tape_zero_order Rops t [x] = Ok t' /\ tape_y t' = Ok [x] /\
      forall d, tape_forward Rops t' [d] = Ok [d] /\ tape_reverse Rops t' [d] = Ok [d].
Proof. exact arithmetic_right. Qed.
Print Assumptions C71_all_arithmetic.

(** tape.rs first_order_unary_nonlinear_functions: both sweeps yield the derivative the test states,
    everywhere in the domain. *)
Theorem C71_unary_functions :
  forall x w,
  let yields u d := exists t w', fn_tape Rops (unary u) [x] w = Ok (t, w') /\
                      tape_forward Rops t [1] = Ok [d] /\ tape_reverse Rops t [1] = Ok [d] in
  yields USin (cos x) /\ yields UCos (- sin x) /\ (cos x <> 0 -> yields UTan ((1 / cos x) ^ 2)) /\
  yields UExp (exp x) /\ (0 < x -> yields ULn (1 / x)) /\ (0 < x -> yields USqrt (/ 2 / sqrt x)) /\
  (-1 < x < 1 -> yields UAsin (1 / sqrt (1 - x ^ 2))) /\ (-1 < x < 1 -> yields UAcos (-1 / sqrt (1 - x ^ 2))) /\
  yields UAtan (1 / (1 + x ^ 2)).
Proof.
  exact (fun x w => conj (sin_sweeps x w) (conj (cos_sweeps x w) (conj (fun H => tan_sweeps x H w) (conj (exp_sweeps x w)
    (conj (fun H => ln_sweeps x H w) (conj (fun H => sqrt_sweeps x H w) (conj (fun H => asin_sweeps x H w)
    (conj (fun H => acos_sweeps x H w) (atan_sweeps x w))))))))).
Qed.
Print Assumptions C71_unary_functions.

(** jacobian.rs jacobian_forward_polar, jacobian_reverse_polar: the Jacobian of polar coordinates,
    computed forward, or backward from a tape recorded anywhere. *)
Theorem C71_polar_forward :
  forall red r phi w, rayon red ->
  jacobian_forward Rops red polar [r; phi] w = Ok (mkM 2 2 [[cos phi; - r * sin phi]; [sin phi; r * cos phi]]).
Proof. exact polar_forward. Qed.
Print Assumptions C71_polar_forward.
Theorem C71_polar_reverse :
  forall red r0 phi0 r phi w, rayon red ->
  exists t w' t', fn_tape Rops polar [r0; phi0] w = Ok (t, w') /\ tape_zero_order Rops t [r; phi] = Ok t' /\
    jacobian_reverse Rops red t' = Ok (mkM 2 2 [[cos phi; - r * sin phi]; [sin phi; r * cos phi]]).
Proof. exact polar_reverse. Qed.
Print Assumptions C71_polar_reverse.

(** abs_normal.rs anf_consistency: the abs-normal form of |x1| + x2. *)
Theorem C71_abs_plus :
  forall red x1 x2 w, rayon red ->
  abs_normal Rops red abs_plus [x1; x2] w =
  Ok (mkANF [x1] (mkM 1 2 [[1; 0]]) (mkM 1 1 [[0]]) [- Rabs x1] (mkM 1 2 [[0; 1]]) (mkM 1 1 [[1]])).
Proof. exact abs_plus_right. Qed.
Print Assumptions C71_abs_plus.

(** abs_normal.rs abs_decompose: the tape of ||sin a| + cos b| and its sub-tapes, in every
    arithmetic and at every point. *)
Theorem C71_abs_decompose :
  forall (F : Type) (Fo : Fops F) a b w, exists t w' A, fn_tape Fo decompose [a; b] w = Ok (t, w') /\
  t_indeps t = [0; 1]%nat /\ t_deps t = [6]%nat /\ map opcode (t_ops t) = [Sin; Abs; Cos; Add; Abs] /\
  an_new t = Ok A /\
  t_indeps (z_tape A) = [0; 1]%nat /\ t_deps (z_tape A) = [2; 5]%nat /\
  t_indeps (l_tape A) = [3; 6]%nat /\ t_deps (l_tape A) = [2; 5]%nat /\
  t_indeps (j_tape A) = [0; 1]%nat /\ t_deps (j_tape A) = [6]%nat /\
  t_indeps (y_tape A) = [3; 6]%nat /\ t_deps (y_tape A) = [6]%nat /\
  map opcode (t_ops (an_tape A)) = [Sin; Nop; Cos; Add; Nop].
Proof. exact @decompose_tape. Qed.
Print Assumptions C71_abs_decompose.

(** acontext.rs acontext_record: a + b, with both, the first or the second operand independent. *)
Theorem C71_record :
  forall (F : Type) (Fo : Fops F) va vb w,
  (exists w', record_sum Fo true true va vb w =
     Ok (mkTape [0; 1] [2] [mkOp Add 2 (Some 0) (Some 1)] [va; vb; f_add Fo va vb], w')%nat) /\
  (exists w', record_sum Fo true false va vb w =
     Ok (mkTape [0] [2] [mkOp Const 1 None None; mkOp Add 2 (Some 0) (Some 1)] [va; vb; f_add Fo va vb], w')%nat) /\
  (exists w', record_sum Fo false true va vb w =
     Ok (mkTape [0] [2] [mkOp Const 1 None None; mkOp Add 2 (Some 1) (Some 0)] [vb; va; f_add Fo va vb], w')%nat).
Proof.
  exact (fun F Fo va vb w => conj (record_sum_both Fo va vb w) (conj (record_sum_left Fo va vb w) (record_sum_right Fo va vb w))).
Qed.
Print Assumptions C71_record.

(** checkpointing.rs schedule_consistency: after its first checkpoint a schedule continues as the
    schedule of the rest with one checkpoint less. *)
Theorem C71_schedule_consistency :
  forall (est : Z -> Z -> Z) c r f l, schedule est (S c) r = Ok (f :: l) ->
  exists l', schedule est c (r - f) = Ok l' /\ l = map (fun cp => (cp + f)%nat) l'.
Proof. exact schedule_consistent. Qed.
Print Assumptions C71_schedule_consistency.

(** checkpointing.rs sequence_reverse_gauss_sum *)
Theorem C71_gauss_sum :
  forall (est : Z -> Z -> Z) r c, accurate est (Z.of_nat r + 1) -> (Z.of_nat r + 1 <= 2 ^ 32)%Z -> (2 <= c)%nat ->
  gauss_sum est r c = Ok ((r * (r + 1) / 2)%nat, tt).
Proof. exact gauss_sum_right. Qed.
Print Assumptions C71_gauss_sum.

(** The tests themselves, in binary64: the model passes the library's tests. *)
Local Open Scope nat_scope.
Example C71_tests_functions :
  eval_float d64 (vector_max 10) (map (fun i => lit (Z.of_nat i)) (seq 0 10)) world0 = Ok ([lit 9], world0) /\
  (exists c, sum_chain = Ok c /\ eval_float d64 c (repeat (lit 1) 10) world0 = Ok ([lit 10], world0)) /\
  eval_float d64 (multiplicate 10 (lit 10)) (repeat (lit 1) 10) world0 = Ok (repeat (lit 10) 10, world0).
Proof. split; [|split; [eexists; split; [reflexivity|]|]]; vm_compute; reflexivity. Qed.
Example C71_tests_tape :
  exists t w' t', fn_tape d64 (all_arithmetic d64) [lit 0] world0 = Ok (t, w') /\
  tape_zero_order d64 t [lit 3] = Ok t' /\ tape_y t' = Ok [lit 3] /\
  tape_forward d64 t' [lit 1] = Ok [lit 1] /\ tape_reverse d64 t' [lit 1] = Ok [lit 1].
Proof. eexists _, _, _. split; [vm_compute; reflexivity|]. split; [vm_compute; reflexivity|]. repeat split; vm_compute; reflexivity. Qed.
Example C71_tests_anf :
  abs_normal d64 (@concat _) abs_plus [lit 2; lit 3] world0 =
  Ok (mkANF [lit 2] (mkM 1 2 [[lit 1; lit 0]]) (mkM 1 1 [[lit 0]]) [lit (-2)] (mkM 1 2 [[lit 0; lit 1]]) (mkM 1 1 [[lit 1]])).
Proof. vm_compute. reflexivity. Qed.
Example C71_tests_schedule :
  schedule (fun _ _ => 1%Z) 4 100 = Ok [50; 80; 95; 99] /\ schedule (fun _ _ => 1%Z) 3 50 = Ok [30; 45; 49] /\
  gauss_sum (fun _ _ => 1%Z) 37 9 = Ok (703, tt).
Proof. split; [|split]; vm_compute; reflexivity. Qed.
