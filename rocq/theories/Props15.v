(** Property theorems C60 (examples/floyd_warshall.rs), C61 (examples/perceptron.rs) and C62 (what
    functions record).  Vocabulary in FloydSpec.v, PerceptronFacts.v ([network_error]) and
    TapeSize.v. *)
From Coq Require Import Reals Lra List Arith ZArith NArith Bool Lia.
From Verif Require Import Base Float FloatInst RealInst Operation Tape AContext Methods Function Spec TapeFacts
  DerivSpec DerivFacts2 LinearFacts Matrix MatrixFacts Jacobian JacobianFacts AbsNormal Checkpoint GenJac Build Programs FloydSpec FloydMain
  PerceptronFacts TapeSize Examples ExamplesR.
Import ListNotations.
Open Scope R_scope.

(** *** C60 The tapes of the algorithm's steps, recorded at zeros and replayed one after the other,
    turn a matrix of edge weights (negative ones allowed, no cycle of negative weight) into the
    matrix of the weights of shortest walks. *)
Theorem C60_shortest_paths :
  forall n W v w, no_negative_cycle n W -> length v = (n * n)%nat ->
  (forall i j, (i < n)%nat -> (j < n)%nat -> at_ n v i j = W i j) ->
  exists v' w', replay_all Rops (map (fw_step_fn n) (seq 0 n)) v w = Ok (v', w') /\ length v' = (n * n)%nat /\
    forall i j, (i < n)%nat -> (j < n)%nat -> shortest n W i j (at_ n v' i j).
Proof. exact fw_steps_correct. Qed.
Print Assumptions C60_shortest_paths.

(** The number the example minimises, for every street map, list of exits and parameters: the sum
    over all pairs of exits of the squared shortest travel times. *)
Theorem C60_value :
  forall n nlights inf edges exits params w,
  0 <= inf -> length params = nlights -> Forall (street_ok n nlights) edges -> Forall (fun u => (u < n)%nat) exits ->
  exists d w', (forall i j, (i < n)%nat -> (j < n)%nat ->
      shortest n (street inf (streets params edges)) i j (d i j)) /\
    fw_value Rops n nlights inf edges exits params w = Ok (sumsq d (list_prod exits exits), w').
Proof. exact fw_value_correct. Qed.
Print Assumptions C60_value.

Example C60_example : Forall (street_ok ex_n 6) ex_edges /\ Forall (fun u => (u < ex_n)%nat) ex_exits /\ 0 <= ex_inf Rops.
Proof.
  split; [repeat constructor|]. split; [repeat constructor|]. unfold ex_inf. cbn. lra.
Qed.

(** The gradient the example computes is not the gradient of that number: each street's time is
    stored at two places, the outputs of the first tape repeat variables, and only one of the two is
    differentiated.  For one street of one light at 1/2 the value is 2 (1 + 1/q)^2, its derivative
    -48, the computed gradient -24 (binary64; all intermediate results are exact). *)
Theorem C60_gradient_refuted :
  (forall q w, / 100 <= q <= 99 / 100 ->
     exists w', fw_value Rops 2 1 10000 [(0, 1, (0, true))]%nat [0; 1]%nat [q] w = Ok (2 * Rsqr (1 + / q), w')) /\
  derivable_pt_lim (fun q => 2 * Rsqr (1 + / q)) (1 / 2) (-48) /\
  exists w', fw_gradient d64 (@concat _) (fun k _ => Z.max 1 (k / 2)) 2 1 (lit 10000) [(0, 1, (0, true))]%nat [0; 1]%nat
    [f_div d64 (f_one d64) (lit 2)] world0 = Ok (mkM 1 1 [[lit (-24)]], w').
Proof. exact (conj one_street_value (conj one_street_derivative one_street_gradient)). Qed.
Print Assumptions C60_gradient_refuted.

(** *** C61 The perceptron example's gradient is the gradient of the network's error, at all
    parameters, although the tape was recorded at zeros. *)
Theorem C61_gradient :
  forall red (params : list R) w, rayon red -> length params = 9%nat ->
  exists t w' J, record0 Rops (xor_fn Rops) w = Ok (t, w') /\ xor_gradient Rops red t params = Ok J /\
    m_rows J = 1%nat /\ m_cols J = 9%nat /\
    forall j, (j < 9)%nat ->
      derivable_pt_lim (fun s => network_error (update params j (nth j params 0 + s))) 0 (ent Rops J 0 j).
Proof. exact xor_gradient_correct. Qed.
Print Assumptions C61_gradient.

Example C61_example : @rayon (nat * list R) (@concat _) /\ network_error [0; 0; 0; 0; 0; 0; 0; 0; 0] = 1.
Proof. split; [apply rayon_exists|exact network_error_0]. Qed.

(** *** C62 A function that calls none of abs, max, min, abs_sub records no Abs, ... *)
Theorem C62_smooth_functions :
  forall (F : Type) (Fo : Fops F) f x w t w', fn_tape Fo f x w = Ok (t, w') -> smooth_f f -> num_abs t = 0%nat.
Proof. exact @smooth_no_abs. Qed.
Print Assumptions C62_smooth_functions.

(** ... so forward sweeps compute its derivatives wherever its operations are defined. *)
Theorem C62_smooth_functions_are_differentiated :
  forall (f : func R) (x : list R) (w : world R) (t : tape R) (w' : world R),
  fn_tape Rops f x w = Ok (t, w') -> regular f x -> same_branches_near f x -> smooth_f f ->
  forall dx, length dx = length x ->
  exists dy, tape_forward Rops t dx = Ok dy /\ length dy = length (outputs f x) /\
    forall k, (k < length dy)%nat ->
      derivable_pt_lim (fun s => nth k (outputs f (vadd x (vscal s dx))) 0) 0 (nth k dy 0).
Proof. exact smooth_forward. Qed.
Print Assumptions C62_smooth_functions_are_differentiated.

(** The size of a tape is linear: at most ten entries for each method call and one for each output. *)
Theorem C62_tape_size :
  forall (F : Type) (Fo : Fops F) f n x w t w', fn_tape Fo f x w = Ok (t, w') -> calls_f f n ->
  (length (t_ops t) <= 10 * n + num_deps t)%nat /\ length (t_vals t) = (length x + length (t_ops t))%nat.
Proof. exact @tape_size_all. Qed.
Print Assumptions C62_tape_size.

Example C62_example : smooth_f rx_f /\ calls_f rx_f 3.
Proof. cbn. repeat split; try discriminate; repeat eexists. Qed.
