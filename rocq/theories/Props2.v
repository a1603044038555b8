(** Property theorems C12-C18: derivatives.  [Rops] is exact real arithmetic. *)
From Coq Require Import Reals Lra List Arith ZArith Bool Lia SpecFloat.
From Verif Require Import Base Float Operation Tape AContext Methods Function Spec Param
  Instances ApiFacts3 RealInst FloatInst Replay2 DerivSpec DerivFacts LinearFacts DerivFacts2 Matrix
  MatrixFacts Jacobian JacobianFacts Examples ExamplesR Tapeless.
Import ListNotations.
Open Scope R_scope.

(** *** C12 Forward mode computes the derivative.
    [regular f x]: every operation of f at x is inside its open domain; [same_branches_near]: f
    takes the same branches near x; [no_abs t]: num_abs() = 0; [outputs f x]: the values of f. *)
Theorem C12_forward_is_derivative :
  forall (f : func R) (x : list R) (w : world R) (t : tape R) (w' : world R),
  fn_tape Rops f x w = Ok (t, w') -> regular f x -> same_branches_near f x -> no_abs t ->
  forall dx, length dx = length x ->
  exists dy, tape_forward Rops t dx = Ok dy /\ length dy = length (outputs f x) /\
    (exists d, 0 < d /\ forall s, Rabs s < d ->
       forall w2, eval_float Rops f (vadd x (vscal s dx)) w2
                  = Ok (outputs f (vadd x (vscal s dx)), w2)) /\
    forall k, (k < length dy)%nat ->
      derivable_pt_lim (fun s => nth k (outputs f (vadd x (vscal s dx))) 0) 0 (nth k dy 0).
Proof. exact forward_derivative. Qed.
Print Assumptions C12_forward_is_derivative.

(** The same for dvalue() in tapeless mode. *)
Theorem C12_tapeless_is_derivative :
  forall (f : func R) (x : list R) (w : world R) (t : tape R) (w' : world R),
  fn_tape Rops f x w = Ok (t, w') -> regular f x -> same_branches_near f x -> no_abs t ->
  forall dx, length dx = length x ->
  exists outs, (forall w2, eval Rops f (pairs x dx) w2 = Ok (outs, w2)) /\
    map af_v outs = outputs f x /\
    forall k, (k < length outs)%nat ->
      derivable_pt_lim (fun s => nth k (outputs f (vadd x (vscal s dx))) 0) 0
                       (nth k (map af_dv outs) 0).
Proof. exact tapeless_derivative_full. Qed.
Print Assumptions C12_tapeless_is_derivative.

Example C12_example :
  exists t w', fn_tape Rops rx_f [2; 3] world0 = Ok (t, w') /\ regular rx_f [2; 3] /\
    same_branches_near rx_f [2; 3] /\ no_abs t.
Proof.
  rtape. eexists _, _. split; [reflexivity|]. split; [apply rx_f_regular|].
  split; [left; repeat split|reflexivity].
Qed.

Example C12_example_branch :
  exists t w', fn_tape Rops rx_branch [1] world0 = Ok (t, w') /\ regular rx_branch [1] /\
    same_branches_near rx_branch [1] /\ no_abs t /\ ~ straight_f rx_branch.
Proof.
  rewrite rx_branch_tape. rtape. eexists _, _. split; [reflexivity|].
  split; [apply rx_branch_regular|]. split; [apply rx_branch_near|]. split; [reflexivity|].
  cbn. tauto.
Qed.

(** *** C13 Forward mode computes the piecewise linearisation (functions with abs, max, min). *)
Theorem C13_piecewise_linearisation :
  forall (f : func R) (x : list R) (w : world R) (t : tape R) (w' : world R),
  fn_tape Rops f x w = Ok (t, w') -> regular f x -> same_branches_near f x ->
  exists y, tape_y t = Ok y /\
  forall e, 0 < e -> exists d, 0 < d /\ forall h, length h = length x -> nrm1 h < d ->
    exists y' dy, (forall w2, eval_float Rops f (vadd x h) w2 = Ok (y', w2)) /\
      tape_forward Rops t h = Ok dy /\ length y' = length y /\ length dy = length y /\
      forall k, (k < length y)%nat ->
        Rabs (nth k y' 0 - nth k y 0 - nth k dy 0) <= e * nrm1 h.
Proof. exact piecewise_linearisation. Qed.
Print Assumptions C13_piecewise_linearisation.

Example C13_example :
  exists t w', fn_tape Rops rx_ps [0; 3] world0 = Ok (t, w') /\ regular rx_ps [0; 3] /\
    same_branches_near rx_ps [0; 3] /\ num_abs t = 1%nat.
Proof.
  rtape. eexists _, _. split; [reflexivity|]. split; [apply rx_ps_regular|].
  split; [left; repeat split|reflexivity].
Qed.

(** *** C14 Piecewise affine functions are reproduced exactly, however large the increment. *)
Theorem C14_piecewise_affine_exact :
  forall (f : func R) (x : list R) (w : world R) (t : tape R) (w' : world R),
  fn_tape Rops f x w = Ok (t, w') -> piecewise_affine f x ->
  exists y, tape_y t = Ok y /\
  forall h, length h = length x -> straight_f f \/ agree_f Rops f x (vadd x h) ->
    exists dy, tape_forward Rops t h = Ok dy /\ length dy = length y /\
      forall w2, eval_float Rops f (vadd x h) w2 = Ok (vadd y dy, w2).
Proof. exact piecewise_affine_exact. Qed.
Print Assumptions C14_piecewise_affine_exact.

Example C14_example :
  exists t w', fn_tape Rops rx_pl [1; -2] world0 = Ok (t, w') /\ piecewise_affine rx_pl [1; -2] /\
    straight_f rx_pl /\ num_abs t = 2%nat.
Proof.
  rtape. eexists _, _. split; [reflexivity|]. split; [apply rx_pl_affine|]. split; [repeat split|reflexivity].
Qed.

(** *** C15 The forward sweep is linear without abs.
    [lincomb a b u v] is the vector a u + b v. *)
Theorem C15_forward_linear :
  forall (t : tape R) (a b : R) (dx1 dx2 : list R),
  wf_tape t -> no_abs t -> length dx1 = num_indeps t -> length dx2 = num_indeps t ->
  exists dy1 dy2, tape_forward Rops t dx1 = Ok dy1 /\ tape_forward Rops t dx2 = Ok dy2 /\
    tape_forward Rops t (lincomb a b dx1 dx2) = Ok (lincomb a b dy1 dy2).
Proof. exact forward_linear. Qed.
Print Assumptions C15_forward_linear.

(** With abs it is not even homogeneous: |x| at -1 maps 1 to -1 but 3 to 1 (in binary64). *)
Theorem C15_abs_refuted :
  exists t w', fn_tape d64 ex_abs [lit (-1)] world0 = Ok (t, w') /\
    tape_forward d64 t [lit 1] = Ok [lit (-1)] /\ tape_forward d64 t [lit 3] = Ok [lit 1].
Proof. eexists _, _. split; [vm_compute; reflexivity|]. split; vm_compute; reflexivity. Qed.
Print Assumptions C15_abs_refuted.

Example C15_example :
  exists t w', fn_tape Rops rx_f [2; 3] world0 = Ok (t, w') /\ wf_tape t /\ no_abs t /\
    num_indeps t = 2%nat.
Proof.
  destruct (fn_tape Rops rx_f [2; 3] world0) as [[t w']|p] eqn:E; [|exfalso; revert E; rtape; discriminate].
  destruct (ReplayFacts.fn_tape_wf Rops _ _ _ _ _ E) as ([W _] & _ & N).
  exists t, w'. split; [reflexivity|]. split; [exact W|]. split; [|exact N].
  revert E; rtape; intros [= <- _]. reflexivity.
Qed.

(** *** C16 The reverse sweep is the adjoint of the forward sweep. *)
Theorem C16_reverse_is_adjoint :
  forall (t : tape R) (ybar dx : list R),
  wf_tape t -> no_abs t -> NoDup (t_deps t) ->
  length ybar = num_deps t -> length dx = num_indeps t ->
  exists xbar dy, tape_reverse Rops t ybar = Ok xbar /\ tape_forward Rops t dx = Ok dy /\
    dot ybar dy = dot xbar dx.
Proof. exact adjoint_nodup. Qed.
Print Assumptions C16_reverse_is_adjoint.

(** With repeated dependents only the last seed of each is used: [last_seeds] replaces the seed
    of every dependent that occurs again later by 0. *)
Theorem C16_repeated_dependents :
  forall (t : tape R) (ybar dx : list R),
  wf_tape t -> no_abs t -> length ybar = num_deps t -> length dx = num_indeps t ->
  exists xbar dy, tape_reverse Rops t ybar = Ok xbar /\ tape_forward Rops t dx = Ok dy /\
    dot (last_seeds (t_deps t) ybar) dy = dot xbar dx.
Proof. exact adjoint. Qed.
Print Assumptions C16_repeated_dependents.

(** Hence the identity fails for f(x) = (x, x): seeds (1, 1) give 1 instead of 2. *)
Theorem C16_repeated_dependents_refuted :
  exists t w', fn_tape d64 ex_dup [lit 5] world0 = Ok (t, w') /\
    tape_reverse d64 t [lit 1; lit 1] = Ok [lit 1] /\
    tape_forward d64 t [lit 1] = Ok [lit 1; lit 1].
Proof. eexists _, _. split; [vm_compute; reflexivity|]. split; vm_compute; reflexivity. Qed.
Print Assumptions C16_repeated_dependents_refuted.

Example C16_example :
  exists t w', fn_tape Rops rx_f [2; 3] world0 = Ok (t, w') /\ wf_tape t /\ no_abs t /\
    NoDup (t_deps t) /\ num_deps t = 2%nat.
Proof.
  destruct (fn_tape Rops rx_f [2; 3] world0) as [[t w']|p] eqn:E; [|exfalso; revert E; rtape; discriminate].
  destruct (ReplayFacts.fn_tape_wf Rops _ _ _ _ _ E) as ([W _] & _ & N).
  exists t, w'. split; [reflexivity|]. split; [exact W|].
  revert E; rtape; intros [= <- _]. split; [reflexivity|]. split; [|reflexivity].
  cbn. repeat constructor; cbn; intuition discriminate.
Qed.

(** *** C17 jacobian_forward is the Jacobian; [ent J i j] is the entry in row i, column j.
    [rayon red]: red combines the partial results in any tree. *)
Theorem C17_jacobian_forward_is_jacobian :
  forall red (f : func R) (x : list R) (w : world R) (t : tape R) (w' : world R) (n m : nat),
  rayon red -> fn_n f = Ok n -> fn_m f = Ok m -> length x = n ->
  fn_tape Rops f x w = Ok (t, w') -> num_deps t = m ->
  regular f x -> same_branches_near f x -> no_abs t ->
  exists J, jacobian_forward Rops red f x w = Ok J /\ wf_mat J /\ m_rows J = m /\ m_cols J = n /\
    forall i j, (i < m)%nat -> (j < n)%nat ->
      derivable_pt_lim (fun s => nth i (outputs f (update x j (nth j x 0 + s))) 0) 0
                       (ent Rops J i j).
Proof. exact jacobian_forward_derivative. Qed.
Print Assumptions C17_jacobian_forward_is_jacobian.

(** In every arithmetic its columns are the forward sweeps along the unit vectors. *)
Theorem C17_columns_are_sweeps :
  forall (F : Type) (Fo : Fops F) red (f : func F) (x : list F) (w : world F) (t : tape F)
    (w' : world F) (n m : nat),
  rayon red -> fn_n f = Ok n -> fn_m f = Ok m -> length x = n ->
  fn_tape Fo f x w = Ok (t, w') -> num_deps t = m ->
  (forall j, (j < n)%nat -> const_tangents_zero Fo f x (unitv Fo n j)) ->
  exists J, jacobian_forward Fo red f x w = Ok J /\ wf_mat J /\ m_rows J = m /\ m_cols J = n /\
    forall j, (j < n)%nat -> exists dy, tape_forward Fo t (unitv Fo n j) = Ok dy /\ length dy = m /\
      forall i, (i < m)%nat -> ent Fo J i j = nth i dy (f_zero Fo).
Proof. exact @jacobian_forward_sweeps. Qed.
Print Assumptions C17_columns_are_sweeps.

(** With abs it need not contain derivatives: for |x| at -1/4 the entry is 1/2 (binary64). *)
Theorem C17_abs_refuted :
  jacobian_forward d64 (@concat _) ex_abs [f_neg d64 quarter] world0
    = Ok (mkM 1 1 [[f_add d64 quarter quarter]]).
Proof. vm_compute. reflexivity. Qed.
Print Assumptions C17_abs_refuted.

Example C17_example :
  exists t w', fn_tape Rops rx_f [2; 3] world0 = Ok (t, w') /\ num_deps t = 2%nat /\
    fn_n rx_f = Ok 2%nat /\ fn_m rx_f = Ok 2%nat /\ regular rx_f [2; 3] /\
    same_branches_near rx_f [2; 3] /\ no_abs t /\ NoDup (t_deps t) /\
    @rayon (nat * list R) (@concat _).
Proof.
  rtape. eexists _, _. split; [reflexivity|]. do 3 (split; [reflexivity|]).
  split; [apply rx_f_regular|].
  split; [left; repeat split|]. split; [reflexivity|]. split; [|apply rayon_exists].
  cbn. repeat constructor; cbn; intuition discriminate.
Qed.

(** *** C18 jacobian_reverse is the Jacobian. *)
Theorem C18_jacobian_reverse_equals_forward :
  forall red1 red2 (f : func R) (x : list R) (w : world R) (t : tape R) (w' : world R) (n m : nat),
  rayon red1 -> rayon red2 -> fn_n f = Ok n -> fn_m f = Ok m -> length x = n ->
  fn_tape Rops f x w = Ok (t, w') -> num_deps t = m -> no_abs t -> NoDup (t_deps t) ->
  exists J, jacobian_reverse Rops red1 t = Ok J /\ jacobian_forward Rops red2 f x w = Ok J.
Proof. exact jacobian_reverse_forward. Qed.
Print Assumptions C18_jacobian_reverse_equals_forward.

(** For any tape, however it was made. *)
Theorem C18_jacobian_reverse_any_tape :
  forall red (t : tape R), rayon red -> wf_tape t -> no_abs t -> NoDup (t_deps t) ->
  exists J, jacobian_reverse Rops red t = Ok J /\ wf_mat J /\ m_rows J = num_deps t /\
    m_cols J = num_indeps t /\
    forall j, (j < num_indeps t)%nat ->
      exists dy, tape_forward Rops t (unitv Rops (num_indeps t) j) = Ok dy /\
        length dy = num_deps t /\
        forall i, (i < num_deps t)%nat -> ent Rops J i j = nth i dy 0.
Proof. exact jacobian_reverse_sweeps. Qed.
Print Assumptions C18_jacobian_reverse_any_tape.

(** False when the function returns the same variable twice: for f(x) = (x, x) the first row is
    zero. *)
Theorem C18_repeated_output_refuted :
  exists t w', fn_tape d64 ex_dup [lit 5] world0 = Ok (t, w') /\
    jacobian_reverse d64 (@concat _) t = Ok (mkM 2 1 [[lit 0]; [lit 1]]) /\
    jacobian_forward d64 (@concat _) ex_dup [lit 5] world0 = Ok (mkM 2 1 [[lit 1]; [lit 1]]).
Proof. eexists _, _. split; [vm_compute; reflexivity|]. split; vm_compute; reflexivity. Qed.
Print Assumptions C18_repeated_output_refuted.
