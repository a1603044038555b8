(** Property theorems, part 16: tapes as functions of their own.  [replay_y t x] are the outputs of
    [t] when it is replayed at [x]; [in_domains]: every operation is inside its open domain at the
    values the tape holds (TapeDeriv.v).  The tape may come from anywhere (a recording, a file, C++):
    nothing but well-formedness is assumed. *)
From Coq Require Import Reals Lra List Arith ZArith Bool Lia Sorted SpecFloat.
From Verif Require Import Base Float FloatInst Operation Tape Spec RealInst DerivSpec LinearFacts Matrix MatrixFacts
  Jacobian JacobianFacts TapeDeriv BallSpec BallFacts BallMain BallJac F64Facts.
Import ListNotations.
Local Open Scope R_scope.

(** *** C63 The sweeps of any well-formed tape differentiate the function the tape computes. *)
Theorem C63_linearisation :
  forall (t t0 : tape R) (x : list R),
  wf_tape t -> length x = num_indeps t -> tape_zero_order Rops t x = Ok t0 -> in_domains t0 ->
  forall e, 0 < e -> exists d, 0 < d /\ forall h, length h = length x -> nrm1 h < d ->
    exists dy, tape_forward Rops t0 h = Ok dy /\ length dy = num_deps t /\
      length (replay_y t x) = num_deps t /\ length (replay_y t (vadd x h)) = num_deps t /\
      forall k, (k < num_deps t)%nat ->
        Rabs (nth k (replay_y t (vadd x h)) 0 - nth k (replay_y t x) 0 - nth k dy 0) <= e * nrm1 h.
Proof. exact tape_linearisation. Qed.
Print Assumptions C63_linearisation.

Theorem C63_forward :
  forall (t t0 : tape R) (x : list R),
  wf_tape t -> no_abs t -> length x = num_indeps t -> tape_zero_order Rops t x = Ok t0 -> in_domains t0 ->
  forall dx, length dx = length x ->
  exists dy, tape_forward Rops t0 dx = Ok dy /\ length dy = num_deps t /\
    forall k, (k < num_deps t)%nat ->
      derivable_pt_lim (fun s => nth k (replay_y t (vadd x (vscal s dx))) 0) 0 (nth k dy 0).
Proof. exact tape_derivative. Qed.
Print Assumptions C63_forward.

Theorem C63_reverse :
  forall (t t0 : tape R) (x ybar : list R),
  wf_tape t -> no_abs t -> NoDup (t_deps t) -> length x = num_indeps t -> length ybar = num_deps t ->
  tape_zero_order Rops t x = Ok t0 -> in_domains t0 ->
  exists xbar, tape_reverse Rops t0 ybar = Ok xbar /\
    forall dx, length dx = length x ->
      derivable_pt_lim (fun s => dot ybar (replay_y t (vadd x (vscal s dx)))) 0 (dot xbar dx).
Proof. exact tape_gradient. Qed.
Print Assumptions C63_reverse.

Theorem C63_jacobian :
  forall red (t t0 : tape R) (x : list R),
  rayon red -> wf_tape t -> no_abs t -> NoDup (t_deps t) -> length x = num_indeps t ->
  tape_zero_order Rops t x = Ok t0 -> in_domains t0 ->
  exists J, jacobian_reverse Rops red t0 = Ok J /\ m_rows J = num_deps t /\ m_cols J = num_indeps t /\
    forall i j, (i < num_deps t)%nat -> (j < num_indeps t)%nat ->
      derivable_pt_lim (fun s => nth i (replay_y t (update x j (nth j x 0 + s))) 0) 0 (ent Rops J i j).
Proof. exact tape_jacobian. Qed.
Print Assumptions C63_jacobian.

(** ln(x0 / x1), written by hand, with a gap in the ids and values of no replay. *)
Definition hand_tape : tape R :=
  mkTape [1; 0]%nat [4]%nat [op_nop; op_div 3 0 1; op_ln 4 3]%nat [7; 7; 7; 7; 7].
Example C63_example :
  wf_tape hand_tape /\ no_abs hand_tape /\ NoDup (t_deps hand_tape) /\
  exists t0, tape_zero_order Rops hand_tape [2; 6] = Ok t0 /\ in_domains t0.
Proof.
  split; [|split; [reflexivity|split; [repeat constructor; intros []|]]].
  - constructor; cbn.
    + intros o [<-|[<-|[<-|[]]]]; unfold wf_op; cbn; auto; (split; [lia|]); (split; [eexists; split; [reflexivity|lia]|]);
        [eexists; split; [reflexivity|lia]|reflexivity].
    + repeat constructor.
    + intuition lia.
    + repeat constructor; cbn; intuition lia.
    + intros i [<-|[<-|[]]] [H|[H|[]]]; discriminate.
    + intuition lia.
  - eexists. split; [reflexivity|]. intros o i a. cbn.
    intros [<-|[<-|[<-|[]]]]; cbn; try discriminate; intros [= <-]; cbn; intros [= <-].
    + intros y [= <-]. lra.
    + lra.
Qed.

(** *** C64 Rounding errors.  [replays T t x t64 tb tr]: the tape replayed at the doubles [x] in
    binary64 ([t64]), exactly ([tr]) and in running error bounds ([tb]: the arithmetic [Bops] of
    BallSpec.v on pairs of exact number and radius).  [bounded y b z]: wherever the running bound says
    (c, r), the exact result is c and the binary64 result a finite double within r of it. *)
Theorem C64_replay :
  forall T, libm_accurate T -> forall (t : tape spec_float) (x : list spec_float),
  wf_tape t -> length x = num_indeps t ->
  exists t64 tb tr y b z, replays T t x t64 tb tr /\
    tape_y t64 = Ok y /\ tape_y tb = Ok b /\ tape_y tr = Ok z /\ bounded y b z.
Proof. exact replay_error. Qed.
Print Assumptions C64_replay.

Theorem C64_forward :
  forall T, libm_accurate T -> forall (t : tape spec_float) (x : list spec_float),
  wf_tape t -> length x = num_indeps t ->
  forall t64 tb tr dx, replays T t x t64 tb tr -> length dx = num_indeps t ->
  exists dy b dz, tape_forward (f64ops T) t64 dx = Ok dy /\ tape_forward Bops tb (map point dx) = Ok b /\
    tape_forward Rops tr (map real_of dx) = Ok dz /\ bounded dy b dz.
Proof. exact forward_error. Qed.
Print Assumptions C64_forward.

Theorem C64_reverse :
  forall T, libm_accurate T -> forall (t : tape spec_float) (x : list spec_float),
  wf_tape t -> length x = num_indeps t ->
  forall t64 tb tr ybar, replays T t x t64 tb tr -> num_abs t = 0%nat -> length ybar = num_deps t ->
  exists xbar b xr, tape_reverse (f64ops T) t64 ybar = Ok xbar /\ tape_reverse Bops tb (map point ybar) = Ok b /\
    tape_reverse Rops tr (map real_of ybar) = Ok xr /\ bounded xbar b xr.
Proof. exact reverse_error. Qed.
Print Assumptions C64_reverse.

(** So the gradients computed in binary64 are within the radius of the gradient of the function the
    tape computes. *)
Theorem C64_gradient :
  forall T, libm_accurate T -> forall (t : tape spec_float) (x : list spec_float),
  wf_tape t -> length x = num_indeps t ->
  forall t64 tb tr ybar, replays T t x t64 tb tr -> num_abs t = 0%nat -> NoDup (t_deps t) ->
  length ybar = num_deps t -> in_domains tr ->
  exists xbar b xr, tape_reverse (f64ops T) t64 ybar = Ok xbar /\ tape_reverse Bops tb (map point ybar) = Ok b /\
    bounded xbar b xr /\
    forall dx, length dx = length x ->
      derivable_pt_lim (fun s => dot (map real_of ybar)
        (replay_y (map_tape real_of t) (vadd (map real_of x) (vscal s dx)))) 0 (dot xr dx).
Proof. exact gradient_error. Qed.
Print Assumptions C64_gradient.

(** And so are the entries of [jacobian_reverse] and those of the Jacobian. *)
Theorem C64_jacobian :
  forall T, libm_accurate T -> forall (t : tape spec_float) (x : list spec_float),
  wf_tape t -> length x = num_indeps t ->
  forall t64 tb tr red redb, rayon red -> rayon redb ->
  replays T t x t64 tb tr -> num_abs t = 0%nat -> NoDup (t_deps t) -> in_domains tr ->
  exists J Jb, jacobian_reverse (f64ops T) red t64 = Ok J /\ jacobian_reverse Bops redb tb = Ok Jb /\
    m_rows J = num_deps t /\ m_cols J = num_indeps t /\
    forall i j c r, (i < num_deps t)%nat -> (j < num_indeps t)%nat -> ent Bops Jb i j = Some (c, r) ->
      derivable_pt_lim (fun s => nth i (replay_y (map_tape real_of t)
        (update (map real_of x) j (nth j (map real_of x) 0 + s))) 0) 0 c /\
      exists v, f64 (ent (f64ops T) J i j) v /\ Rabs (v - c) <= r.
Proof. exact jacobian_error. Qed.
Print Assumptions C64_jacobian.

(** sin(x0) * x1 at (1, 3) is computed to within 2^-46. *)
Example C64_example : libm_accurate libm_real /\ wf_tape sx_tape /\
  exists tb r, tape_zero_order Bops (map_tape point sx_tape) (map point [lit 1; lit 3]) = Ok tb /\
    tape_y tb = Ok [Some (3 * sin 1, r)] /\ 0 < r <= / 2 ^ 46.
Proof. exact (conj libm_real_accurate (conj sx_wf sx_ball)). Qed.
