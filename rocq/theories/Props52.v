(** Property theorems C102: functions that compare computed values with each other. *)
From Coq Require Import Reals Lra List Arith ZArith Bool SpecFloat.
From Verif Require Import Base Float Operation Tape AContext Methods Function Spec Instances FunctionFacts ApiFacts3 FloatInst Examples RealInst DerivSpec LinearFacts ReplayFacts Replay2 DerivFacts2 Matrix MatrixFacts Jacobian JacobianFacts AbsNormal AnfSpec AnfFacts AnfFacts2 SamePath ExamplesR.
Import ListNotations.
Open Scope R_scope.

(** *** C102 Replaying a recording made at x gives, at x', the recording made at x' exactly when the two have
    the same independents, dependents, operations and constants ([same_tape]).  The functions recorded may
    even be different ones. *)
Theorem C102_replaying_is_recording_iff :
  forall (F : Type) (Fo : Fops F) (f : func F) (x : list F) (w : world F) (t : tape F) (w' : world F)
    (g : func F) (x' : list F) (w2 : world F) (t2 : tape F) (w2' : world F),
  fn_tape Fo f x w = Ok (t, w') -> fn_tape Fo g x' w2 = Ok (t2, w2') ->
  (tape_zero_order Fo t x' = Ok t2 <-> same_tape t t2).
Proof. exact @replay_iff. Qed.
Print Assumptions C102_replaying_is_recording_iff.

(** [recorded_alike Fo f x x']: f is recorded at x and at x', and the tapes are the same up to values.  Replays
    of any recording at x then give f(x').  The hypothesis of C01 ([agree_f]) demands in addition that the
    function continues in the same way after each single inspection of a value. *)
Theorem C102_replay :
  forall (F : Type) (Fo : Fops F) (f : func F) (x : list F) (w : world F) (t : tape F) (w' : world F) (x' : list F),
  fn_tape Fo f x w = Ok (t, w') -> recorded_alike Fo f x x' ->
  exists t' y', tape_zero_order Fo t x' = Ok t' /\ tape_y t' = Ok y' /\ forall w2, eval_float Fo f x' w2 = Ok (y', w2).
Proof. exact @alike_replay. Qed.
Print Assumptions C102_replay.

(** Forward sweeps are directional derivatives where f is recorded alike at all points near x ([alike_near]). *)
Theorem C102_forward_is_derivative :
  forall (f : func R) (x : list R) (w : world R) (t : tape R) (w' : world R),
  fn_tape Rops f x w = Ok (t, w') -> regular f x -> alike_near f x -> no_abs t ->
  forall dx, length dx = length x ->
  exists dy, tape_forward Rops t dx = Ok dy /\ length dy = length (outputs f x) /\
    forall k, (k < length dy)%nat -> derivable_pt_lim (fun s => nth k (outputs f (vadd x (vscal s dx))) 0) 0 (nth k dy 0).
Proof. exact alike_derivative. Qed.
Print Assumptions C102_forward_is_derivative.

(** So are the dvalue()s of a tapeless evaluation. *)
Theorem C102_tapeless_is_derivative :
  forall (f : func R) (x : list R) (w : world R) (t : tape R) (w' : world R),
  fn_tape Rops f x w = Ok (t, w') -> regular f x -> alike_near f x -> no_abs t ->
  forall dx, length dx = length x ->
  exists outs, (forall w2, eval Rops f (pairs x dx) w2 = Ok (outs, w2)) /\ map af_v outs = outputs f x /\
    forall k, (k < length outs)%nat -> derivable_pt_lim (fun s => nth k (outputs f (vadd x (vscal s dx))) 0) 0 (nth k (map af_dv outs) 0).
Proof. exact alike_tapeless. Qed.
Print Assumptions C102_tapeless_is_derivative.

(** With abs, max and min they are the piecewise linearisation. *)
Theorem C102_piecewise_linearisation :
  forall (f : func R) (x : list R) (w : world R) (t : tape R) (w' : world R),
  fn_tape Rops f x w = Ok (t, w') -> regular f x -> alike_near f x ->
  exists y, tape_y t = Ok y /\
  forall e, 0 < e -> exists d, 0 < d /\ forall h, length h = length x -> nrm1 h < d ->
    exists y' dy, (forall w2, eval_float Rops f (vadd x h) w2 = Ok (y', w2)) /\
      tape_forward Rops t h = Ok dy /\ length y' = length y /\ length dy = length y /\
      forall k, (k < length y)%nat -> Rabs (nth k y' 0 - nth k y 0 - nth k dy 0) <= e * nrm1 h.
Proof. exact alike_piecewise. Qed.
Print Assumptions C102_piecewise_linearisation.

(** Both drivers return the Jacobian. *)
Theorem C102_jacobians :
  forall red1 red2 (f : func R) (x : list R) (w : world R) (t : tape R) (w' : world R) (n m : nat),
  rayon red1 -> rayon red2 -> fn_n f = Ok n -> fn_m f = Ok m -> length x = n ->
  fn_tape Rops f x w = Ok (t, w') -> num_deps t = m ->
  regular f x -> alike_near f x -> no_abs t ->
  exists J, jacobian_forward Rops red1 f x w = Ok J /\
    (NoDup (t_deps t) -> jacobian_reverse Rops red2 t = Ok J) /\
    m_rows J = m /\ m_cols J = n /\
    forall i j, (i < m)%nat -> (j < n)%nat ->
      derivable_pt_lim (fun s => nth i (outputs f (update x j (nth j x 0 + s))) 0) 0 (ent Rops J i j).
Proof. exact alike_jacobians. Qed.
Print Assumptions C102_jacobians.

(** Piecewise affine functions are reproduced exactly wherever they are recorded alike. *)
Theorem C102_piecewise_affine_exact :
  forall (f : func R) (x : list R) (w : world R) (t : tape R) (w' : world R),
  fn_tape Rops f x w = Ok (t, w') -> piecewise_affine f x ->
  exists y, tape_y t = Ok y /\
  forall h, length h = length x -> recorded_alike Rops f x (vadd x h) ->
    exists dy, tape_forward Rops t h = Ok dy /\ length dy = length y /\
      forall w2, eval_float Rops f (vadd x h) w2 = Ok (vadd y dy, w2).
Proof. exact alike_affine_exact. Qed.
Print Assumptions C102_piecewise_affine_exact.

(** The abs-normal form approximates f to first order. *)
Theorem C102_abs_normal :
  forall red (f : func R) (x : list R) (w : world R) (t : tape R) (w' : world R),
  rayon red -> fn_tape Rops f x w = Ok (t, w') -> NoDup (t_deps t) -> abs_once t ->
  regular f x -> alike_near f x ->
  exists N y, abs_normal Rops red f x w = Ok N /\ tape_y t = Ok y /\
  forall e, 0 < e -> exists d, 0 < d /\ forall h, length h = length x -> nrm1 h < d ->
    exists y' zh, (forall w2, eval_float Rops f (vadd x h) w2 = Ok (y', w2)) /\
      switching N h zh /\ (forall zh', switching N h zh' -> zh' = zh) /\
      forall k, (k < length y)%nat -> Rabs (nth k y' 0 - nth k y 0 - nth k (increment N h zh) 0) <= e * nrm1 h.
Proof. exact alike_abs_normal. Qed.
Print Assumptions C102_abs_normal.

(** The hypothesis is weaker than the one of C12, C13, C17 and C25. *)
Theorem C102_covers_same_branches :
  forall (f : func R) (x : list R) (w : world R) (t : tape R) (w' : world R),
  fn_tape Rops f x w = Ok (t, w') -> same_branches_near f x -> alike_near f x.
Proof. exact branches_alike. Qed.
Print Assumptions C102_covers_same_branches.

(** [if x[0] < x[1] { [x[1] * x[1] - x[0]] } else { [x[0] * x[0] - x[1]] }] *)
Definition ex_compare {F} (Fo : Fops F) : func F :=
  Simple 2 1 (Inspect 0 (fun a => Inspect 1 (fun b =>
    if f_ltb Fo a b then Let2 BMul 1 1 (Let2 BSub 2 0 (Ret [3%nat])) else Let2 BMul 0 0 (Let2 BSub 2 1 (Ret [3%nat]))))).

Example C102_example_replay :
  exists t w' t2 w2, fn_tape d64 (ex_compare d64) [lit 2; lit 5] world0 = Ok (t, w') /\
    fn_tape d64 (ex_compare d64) [lit (-1); lit 3] world0 = Ok (t2, w2) /\ same_tape t t2 /\
    recorded_alike d64 (ex_compare d64) [lit 2; lit 5] [lit (-1); lit 3] /\
    (t' <- tape_zero_order d64 t [lit (-1); lit 3] ;; tape_y t') = Ok [lit 10].
Proof.
  eexists _, _, _, _. split; [vm_compute; reflexivity|]. split; [vm_compute; reflexivity|]. split; [|split; [|vm_compute; reflexivity]].
  - repeat split. cbn. intros o [<-|[<-|[]]]; discriminate.
  - exists world0. eexists _, _. exists world0. eexists _, _. split; [vm_compute; reflexivity|]. split; [vm_compute; reflexivity|].
    repeat split. cbn. intros o [<-|[<-|[]]]; discriminate.
Qed.
(** A constant that depends on the branch: same operations, other tape. *)
Definition ex_factor {F} (Fo : Fops F) (a b : F) : func F :=
  Simple 1 1 (Inspect 0 (fun v => LetC (if f_ltb Fo v (f_zero Fo) then a else b) (Let2 BMul 0 1 (Ret [2%nat])))).
Example C102_example_constants :
  exists t w' t2 w2, fn_tape d64 (ex_factor d64 (lit 2) (lit 3)) [lit (-1)] world0 = Ok (t, w') /\
    fn_tape d64 (ex_factor d64 (lit 2) (lit 3)) [lit 1] world0 = Ok (t2, w2) /\ t_ops t = t_ops t2 /\
    ~ same_tape t t2 /\ tape_zero_order d64 t [lit 1] <> Ok t2.
Proof.
  eexists _, _, _, _. split; [vm_compute; reflexivity|]. split; [vm_compute; reflexivity|]. split; [reflexivity|]. split.
  - intros (_ & _ & _ & H). specialize (H _ (or_introl eq_refl) eq_refl). discriminate.
  - vm_compute. discriminate.
Qed.

Example C102_example :
  regular (ex_compare Rops) [1; 3] /\ alike_near (ex_compare Rops) [1; 3] /\ ~ same_branches_near (ex_compare Rops) [1; 3] /\
  exists t w', fn_tape Rops (ex_compare Rops) [1; 3] world0 = Ok (t, w') /\ no_abs t /\ num_deps t = 1%nat /\ NoDup (t_deps t) /\ abs_once t.
Proof.
  assert (forall a b : R, a < b -> Rltb a b = true) as LT by (intros; now apply Rltb_true).
  assert (resolve_f Rops (ex_compare Rops) [1; 3] = @Simple R 2 1 (Let2 BMul 1 1 (Let2 BSub 2 0 (Ret [3%nat])))) as RS.
  { cbn -[Rltb]. rewrite LT by lra. reflexivity. }
  assert (exists t w', fn_tape Rops (ex_compare Rops) [1; 3] world0 = Ok (t, w') /\ no_abs t /\ num_deps t = 1%nat /\ NoDup (t_deps t) /\ abs_once t) as TT.
  { rewrite fn_tape_resolve, RS. rtape. eexists _, _. split; [reflexivity|]. repeat split.
    - repeat constructor. cbn. tauto.
    - cbn. constructor. }
  split; [|split; [|split; [|exact TT]]].
  - intros ys P. cbn -[Rltb]. unfold mbind, mret. cbn -[Rltb]. rewrite LT by lra. cbn. intros [= <- <-]. repeat split.
  - destruct TT as (t & w' & T & _). exists 1. split; [lra|]. intros [|h1 [|h2 [|? ?]]] L N; try discriminate. cbn in N.
    pose proof (Rabs_pos h1). pose proof (Rabs_pos h2).
    pose proof (Rabs_def2 h1 1 ltac:(lra)). pose proof (Rabs_def2 h2 1 ltac:(lra)).
    eapply path_alike; [exact T|reflexivity|]. right. unfold same_path. rewrite RS. cbn -[Rltb]. rewrite !LT by lra. reflexivity.
  - intros [S|(d & Hd & A)]; [cbn in S; tauto|]. specialize (A [Rmin (d / 2) 1; 0] eq_refl).
    assert (0 < Rmin (d / 2) 1 <= d / 2) as Hm by (split; [apply Rmin_glb_lt; lra|apply Rmin_l]).
    assert (agree_f Rops (ex_compare Rops) [1; 3] (vadd [1; 3] [Rmin (d / 2) 1; 0])) as B.
    { apply A. cbn. rewrite Rabs_R0, Rabs_pos_eq; lra. }
    clear A. cbn in B. destruct (B _ _ eq_refl eq_refl) as (E & _). injection E as E.
    apply (f_equal (fun k => k (1 + Rmin (d / 2) 1))) in E. rewrite LT in E by lra.
    assert (Rltb (1 + Rmin (d / 2) 1) (1 + Rmin (d / 2) 1) = false) as F0 by (apply Rltb_false; lra).
    rewrite F0 in E. discriminate.
Qed.
