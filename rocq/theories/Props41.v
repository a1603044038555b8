(** Property theorems C92: Hessian-vector products by recording nested AFloats. *)
From Coq Require Import Reals Lra List Arith ZArith Bool Lia.
From Verif Require Import Base Float Operation Tape AContext Methods Function Spec Param
  Instances RealInst DerivSpec DerivFacts2 LinearFacts JacobianFacts ExamplesR Nested NestedSpec SweepFacts Hess NestedMain HessComp HessMain HessEx.
Import ListNotations.

(** *** C92 Recording nested variables gives Hessian-vector products.
    [o_eval]: f on variables of type AFloat<V>, pairs (value, derivative) without context, each of which is
    a variable of an inner type V with operations [fop].  [tangent Fo n m f] is the function
    (x, u) |-> (values, derivatives) on V as straight-line code.
    The two perform the same inner operations in the same order: whatever the inner type and its state, same
    results, same effects, and one panics iff the other does. *)
Theorem C92_recording :
  forall (F V St : Type) (Fo : Fops F) (fop : OpCode -> V -> option V -> M St V) (cst : F -> V) (val : V -> F)
         (f : func F) (n m : nat) (x u : list V) (s : St),
  length x = n -> length u = n ->
  match o_eval Fo fop cst val f (combine x u) s with
  | Ok (Y, s') => feval Fo fop cst val (tangent Fo n m f) (x ++ u) s = Ok (map fst Y ++ map snd Y, s')
  | Panic _ => panics (feval Fo fop cst val (tangent Fo n m f) (x ++ u) s)
  end.
Proof. exact @tangent_runs. Qed.
Print Assumptions C92_recording.

(** In particular with ADoubles as inner type: the recording of AFloat<ADouble> is the recording of
    [tangent], so everything proved about tapes of functions applies to it. *)
Theorem C92_recording_adoubles :
  forall (F : Type) (Fo : Fops F) (f : func F) (n m : nat) (x u : list (AF F)) (w : world F),
  length x = n -> length u = n ->
  match o_eval Fo (from_op Fo Some) (af_const Fo) af_v f (combine x u) w with
  | Ok (Y, w') => feval Fo (from_op Fo Some) (af_const Fo) af_v (tangent Fo n m f) (x ++ u) w
                  = Ok (map fst Y ++ map snd Y, w')
  | Panic _ => panics (feval Fo (from_op Fo Some) (af_const Fo) af_v (tangent Fo n m f) (x ++ u) w)
  end.
Proof. intros F Fo. exact (tangent_runs Fo (from_op Fo Some) (af_const Fo) af_v). Qed.
Print Assumptions C92_recording_adoubles.

(** Without tape it is the nested evaluation of C56, in every arithmetic. *)
Theorem C92_tapeless_is_nested :
  forall (F : Type) (Fo : Fops F) (f : func F) (n m : nat) (x v u w : list F),
  length x = n -> length v = n -> length u = n -> length w = n ->
  match nested_eval Fo f (nested_in x v u w) with
  | Ok Y => d_eval Fo (tangent Fo n m f) (combine (x ++ u) (v ++ w)) = Ok (map fst Y ++ map snd Y)
  | Panic _ => panics (d_eval Fo (tangent Fo n m f) (combine (x ++ u) (v ++ w)))
  end.
Proof. exact @nested_tangent. Qed.
Print Assumptions C92_tapeless_is_nested.

Open Scope R_scope.

(** Sweeps on the recorded tape: the forward sweep returns the nested derivatives, the reverse sweep their
    transpose. *)
Theorem C92_sweeps :
  forall (f : func R) (n m : nat) (x u : list R) (w0 : world R) (t : tape R) (w' : world R),
  length x = n -> length u = n ->
  fn_tape Rops (tangent Rops n m f) (x ++ u) w0 = Ok (t, w') -> no_abs t -> NoDup (t_deps t) ->
  forall v w, length v = n -> length w = n ->
  exists ys, nested_eval Rops f (nested_in x v u w) = Ok ys /\
    tape_forward Rops t (v ++ w) = Ok (map (fun y => snd (fst y)) ys ++ map (fun y => snd (snd y)) ys) /\
    forall ybar zbar, length ybar = length ys -> length zbar = length ys ->
    exists xbar ubar, tape_reverse Rops t (ybar ++ zbar) = Ok (xbar ++ ubar) /\ length xbar = n /\ length ubar = n /\
      dot xbar v + dot ubar w
      = dot ybar (map (fun y => snd (fst y)) ys) + dot zbar (map (fun y => snd (snd y)) ys).
Proof. exact reverse_of_nested. Qed.
Print Assumptions C92_sweeps.

(** One reverse sweep, weight 1 on the derivative of output k, returns H u where H is the Hessian of output
    k at x: [dot xbar v] is the second derivative along u and v, for every v at once. *)
Theorem C92_hessian_vector :
  forall (f : func R) (n m : nat) (x u : list R) (w0 : world R) (t : tape R) (w' : world R) (k mm : nat) (xbar ubar : list R),
  length x = n -> length u = n ->
  fn_tape Rops (tangent Rops n m f) (x ++ u) w0 = Ok (t, w') -> no_abs t -> NoDup (t_deps t) ->
  length (outputs f x) = mm -> (k < mm)%nat ->
  length xbar = n -> tape_reverse Rops t (repeat 0 mm ++ unitv Rops mm k) = Ok (xbar ++ ubar) ->
  same_branches_near f x ->
  forall v, length v = n -> regular2 f (nested_in x v u (repeat 0 n)) ->
  exists g' : R -> R,
    (exists d, 0 < d /\ forall r, Rabs r < d ->
       derivable_pt_lim (fun s => nth k (outputs f (vadd (vadd x (vscal r v)) (vscal s u))) 0) 0 (g' r)) /\
    derivable_pt_lim g' 0 (dot xbar v).
Proof. exact hessian_vector. Qed.
Print Assumptions C92_hessian_vector.

(** The same with u moving too: g' r is the derivative of output k at x + r v along u + r w; with v = 0 the
    other half of the result, ubar, is the gradient. *)
Theorem C92_gradient_too :
  forall (f : func R) (n m : nat) (x u : list R) (w0 : world R) (t : tape R) (w' : world R) (k mm : nat) (xbar ubar : list R),
  length x = n -> length u = n ->
  fn_tape Rops (tangent Rops n m f) (x ++ u) w0 = Ok (t, w') -> no_abs t -> NoDup (t_deps t) ->
  length (outputs f x) = mm -> (k < mm)%nat ->
  length xbar = n -> tape_reverse Rops t (repeat 0 mm ++ unitv Rops mm k) = Ok (xbar ++ ubar) ->
  same_branches_near f x ->
  forall v w, length v = n -> length w = n -> regular2 f (nested_in x v u w) ->
  exists g' : R -> R,
    (exists d, 0 < d /\ forall r, Rabs r < d ->
       derivable_pt_lim (fun s => nth k (outputs f (plane x v u w r s)) 0) 0 (g' r)) /\
    derivable_pt_lim g' 0 (dot xbar v + dot ubar w).
Proof. exact reverse_second_derivative. Qed.
Print Assumptions C92_gradient_too.

(** x0 * x0 * x1 at any point: one tape, all hypotheses hold, and the sweep returns H u and the gradient. *)
Definition hx_f : func R := Simple 2 1 (Let2 BMul 0 0 (Let2 BMul 2 1 (Ret [3]%nat))).
Example C92_example :
  forall a b c d : R,
  exists t w', fn_tape Rops (tangent Rops 2 1 hx_f) ([a; b] ++ [c; d]) world0 = Ok (t, w') /\
  no_abs t /\ NoDup (t_deps t) /\ length (outputs hx_f [a; b]) = 1%nat /\ same_branches_near hx_f [a; b] /\
  (forall v w, length v = 2%nat -> length w = 2%nat -> regular2 hx_f (nested_in [a; b] v [c; d] w)) /\
  tape_reverse Rops t (repeat 0 1 ++ unitv Rops 1 0)
  = Ok ([2 * b * c + 2 * a * d; 2 * a * c] ++ [2 * a * b; a * a]).
Proof.
  intros a b c d. rtape. do 2 eexists. split; [reflexivity|].
  split; [reflexivity|]. split; [repeat constructor; cbn; intuition discriminate|]. split; [reflexivity|].
  split; [left; cbn; auto|]. split.
  - intros [|v0 [|v1 [|v2 v]]] [|w0 [|w1 [|w2 w]]] L1 L2 ys P H; try discriminate; cbn in H;
      injection H as _ <-; auto 10.
  - match goal with |- tape_reverse ?o ?t ?y = _ =>
      let v := eval lazy -[IZR Rplus Rmult] in (tape_reverse o t y) in
      assert (tape_reverse o t y = v) as -> by reflexivity end.
    cbn [app]. apply f_equal. repeat (apply f_equal2; [ring|]). reflexivity.
Qed.

(** Without the proviso about powers the result can be wrong: for sqrt(x*x+1) at 0 the second derivative is
    1, the recorded tape gives 0 (the test [dx != 0] of the power rule looks at the value of the inner variable
    only, and a constant is recorded instead of its derivative). *)
Theorem C92_stationary_base_refuted :
  exists (f : func R) (t : tape R) (w' : world R),
  fn_tape Rops (tangent Rops 1 1 f) ([0] ++ [1]) world0 = Ok (t, w') /\ no_abs t /\ NoDup (t_deps t) /\
  straight_f f /\ regular f [0] /\ tape_reverse Rops t ([0] ++ [1]) = Ok ([0] ++ [0]) /\
  exists g' : R -> R, (forall s, derivable_pt_lim (fun r => nth 0 (outputs f [r]) 0) s (g' s)) /\ derivable_pt_lim g' 0 1.
Proof. exact hx_sqrt_refuted. Qed.
Print Assumptions C92_stationary_base_refuted.
