(** Property theorems C102, second derivatives. *)
From Coq Require Import Reals Lra List Arith ZArith Bool.
From Verif Require Import Base Float Operation Tape AContext Methods Function Spec Instances FunctionFacts ReplayFacts RealInst DerivSpec DerivFacts2 LinearFacts
  JacobianFacts Nested NestedSpec NestedResolve NestedAffine Hess Taylor2 Matrix AbsNormal AnfSpec AnfFacts2 SamePath SameQuad ExamplesR.
Import ListNotations.
Open Scope R_scope.

(** *** C102 AFloats of AFloats compute first and second derivatives of functions that are recorded alike near the
    point (C56 for these functions; [plane x u v w t s] is the point x + t u + s (v + t w), [regular2] as there). *)
Theorem C102_second_derivatives :
  forall (f : func R) (x u v w : list R) (ys : list N2),
  length u = length x -> length v = length x -> length w = length x ->
  alike_near f x -> regular2 f (nested_in x u v w) ->
  nested_eval Rops f (nested_in x u v w) = Ok ys ->
  length ys = length (outputs f x) /\
  forall k y, nth_error ys k = Some y ->
  let g t s := nth k (outputs f (plane x u v w t s)) 0 in
  fst (fst y) = nth k (outputs f x) 0 /\
  derivable_pt_lim (fun t => g t 0) 0 (snd (fst y)) /\
  exists g' : R -> R,
    (exists d, 0 < d /\ forall t, Rabs t < d -> derivable_pt_lim (g t) 0 (g' t)) /\
    fst (snd y) = g' 0 /\
    derivable_pt_lim g' 0 (snd (snd y)).
Proof. exact alike_second_derivative. Qed.
Print Assumptions C102_second_derivatives.

(** They are the coefficients of the quadratic Taylor polynomial along h (C95). *)
Theorem C102_quadratic_model :
  forall (f : func R) (x h : list R) (ys : list N2),
  length h = length x -> alike_near f x ->
  regular2 f (nested_in x h h (repeat 0 (length x))) ->
  nested_eval Rops f (nested_in x h h (repeat 0 (length x))) = Ok ys ->
  forall k y, nth_error ys k = Some y ->
  forall e, 0 < e -> exists d, 0 < d /\ forall s, Rabs s < d ->
    Rabs (nth k (outputs f (vadd x (vscal s h))) 0
          - (fst (fst y) + s * snd (fst y) + s * s / 2 * snd (snd y))) <= e * (s * s).
Proof. exact alike_taylor. Qed.
Print Assumptions C102_quadratic_model.

(** Derivative 0 and positive second derivative mean a strict minimum along h. *)
Theorem C102_minimum_along_a_line :
  forall (f : func R) (x h : list R) (ys : list N2) (k : nat) (y : N2),
  length h = length x -> alike_near f x ->
  regular2 f (nested_in x h h (repeat 0 (length x))) ->
  nested_eval Rops f (nested_in x h h (repeat 0 (length x))) = Ok ys ->
  nth_error ys k = Some y -> snd (fst y) = 0 -> 0 < snd (snd y) ->
  exists d, 0 < d /\ forall s, Rabs s < d -> s <> 0 ->
    nth k (outputs f x) 0 < nth k (outputs f (vadd x (vscal s h))) 0.
Proof. exact alike_minimum. Qed.
Print Assumptions C102_minimum_along_a_line.

(** One reverse sweep over the recorded nested evaluation returns the product of the Hessian with u (C92). *)
Theorem C102_hessian_vector :
  forall (f : func R) (n m : nat) (x u : list R) (w0 : world R) (t : tape R) (w' : world R) (k mm : nat) (xbar ubar : list R),
  length x = n -> length u = n ->
  fn_tape Rops (tangent Rops n m f) (x ++ u) w0 = Ok (t, w') -> no_abs t -> NoDup (t_deps t) ->
  length (outputs f x) = mm -> (k < mm)%nat ->
  length xbar = n -> tape_reverse Rops t (repeat 0 mm ++ unitv Rops mm k) = Ok (xbar ++ ubar) ->
  alike_near f x ->
  forall v, length v = n -> regular2 f (nested_in x v u (repeat 0 n)) ->
  exists g' : R -> R,
    (exists d, 0 < d /\ forall r, Rabs r < d ->
       derivable_pt_lim (fun s => nth k (outputs f (vadd (vadd x (vscal r v)) (vscal s u))) 0) 0 (g' r)) /\
    derivable_pt_lim g' 0 (dot xbar v).
Proof. exact alike_hessian_vector. Qed.
Print Assumptions C102_hessian_vector.

(** Exact second differences of piecewise affine functions that are recorded alike at the four points (C82). *)
Theorem C102_second_differences :
  forall (f : func R) (x u v w y : list R) (wd : world R),
  length u = length x -> length v = length x -> length w = length x ->
  piecewise_affine f x ->
  recorded_alike Rops f x (vadd x u) -> recorded_alike Rops f x (vadd x v) ->
  recorded_alike Rops f x (vadd (vadd (vadd x u) v) w) ->
  eval_float Rops f x wd = Ok (y, wd) ->
  exists ys y10 y01 y11,
    nested_eval Rops f (nested_in x u v w) = Ok ys /\
    eval_float Rops f (vadd x u) wd = Ok (y10, wd) /\
    eval_float Rops f (vadd x v) wd = Ok (y01, wd) /\
    eval_float Rops f (vadd (vadd (vadd x u) v) w) wd = Ok (y11, wd) /\
    length ys = length y /\ length y10 = length y /\ length y01 = length y /\
    length y11 = length y /\
    forall k, (k < length y)%nat ->
      nth k ys ((0, 0), (0, 0))
      = ((nth k y 0, nth k y10 0 - nth k y 0),
         (nth k y01 0 - nth k y 0, nth k y11 0 - nth k y01 0 - nth k y10 0 + nth k y 0)).
Proof. exact alike_second_difference. Qed.
Print Assumptions C102_second_differences.

(** The abs-normal form of a piecewise affine function is exact wherever the function is recorded alike (C25). *)
Theorem C102_abs_normal_exact :
  forall red (f : func R) (x : list R) (w : world R) (t : tape R) (w' : world R),
  rayon red -> fn_tape Rops f x w = Ok (t, w') -> NoDup (t_deps t) -> abs_once t ->
  piecewise_affine f x ->
  exists N y, abs_normal Rops red f x w = Ok N /\ tape_y t = Ok y /\
  forall h, length h = length x -> recorded_alike Rops f x (vadd x h) ->
    exists zh, switching N h zh /\ (forall zh', switching N h zh' -> zh' = zh) /\
      forall w2, eval_float Rops f (vadd x h) w2 = Ok (vadd y (increment N h zh), w2).
Proof. exact alike_abs_normal_exact. Qed.
Print Assumptions C102_abs_normal_exact.

(** [let q = x * x; let s = x + 1; if q < s { [q] } else { [x] }] at 0, which compares two variables *)
Definition ex_parabola : func R :=
  Simple 1 1 (Let2 BMul 0 0 (LetC 1 (Let2 BAdd 0 2
    (Inspect 1 (fun a => Inspect 3 (fun b => if Rltb a b then Ret [1%nat] else Ret [0%nat])))))).
Example C102_example_second : forall c : R, c <> 0 ->
  alike_near ex_parabola [0] /\ regular2 ex_parabola (nested_in [0] [c] [c] (repeat 0 1)) /\
  (exists y, nested_eval Rops ex_parabola (nested_in [0] [c] [c] (repeat 0 1)) = Ok [y] /\
     snd (fst y) = 0 /\ 0 < snd (snd y)) /\
  exists t w', fn_tape Rops (tangent Rops 1 1 ex_parabola) ([0] ++ [c]) world0 = Ok (t, w') /\
    no_abs t /\ NoDup (t_deps t) /\ length (outputs ex_parabola [0]) = 1%nat /\
    tape_reverse Rops t (repeat 0 1 ++ unitv Rops 1 0) = Ok ([2 * c] ++ [0]).
Proof.
  intros c Hc. assert (forall a b : R, a < b -> Rltb a b = true) as LT by (intros; now apply Rltb_true).
  assert (resolve_f Rops ex_parabola [0] = @Simple R 1 1 (Let2 BMul 0 0 (LetC 1 (Let2 BAdd 0 2 (Ret [1%nat]))))) as RS.
  { cbn -[Rltb]. rewrite LT by lra. reflexivity. }
  assert (map n_val (nested_in [0] [c] [c] (repeat 0 1)) = [0]) as NV by reflexivity.
  split; [|split; [|split]].
  - assert (exists t w', fn_tape Rops ex_parabola [0] world0 = Ok (t, w')) as (t & w' & T).
    { rewrite fn_tape_resolve, RS. rtape. eauto. }
    exists (1 / 2). split; [lra|]. intros [|h [|? ?]] L N; try discriminate. cbn in N. pose proof (Rabs_def2 h (1 / 2) ltac:(lra)).
    eapply path_alike; [exact T|reflexivity|]. right. unfold same_path. rewrite RS. cbn -[Rltb]. rewrite LT by nra. reflexivity.
  - intros ys P H. cbn -[Rltb] in H. rewrite LT in H by (cbn; lra). cbn in H. injection H as _ <-. cbn. auto 10.
  - eexists. split; [rewrite <- nested_eval_resolve, NV, RS, nested_eval_eq; cbn; reflexivity|]. cbn. unfold dual. cbn. split; [ring|].
    match goal with |- 0 < ?e => replace e with (2 * (c * c)) by ring end. apply Rsqr_pos_lt in Hc. unfold Rsqr in Hc. lra.
  - rtape. rewrite LT by lra. do 2 eexists. split; [reflexivity|].
    split; [reflexivity|]. split; [repeat constructor; cbn; intuition discriminate|]. split.
    + unfold outputs. rewrite eval_float_v, v_eval_resolve, RS. reflexivity.
    + match goal with |- tape_reverse ?o ?t ?y = _ =>
        let v := eval lazy -[IZR Rplus Rmult] in (tape_reverse o t y) in
        assert (tape_reverse o t y = v) as -> by reflexivity end.
      cbn [app]. apply f_equal. repeat (apply f_equal2; [ring|]). reflexivity.
Qed.

(** [let q = x + x; if x < q { [q.abs()] } else { [x] }] at 1, 2, 2 and 3 *)
Definition ex_double : func R :=
  Simple 1 1 (Let2 BAdd 0 0 (Inspect 0 (fun a => Inspect 1 (fun b => if Rltb a b then Let1 UAbs 1 (Ret [2%nat]) else Ret [0%nat])))).
Example C102_example_differences :
  piecewise_affine ex_double [1] /\ recorded_alike Rops ex_double [1] (vadd [1] [1]) /\
  recorded_alike Rops ex_double [1] (vadd (vadd (vadd [1] [1]) [1]) [0]) /\
  (exists y, eval_float Rops ex_double [1] world0 = Ok (y, world0)) /\
  exists t w', fn_tape Rops ex_double [1] world0 = Ok (t, w') /\ NoDup (t_deps t) /\ abs_once t /\ num_abs t = 1%nat.
Proof.
  assert (forall a b : R, a < b -> Rltb a b = true) as LT by (intros; now apply Rltb_true).
  assert (forall x, 0 < x -> resolve_f Rops ex_double [x] = @Simple R 1 1 (Let2 BAdd 0 0 (Let1 UAbs 1 (Ret [2%nat])))) as RS.
  { intros x Hx. cbn -[Rltb]. rewrite LT by lra. reflexivity. }
  assert (exists t w', fn_tape Rops ex_double [1] world0 = Ok (t, w')) as (t & w' & T).
  { rewrite fn_tape_resolve, RS by lra. rtape. eauto. }
  assert (forall x, 0 < x -> recorded_alike Rops ex_double [1] [x]) as A.
  { intros x Hx. eapply path_alike; [exact T|reflexivity|]. right. unfold same_path. rewrite !RS by lra. reflexivity. }
  split; [|split; [|split; [|split]]].
  - intros ys P H. cbn -[Rltb] in H. rewrite LT in H by (cbn; lra). cbn in H. injection H as _ <-. cbn. auto 10.
  - apply A. cbn. lra.
  - apply A. cbn. lra.
  - eexists. rewrite eval_float_v, v_eval_resolve, RS by lra. reflexivity.
  - rewrite fn_tape_resolve, RS by lra. rtape. do 2 eexists. split; [reflexivity|].
    split; [repeat constructor; cbn; intuition discriminate|]. split; [|reflexivity].
    unfold abs_once. cbn. repeat constructor; cbn; intuition discriminate.
Qed.
