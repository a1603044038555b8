(** Property theorems C73, C74: which functions the nonsmooth drivers are right for, and which
    derivative the generalized Jacobian is. *)
From Coq Require Import Reals Lra List Arith ZArith NArith Bool.
From Verif Require Import Base Float Operation Tape AContext Methods Function Spec RealInst Instances DerivSpec DerivFacts DerivFacts2
  FunctionFacts ReplayFacts Replay2 Matrix MatrixFacts JacobianFacts AbsNormal AnfSpec AnfFacts AnfFacts2 Checkpoint CheckSpec GenJac GenSpec GenFacts GenMain GenExplicit DriverSpec TapeShape
  StraightSpec StraightFacts StraightMain OnceMain ExamplesR ExamplesGen.
Import ListNotations.
Open Scope R_scope.

(** *** C73 A condition on the program text.
    [once_f f]: on every path through f no variable is returned twice and none is passed to abs
    twice.  In every arithmetic the tape then has distinct outputs and distinct arguments of abs,
    as C25-C34, C58, C59 and C70 demand. *)
Theorem C73_tapes :
  forall (F : Type) (Fo : Fops F) (f : func F) x w t w', once_f f -> fn_tape Fo f x w = Ok (t, w') ->
  NoDup (t_deps t) /\ abs_once t.
Proof. exact @once_shape. Qed.
Print Assumptions C73_tapes.

(** So for such functions: G dx + gamma are the dvalue()s of f at (x, dx), ... *)
Theorem C73_generalized_jacobian :
  forall red, rayon red -> forall (f : func R) x y w, once_f f -> fn_n f = Ok (length x) ->
  eval_float Rops f x w = Ok (y, w) -> forall dx bits, length dx = length x ->
  exists G w' outs, generalized_jacobian Rops red f x dx bits None w = Ok (G, w') /\
    (forall w2, eval Rops f (map (fun p => af_new (fst p) (snd p)) (combine x dx)) w2 = Ok (outs, w2)) /\
    shape (g_hom G) (length y) (length x) /\
    vadd (mulv (g_hom G) dx) (g_inh G) = map af_dv outs.
Proof. exact once_direction. Qed.
Print Assumptions C73_generalized_jacobian.

(** ... the abs-normal form approximates f to first order ... *)
Theorem C73_abs_normal :
  forall red (f : func R) x y w, rayon red -> once_f f -> eval_float Rops f x w = Ok (y, w) ->
  regular f x -> same_branches_near f x ->
  exists N, abs_normal Rops red f x w = Ok N /\
  forall e, 0 < e -> exists d, 0 < d /\ forall h, length h = length x -> nrm1 h < d ->
    exists y' zh, (forall w2, eval_float Rops f (vadd x h) w2 = Ok (y', w2)) /\
      switching N h zh /\ (forall zh', switching N h zh' -> zh' = zh) /\
      forall k, (k < length y)%nat ->
        Rabs (nth k y' 0 - nth k y 0 - nth k (increment N h zh) 0) <= e * nrm1 h.
Proof. exact once_first_order. Qed.
Print Assumptions C73_abs_normal.

(** ... and the chain driver is right for chains of such functions. *)
Theorem C73_chain :
  forall red est (c : func R) x z dx k w, rayon red -> Forall once_f (fn_iter c) -> reaches Rops (fn_iter c) x z ->
  length dx = length x ->
  accurate est (Z.of_nat (chain_len c) + 1) -> (Z.of_nat (chain_len c) + 1 <= 2 ^ 32)%Z -> (2 <= k)%nat ->
  exists G w' ys, generalized_jacobian_chain Rops red est c x dx (Some k) w = Ok (G, w') /\
    (forall w, eval Rops c (map (fun p => af_new (fst p) (snd p)) (combine x dx)) w = Ok (ys, w)) /\
    vadd (mulv (g_hom G) dx) (g_inh G) = map af_dv ys.
Proof. exact once_chain. Qed.
Print Assumptions C73_chain.

(** (max(x0, |x1|), min(x0, x1)) qualifies; returning a variable twice or |x0| + |x0| does not. *)
Definition rx_once : func R :=
  Simple 2 2 (Let1 UAbs 1 (Let2 BMax 0 2 (Let2 BMin 0 1 (Ret [3; 4]%nat)))).
Example C73_example : once_f rx_once /\ once_f rx_pl /\ Forall once_f (fn_iter rx_chain) /\
  ~ once_f (F := R) (Simple 1 2 (Ret [0; 0]%nat)) /\
  ~ once_f (F := R) (Simple 1 1 (Let1 UAbs 0 (Let1 UAbs 0 (Let2 BAdd 1 2 (Ret [3]%nat))))) /\
  exists y, eval_float Rops rx_once [1; 1] world0 = Ok (y, world0).
Proof.
  split; [cbn; repeat constructor; cbn; intuition discriminate|].
  split; [cbn; repeat constructor; cbn; intuition discriminate|].
  split; [repeat constructor; cbn; intuition discriminate|].
  split; [cbn; intros H; inversion H; cbn in *; tauto|].
  split; [cbn; tauto|].
  eexists. rewrite eval_float_v. reflexivity.
Qed.
Example C73_example_chain : exists z, reaches Rops (fn_iter rx_chain) [1; -2] z.
Proof.
  eexists. eapply reaches_cons; [reflexivity|rewrite eval_float_v; reflexivity|].
  eapply reaches_cons; [reflexivity|rewrite eval_float_v; reflexivity|]. apply reaches_nil.
Qed.

(** *** C74 The generalized Jacobian is the derivative along the selected branches.
    [straight_derivative sg f x v]: forward mode differentiation of f in direction v in which the k-th
    |z| computed from an input counts as the linear function [sg k z] * z.  With the signs selected by
    dx and the bits as slopes it is G v, followed by the matrix of [next] if given. *)
Theorem C74_selected_branches :
  forall red (f : func R) x y w dx bits next, rayon red -> once_f f -> fn_n f = Ok (length x) ->
  eval_float Rops f x w = Ok (y, w) -> length dx = length x -> next_ok (length y) next ->
  exists G w' t N dz sigma, generalized_jacobian Rops red f x dx bits next w = Ok (G, w') /\
    fn_tape Rops f x w = Ok (t, w') /\ anf_of t N /\ switching N dx dz /\ selected bits dz sigma /\
    forall v, length v = length x -> exists d, straight_derivative (fun k _ => nth k sigma 0) f x v = Ok d /\
      mulv (g_hom G) v = mulv (next_hom (length y) next) d.
Proof. exact once_straight. Qed.
Print Assumptions C74_selected_branches.

(** At the direction zero, with bits zero, it depends on the values only: |z| is differentiated as
    z if z > 0 and as -z otherwise ([pair_eval], value and derivative at once). *)
Theorem C74_zero_direction :
  forall red, rayon red -> forall (f : func R) x y w, once_f f -> fn_n f = Ok (length x) ->
  eval_float Rops f x w = Ok (y, w) -> forall bits next, (forall k, bit bits k = false) -> next_ok (length y) next ->
  exists G w', generalized_jacobian Rops red f x (repeat 0 (length x)) bits next w = Ok (G, w') /\
    forall v, length v = length x -> exists ys, pair_eval right_if_positive f x v = Ok ys /\ map fst ys = y /\
      mulv (g_hom G) v = mulv (next_hom (length y) next) (map snd ys).
Proof. exact once_pair. Qed.
Print Assumptions C74_zero_direction.

(** There max and min select one of their arguments; on a tie the second and the first. *)
Theorem C74_max :
  forall a b, meth2 Rops (pair_fop right_if_positive) (fun c => (c, 0)) BMax a b tt =
  Ok (if Rlt_dec (fst b) (fst a) then a else b, tt).
Proof. exact pair_max. Qed.
Print Assumptions C74_max.
Theorem C74_min :
  forall a b, meth2 Rops (pair_fop right_if_positive) (fun c => (c, 0)) BMin a b tt =
  Ok (if Rlt_dec (fst b) (fst a) then b else a, tt).
Proof. exact pair_min. Qed.
Print Assumptions C74_min.

(** The same for the chain driver, for the whole chain. *)
Theorem C74_chain :
  forall red est (c : func R) x z k w, rayon red -> Forall once_f (fn_iter c) -> reaches Rops (fn_iter c) x z ->
  accurate est (Z.of_nat (chain_len c) + 1) -> (Z.of_nat (chain_len c) + 1 <= 2 ^ 32)%Z -> (2 <= k)%nat ->
  exists G w', generalized_jacobian_chain Rops red est c x (repeat 0 (length x)) (Some k) w = Ok (G, w') /\
    forall v, length v = length x -> exists ys, pair_eval right_if_positive c x v = Ok ys /\
      mulv (g_hom G) v = map snd ys.
Proof. exact once_chain_pair. Qed.
Print Assumptions C74_chain.

(** If outputs coincide the last of the coinciding entries of [next] is used only. *)
Theorem C74_repeated_outputs :
  forall red, rayon red -> forall (f : func R) x w t w', fn_tape Rops f x w = Ok (t, w') -> abs_once t ->
  forall bits next, (forall k, bit bits k = false) -> next_ok (num_deps t) next ->
  exists G, generalized_jacobian_tape Rops red t (repeat 0 (length x)) bits next = Ok G /\
    forall v, length v = length x -> exists d, straight_derivative (fun _ => right_if_positive) f x v = Ok d /\
      length d = num_deps t /\
      mulv (g_hom G) v = mulv (seed_rows (t_deps t) (next_hom (num_deps t) next)) d.
Proof. exact gj_straight_zero. Qed.
Print Assumptions C74_repeated_outputs.

(** max(x0, |x1|), min(x0, x1) at the ties x0 = x1 = 1: the derivative of |x1|, and that of x0. *)
Example C74_example : pair_eval right_if_positive rx_once [1; 1] [5; 7] = Ok [(1, 7); (1, 5)].
Proof.
  unfold pair_eval, rx_once. cbn [feval run combine]. unfold mbind.
  assert (meth1 Rops (pair_fop right_if_positive) (fun c => (c, 0)) UAbs (1, 7) tt = Ok ((1, 7), tt)) as Ea.
  { cbn. unfold m_abs, pair_fop. cbn. unfold right_if_positive. destruct (Rlt_dec 0 1); [|lra].
    rewrite Rabs_right by lra. rewrite Rmult_1_l. reflexivity. }
  cbn [app nth_error get] in *. unfold mlift. cbn [get nth_error]. rewrite Ea. cbn [app get nth_error].
  rewrite pair_max. cbn [fst]. destruct (Rlt_dec 1 1); [lra|]. cbn [app get nth_error].
  rewrite pair_min. cbn [fst]. destruct (Rlt_dec 1 1); [lra|]. reflexivity.
Qed.
Example C74_example_repeated : exists t w', fn_tape Rops (Simple 1 2 (Ret [0; 0]%nat)) [3] world0 = Ok (t, w') /\
  abs_once t /\ t_deps t = [0; 0]%nat /\
  seed_rows (t_deps t) (mkM 1 2 [[5; 7]]) = mkM 1 2 [[0; 7]].
Proof.
  eexists _, _. split; [rtape; reflexivity|]. split; [constructor|]. split; [reflexivity|]. reflexivity.
Qed.
