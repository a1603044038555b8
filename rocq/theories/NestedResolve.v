(** Nested evaluation follows the path taken at the values of the variables. *)
From Coq Require Import Reals Lra List Arith ZArith Bool Lia.
From Verif Require Import Base Float Operation Tape AContext Methods Function Spec Param TapeFacts
  Instances FunctionFacts ReplayFacts ApiFacts3 RealInst Approx DerivSpec DerivFacts DerivFacts2
  Nested NestedSpec NestedFacts NestedMain.
Import ListNotations.
Open Scope R_scope.

Lemma d2_val oc (x : N2) (y : option N2) (s : unit) r s' :
  arity_ok oc y -> d_fop (Dops Rops) oc x y s = Ok (r, s') ->
  zero_order_value Rops oc (n_val x) (option_map n_val y) = Ok (n_val r).
Proof.
  intros Ha E. destruct s.
  destruct (d_fop_D _ _ _ _ _ Ha E) as [E1 _]. unfold n_val at 3. rewrite E1.
  unfold dop, dual, d_fop, mbind, mlift, mret.
  assert (option_map n_val y = option_map fst (option_map fst y)) as -> by (destruct y; auto).
  change (n_val x) with (fst (fst x)).
  rewrite zv_ok by (destruct y; auto). rewrite fv_ok by (destruct y; auto). reflexivity.
Qed.

Lemma nested_in_val : forall x u v w : list R, length u = length x -> length v = length x -> length w = length x ->
  map n_val (nested_in x u v w) = x.
Proof.
  induction x as [|a x IH]; intros [|b u] [|c v] [|d w] L1 L2 L3; try discriminate; auto.
  cbn in *. f_equal. apply IH; lia.
Qed.

Lemma nested_eval_resolve f X : nested_eval Rops (resolve_f Rops f (map n_val X)) X = nested_eval Rops f X.
Proof.
  rewrite !nested_eval_eq. rewrite (feval_resolve Rops (d_fop (Dops Rops)) (n_cst Rops) n_val d2_val (fun c => eq_refl) f X).
  reflexivity.
Qed.

Lemma regular2_resolve f X : regular2 f X -> regular2 (resolve_f Rops f (map n_val X)) X.
Proof.
  intros H ys P E. apply (H ys).
  assert (map (fun p : N2 * bool => n_val (fst p)) (map (fun a => (a, false)) X) = map n_val X) as MX by (rewrite map_map; reflexivity).
  rewrite (feval_resolve Rops n_fop (fun c => (n_cst Rops c, true)) (fun p => n_val (fst p))); [rewrite MX; exact E| |reflexivity].
  intros oc a b s v s' Ha. unfold n_fop. destruct (d_fop (Dops Rops) oc (fst a) (option_map fst b) tt) as [[z t]|] eqn:Q; [|discriminate].
  intros [= <- <-]. apply d2_val in Q; [|destruct b; auto]. cbn [fst]. rewrite <- Q. destruct b; reflexivity.
Qed.

(** One output for each output of [f], whatever its branches. *)
Lemma nested_length f x u v w ys :
  length u = length x -> length v = length x -> length w = length x ->
  regular2 f (nested_in x u v w) -> nested_eval Rops f (nested_in x u v w) = Ok ys ->
  length ys = length (outputs f x).
Proof.
  intros L1 L2 L3 RG E. pose proof (nested_in_val x u v w L1 L2 L3) as Ev.
  destruct (nested_second_derivative (resolve_f Rops f x) x u v w ys) as [L _]; auto.
  - left. apply resolve_f_straight.
  - rewrite <- Ev at 1. apply regular2_resolve; auto.
  - rewrite <- Ev at 1. rewrite nested_eval_resolve. auto.
  - rewrite L. unfold outputs. now rewrite !eval_float_v, <- v_eval_resolve.
Qed.
