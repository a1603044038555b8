(** Property theorems C78: the generalized Jacobian in any direction, and of chains. *)
From Coq Require Import Reals Lra List Arith ZArith NArith Bool.
From Verif Require Import Base Float Operation Tape AContext Methods Function Spec RealInst Instances DerivSpec DerivFacts DerivFacts2
  FunctionFacts ReplayFacts Replay2 Matrix MatrixFacts AbsNormal AnfSpec AnfFacts AnfFacts2 Checkpoint CheckSpec CheckMain GenJac GenSpec GenFacts GenMain GenExplicit
  DriverSpec TapeShape StraightSpec LimitSpec ExamplesR ExamplesGen SwitchSpec SwitchFacts SwitchMain SwitchChain.
Import ListNotations.
Open Scope R_scope.

(** *** C78 The direction selects the branches.
    [branch_eval bits f x dx v] evaluates f once, carrying the value, the tangent along dx and the
    derivative along v.  An absolute value |z| computed from an input is differentiated on the side of 0
    where z + dz lies (dz the tangent of z along dx); if z + dz = 0 the next bit decides.  It returns the
    list of these z + dz as well.

    G v, followed by the matrix of [next] if given, is this derivative, for every direction and all
    bits; the multiplicity counts the zeros in the list. *)
Theorem C78_function :
  forall red (f : func R) x y w dx bits next, rayon red -> once_f f -> fn_n f = Ok (length x) ->
  eval_float Rops f x w = Ok (y, w) -> length dx = length x -> next_ok (length y) next ->
  exists G w', generalized_jacobian Rops red f x dx bits next w = Ok (G, w') /\
    forall v, length v = length x -> exists ys s, branch_eval bits f x dx v = Ok (ys, s) /\ map b_val ys = y /\
      mulv (g_hom G) v = mulv (next_hom (length y) next) (map b_der ys) /\ g_mult G = (zeros s + next_mult next)%nat.
Proof. exact once_branch. Qed.
Print Assumptions C78_function.

(** The chain driver: the derivative of the whole chain along the branches selected by dx, and
    G dx + gamma its tangent along dx.  The multiplicity counts zeros function by function
    ([stages]: every function takes its arguments for inputs). *)
Theorem C78_chain :
  forall red est (c : func R) x z dx k w, rayon red -> Forall once_f (fn_iter c) -> reaches Rops (fn_iter c) x z ->
  length dx = length x ->
  accurate est (Z.of_nat (chain_len c) + 1) -> (Z.of_nat (chain_len c) + 1 <= 2 ^ 32)%Z -> (2 <= k)%nat ->
  exists G w', generalized_jacobian_chain Rops red est c x dx (Some k) w = Ok (G, w') /\
    forall v, length v = length x ->
      (exists ys s, branch_eval [0%N] c x dx v = Ok (ys, s) /\
        mulv (g_hom G) v = map b_der ys /\ vadd (mulv (g_hom G) dx) (g_inh G) = map b_tan ys) /\
      (exists ys s, stages (fn_iter c) x dx v = Ok (ys, s) /\ g_mult G = zeros s).
Proof. exact once_chain_branch. Qed.
Print Assumptions C78_chain.

(** So where the composed function returns no variable twice and passes none to abs twice, chain driver
    and plain driver give the same matrix and vector. *)
Theorem C78_chain_is_composition :
  forall red est (c : func R) x z dx k w t wt, rayon red -> Forall once_f (fn_iter c) -> reaches Rops (fn_iter c) x z ->
  length dx = length x ->
  accurate est (Z.of_nat (chain_len c) + 1) -> (Z.of_nat (chain_len c) + 1 <= 2 ^ 32)%Z -> (2 <= k)%nat ->
  fn_n c = Ok (length x) -> fn_tape Rops c x w = Ok (t, wt) -> NoDup (t_deps t) -> abs_once t ->
  exists G w' G2 w2, generalized_jacobian_chain Rops red est c x dx (Some k) w = Ok (G, w') /\
    generalized_jacobian Rops red c x dx [0%N] None w = Ok (G2, w2) /\
    g_hom G = g_hom G2 /\ g_inh G = g_inh G2 /\ (g_mult G2 <= g_mult G)%nat.
Proof. exact once_chain_composite. Qed.
Print Assumptions C78_chain_is_composition.

(** The multiplicities need not agree: in a chain the constant 0 followed by abs counts. *)
Theorem C78_same_multiplicity_refuted :
  forall red est, rayon red -> accurate est 3 ->
  exists (c : func R) x dx G w' G2 w2, Forall once_f (fn_iter c) /\
    generalized_jacobian_chain Rops red est c x dx (Some 2%nat) world0 = Ok (G, w') /\
    generalized_jacobian Rops red c x dx [0%N] None world0 = Ok (G2, w2) /\
    g_mult G = 1%nat /\ g_mult G2 = 0%nat.
Proof. exact multiplicity_counterexample. Qed.
Print Assumptions C78_same_multiplicity_refuted.

(** With multiplicity at most one the result for a chain is a limiting Jacobian of the map from dx to
    the dvalue()s of the chain (C70 for chains; nothing is asked of the composed function). *)
Theorem C78_chain_limiting :
  forall red est (c : func R) x z dx k w, rayon red -> Forall once_f (fn_iter c) -> reaches Rops (fn_iter c) x z ->
  length dx = length x ->
  accurate est (Z.of_nat (chain_len c) + 1) -> (Z.of_nat (chain_len c) + 1 <= 2 ^ 32)%Z -> (2 <= k)%nat ->
  exists G w', generalized_jacobian_chain Rops red est c x dx (Some k) w = Ok (G, w') /\
    ((g_mult G <= 1)%nat ->
     limiting (fun dx' r => exists ys, (forall w, eval Rops c (map (fun p => af_new (fst p) (snd p)) (combine x dx')) w = Ok (ys, w)) /\
       r = map af_dv ys) (g_hom G) (g_inh G) dx).
Proof. exact once_chain_limiting. Qed.
Print Assumptions C78_chain_limiting.

(** |x| at 1 in direction -3 crosses 0: the derivative is -1, the tangent |1 - 3| - |1|. *)
Example C78_example_direction : forall v,
  branch_eval [0%N] rx_abs [1] [-3] [v] = Ok ([mkB (Rabs 1) (Rabs (1 + -3) - Rabs 1) (-1 * v) true], [1 + -3]).
Proof.
  intros v. unfold branch_eval, rx_abs. cbn. unfold m_abs, mbind, branch_fop. cbn.
  unfold branch. destruct (Rlt_dec 0 (1 + -3)); [lra|]. destruct (Rlt_dec (1 + -3) 0); [|lra]. reflexivity.
Qed.
(** The chain of C73_example_chain; its composed function qualifies as well. *)
Example C78_example_chain : Forall once_f (fn_iter rx_chain) /\ (exists z, reaches Rops (fn_iter rx_chain) [1; -2] z) /\
  accurate (fun a r => up (estimate a r)) (Z.of_nat (chain_len rx_chain) + 1) /\
  fn_n rx_chain = Ok 2%nat /\ exists t w', fn_tape Rops rx_chain [1; -2] world0 = Ok (t, w') /\ NoDup (t_deps t) /\ abs_once t.
Proof.
  split; [repeat constructor; cbn; intuition discriminate|].
  split.
  { eexists. eapply reaches_cons; [reflexivity|rewrite eval_float_v; reflexivity|].
    eapply reaches_cons; [reflexivity|rewrite eval_float_v; reflexivity|]. apply reaches_nil. }
  split; [apply accurate_up|]. split; [reflexivity|].
  destruct (fn_tape Rops rx_chain [1; -2] world0) as [[t w']|p] eqn:E; [|exfalso; revert E; rtape; discriminate].
  exists t, w'. split; [reflexivity|]. revert E; rtape; intros [= <- _].
  split; cbn; repeat constructor; cbn; intuition discriminate.
Qed.
(** x, |x| and then |a| + b: the functions qualify, the composed function |x| + |x| does not. *)
Definition rx_twice : func R :=
  Chain [Simple 1 2 (Let1 UAbs 0 (Ret [0; 1]%nat)); Simple 2 1 (Let1 UAbs 0 (Let2 BAdd 2 1 (Ret [3]%nat)))].
Example C78_example_composed : Forall once_f (fn_iter rx_twice) /\ (exists z, reaches Rops (fn_iter rx_twice) [0] z) /\
  exists t w', fn_tape Rops rx_twice [0] world0 = Ok (t, w') /\ ~ abs_once t.
Proof.
  split; [repeat constructor; cbn; intuition discriminate|].
  split.
  { eexists. eapply reaches_cons; [reflexivity|rewrite eval_float_v; reflexivity|].
    eapply reaches_cons; [reflexivity|rewrite eval_float_v; reflexivity|]. apply reaches_nil. }
  destruct (fn_tape Rops rx_twice [0] world0) as [[t w']|p] eqn:E; [|exfalso; revert E; rtape; discriminate].
  exists t, w'. split; [reflexivity|]. revert E; rtape; intros [= <- _].
  unfold abs_once. cbn. intros H. inversion H as [|a l Hn]; subst. apply Hn. left. reflexivity.
Qed.
