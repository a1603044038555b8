(** Property theorems C94: second derivatives by nested AFloats are symmetric. *)
From Coq Require Import Reals Lra List Arith ZArith Bool Lia.
From Verif Require Import Base Float Operation Tape AContext Methods Function Spec Param SweepFacts
  Instances RealInst DerivSpec DerivFacts2 LinearFacts JacobianFacts ExamplesR Nested NestedSpec NestedMain
  Hess HessComp HessMain Symm SymmMain Props41.
Import ListNotations.
Open Scope R_scope.

(** *** C94 The order of the two directions does not matter.
    [nested_in x u v w]: the variables AFloat::new(AFloat::new(x, u), AFloat::new(v, w)).  With u and v exchanged
    the results have the same values, their two derivatives exchanged, and the same second derivatives. *)
Theorem C94_symmetric :
  forall (f : func R) (x u v w : list R) (ys : list N2),
  regular2 f (nested_in x u v w) -> regular2 f (nested_in x v u w) ->
  nested_eval Rops f (nested_in x u v w) = Ok ys ->
  exists zs, nested_eval Rops f (nested_in x v u w) = Ok zs /\
    Forall2 (fun y z => fst (fst z) = fst (fst y) /\ snd (fst z) = fst (snd y) /\
                        fst (snd z) = snd (fst y) /\ snd (snd z) = snd (snd y)) ys zs.
Proof. exact nested_symmetric. Qed.
Print Assumptions C94_symmetric.

(** The Hessian-vector products of C92, two recordings and two reverse sweeps: (H u) . v = (H v) . u, for the
    Hessian of any weighted sum of the outputs. *)
Theorem C94_hessian_vector_products :
  forall (f : func R) (n m : nat) (x u v : list R) (w1 w2 : world R) (t1 t2 : tape R) (w1' w2' : world R)
         (zbar : list R) (mm : nat) (xb ub xb' vb : list R),
  length x = n -> length u = n -> length v = n ->
  fn_tape Rops (tangent Rops n m f) (x ++ u) w1 = Ok (t1, w1') -> no_abs t1 -> NoDup (t_deps t1) ->
  fn_tape Rops (tangent Rops n m f) (x ++ v) w2 = Ok (t2, w2') -> no_abs t2 -> NoDup (t_deps t2) ->
  length (outputs f x) = mm -> length zbar = mm ->
  regular2 f (nested_in x v u (repeat 0 n)) -> regular2 f (nested_in x u v (repeat 0 n)) ->
  length xb = n -> tape_reverse Rops t1 (repeat 0 mm ++ zbar) = Ok (xb ++ ub) ->
  length xb' = n -> tape_reverse Rops t2 (repeat 0 mm ++ zbar) = Ok (xb' ++ vb) ->
  dot xb v = dot xb' u.
Proof. exact hessian_vector_symmetric. Qed.
Print Assumptions C94_hessian_vector_products.

(** A function with a division and a power, in both orders ... *)
Example C94_example :
  let f := Simple 2 1 (Let2 BDiv 0 1 (Let2 BPowf 1 2 (Let1 ULn 3 (Let2 BMul 4 0 (Ret [5]%nat))))) in
  regular2 f (nested_in [2; 3] [1; 4] [1; 5] [0; 0]) /\ regular2 f (nested_in [2; 3] [1; 5] [1; 4] [0; 0]) /\
  exists ys, nested_eval Rops f (nested_in [2; 3] [1; 4] [1; 5] [0; 0]) = Ok ys.
Proof.
  cbv zeta. split; [|split; [|rewrite nested_eval_eq; eexists; reflexivity]];
    intros ys P H; cbn -[Rpowf IZR powerRZ Reqb] in H; injection H as _ <-;
    (split; [split; [split; [split; [exact I|intros y [= <-]; lra]|]|rewrite Rpowf_pos by lra; apply exp_pos]|exact I]);
    intros z [= <-]; (split; [left; lra|split; [lra|]]);
    cbn [fst snd]; rewrite Rpowf_2; intros E; exfalso; lra.
Qed.

(** ... and the products of C92 for x0 * x0 * x1. *)
Example C94_example_hessian_vector :
  forall a b c d c' d' : R, 
  exists t w', fn_tape Rops (tangent Rops 2 1 hx_f) ([a; b] ++ [c; d]) world0 = Ok (t, w') /\ no_abs t /\ NoDup (t_deps t) /\
  regular2 hx_f (nested_in [a; b] [c'; d'] [c; d] (repeat 0 2)) /\
  exists xb ub, length xb = 2%nat /\ tape_reverse Rops t (repeat 0 1 ++ [1]) = Ok (xb ++ ub) /\
    dot xb [c'; d'] = 2 * b * c * c' + 2 * a * d * c' + 2 * a * c * d'.
Proof.
  intros a b c d c' d'. destruct (C92_example a b c d) as (t & w' & H1 & H2 & H3 & _ & _ & H6 & H7).
  exists t, w'. split; [exact H1|]. split; [exact H2|]. split; [exact H3|]. split; [apply H6; auto|].
  do 2 eexists. split; [|split; [exact H7|]]; auto. cbn. ring.
Qed.

(** The provisos about powers (C56) matter: for (x y + 1)^2 at (1, 0) the mixed second derivative is 2 in one
    order and 0 in the other. *)
Theorem C94_stationary_base_refuted :
  exists (f : func R) (x u v : list R) y1 y2,
  straight_f f /\ regular f x /\
  nested_eval Rops f (nested_in x u v (repeat 0 (length x))) = Ok [y1] /\
  nested_eval Rops f (nested_in x v u (repeat 0 (length x))) = Ok [y2] /\
  snd (snd y1) <> snd (snd y2).
Proof. exact sy_refuted. Qed.
Print Assumptions C94_stationary_base_refuted.
