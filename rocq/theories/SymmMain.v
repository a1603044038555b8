(** Second derivatives by nested AFloats are symmetric: directions, reverse sweeps, a counterexample. *)
From Coq Require Import Reals Lra List Arith ZArith Bool Lia.
From Verif Require Import Base Float Operation Tape AContext Methods Function Spec Param SweepFacts
  Instances RealInst Approx DerivSpec DerivFacts2 LinearFacts JacobianFacts ExamplesR Nested NestedSpec NestedMain
  NestedResolve Hess HessComp HessMain Symm.
Import ListNotations.
Open Scope R_scope.

Lemma swap_in : forall x u v w, map swap (nested_in x u v w) = nested_in x v u w.
Proof.
  induction x as [|a x IH]; intros [|b u] [|c v] [|d w]; cbn; auto. f_equal. apply IH.
Qed.

Theorem nested_symmetric f x u v w ys :
  regular2 f (nested_in x u v w) -> regular2 f (nested_in x v u w) ->
  nested_eval Rops f (nested_in x u v w) = Ok ys ->
  exists zs, nested_eval Rops f (nested_in x v u w) = Ok zs /\
    Forall2 (fun y z => fst (fst z) = fst (fst y) /\ snd (fst z) = fst (snd y) /\
                        fst (snd z) = snd (fst y) /\ snd (snd z) = snd (snd y)) ys zs.
Proof.
  intros R1 R2 E. rewrite <- swap_in in R2. rewrite <- swap_in.
  exists (map swap ys). split; [apply swap_eval; auto|].
  clear. induction ys; constructor; auto.
Qed.

(** Two recordings, two reverse sweeps. *)
Theorem hessian_vector_symmetric f n m x u v w1 w2 (t1 t2 : tape R) w1' w2' zbar mm xb ub xb' vb :
  length x = n -> length u = n -> length v = n ->
  fn_tape Rops (tangent Rops n m f) (x ++ u) w1 = Ok (t1, w1') -> no_abs t1 -> NoDup (t_deps t1) ->
  fn_tape Rops (tangent Rops n m f) (x ++ v) w2 = Ok (t2, w2') -> no_abs t2 -> NoDup (t_deps t2) ->
  length (outputs f x) = mm -> length zbar = mm ->
  regular2 f (nested_in x v u (repeat 0 n)) -> regular2 f (nested_in x u v (repeat 0 n)) ->
  length xb = n -> tape_reverse Rops t1 (repeat 0 mm ++ zbar) = Ok (xb ++ ub) ->
  length xb' = n -> tape_reverse Rops t2 (repeat 0 mm ++ zbar) = Ok (xb' ++ vb) ->
  dot xb v = dot xb' u.
Proof.
  intros Lx Lu Lv T1 A1 N1 T2 A2 N2 Lo Lz R1 R2 B1 E1 B2 E2.
  assert (forall (a b c d : list R), length a = n -> length c = n -> a ++ b = c ++ d -> a = c) as AI.
  { intros a b c d L1 L2 Eq. pose proof (f_equal (firstn n) Eq) as Ef.
    rewrite <- L1 in Ef at 1. rewrite <- L2 in Ef at 1.
    rewrite !firstn_app, !Nat.sub_diag, !firstn_all, !firstn_O, !app_nil_r in Ef. exact Ef. }
  assert (length (repeat 0 n) = n) as Lr by apply repeat_length.
  destruct (reverse_of_nested f n m x u w1 t1 w1' Lx Lu T1 A1 N1 v (repeat 0 n) Lv Lr) as (ys & Ey & _ & Hy).
  destruct (reverse_of_nested f n m x v w2 t2 w2' Lx Lv T2 A2 N2 u (repeat 0 n) Lu Lr) as (zs & Ez & _ & Hz).
  destruct (nested_symmetric _ _ _ _ _ _ R1 R2 Ey) as (zs' & Ez' & HF).
  assert (zs' = zs) as -> by congruence.
  assert (length ys = mm) as Ly.
  { rewrite (nested_length f x v u (repeat 0 n) ys); auto; lia. }
  assert (length zs = mm) as Lzs by (rewrite <- Ly; clear - HF; induction HF; cbn; auto).
  destruct (Hy (repeat 0 mm) zbar) as (p & q & F1 & P1 & _ & D1); [rewrite repeat_length; lia|lia|].
  destruct (Hz (repeat 0 mm) zbar) as (p' & q' & F2 & P2 & _ & D2); [rewrite repeat_length; lia|lia|].
  assert (p = xb) as -> by (apply (AI _ q _ ub); auto; congruence).
  assert (p' = xb') as -> by (apply (AI _ q' _ vb); auto; congruence).
  rewrite (dot_sym q), dot_repeat, dot_repeat, Rplus_0_r, Rplus_0_l in D1.
  rewrite (dot_sym q'), dot_repeat, dot_repeat, Rplus_0_r, Rplus_0_l in D2.
  rewrite D1, D2. f_equal. clear - HF. induction HF as [|a b l1 l2 (_ & _ & _ & H) _ IH]; cbn; congruence.
Qed.

(** (x y + 1)^2 at (1, 0): the two mixed derivatives differ. *)
Definition sy_f : func R :=
  Simple 2 1 (Let2 BMul 0 1 (LetC 1 (Let2 BAdd 2 3 (Let1 (UPowi 2) 4 (Ret [5]%nat))))).
Lemma sy_wrong :
  nested_eval Rops sy_f (nested_in [1; 0] [1; 0] [0; 1] [0; 0]) = Ok [((1, 0), (2, 2))] /\
  nested_eval Rops sy_f (nested_in [1; 0] [0; 1] [1; 0] [0; 0]) = Ok [((1, 2), (0, 0))].
Proof.
  split; rewrite nested_eval_eq; cbn -[Rpowf IZR Reqb];
    replace (1 * 0 + 1 * 0 + 0) with 0 by ring; replace (0 * 0 + 1 * 1 + 0) with 1 by ring;
    replace (1 * 0 + 1) with 1 by ring; replace (0 - 0) with 0 by ring;
    assert (Reqb 0 0 = true) as E0 by (apply Reqb_true; auto);
    assert (Reqb 1 0 = false) as E1 by (apply Reqb_false; lra);
    rewrite E0, E1; cbn [negb fst snd d_cst f_zero Rops]; rewrite ?Rpowf_2, ?Rpowf_1; unfold d_cst; cbn [fst snd f_zero Rops];
    apply f_equal; apply f_equal2; auto; apply f_equal2; apply f_equal2; ring.
Qed.

Lemma sy_refuted :
  exists (f : func R) (x u v : list R) y1 y2,
  straight_f f /\ regular f x /\
  nested_eval Rops f (nested_in x u v (repeat 0 (length x))) = Ok [y1] /\
  nested_eval Rops f (nested_in x v u (repeat 0 (length x))) = Ok [y2] /\
  snd (snd y1) <> snd (snd y2).
Proof.
  destruct sy_wrong as [H1 H2]. exists sy_f, [1; 0], [1; 0], [0; 1]. do 2 eexists.
  split; [cbn; auto|]. split; [|split; [exact H1|split; [exact H2|cbn; lra]]].
  intros ys P H. cbn -[Rpowf] in H. injection H as _ <-. repeat split; auto.
  intros y [= <-]. left. cbn. lra.
Qed.
