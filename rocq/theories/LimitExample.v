(** A function whose generalized Jacobian is not a limiting Jacobian. *)
From Coq Require Import Reals Lra List Arith ZArith NArith Bool Lia.
From Verif Require Import Base Float Operation Tape AContext Methods Function Spec TapeFacts
  SweepFacts RealInst Param Instances FunctionFacts ReplayFacts DerivSpec DerivFacts LinearFacts DerivFacts2
  Matrix MatrixFacts Jacobian JacobianFacts AbsNormal AbsNormalFacts AnfSpec RVec AnfFacts AnfFacts2 GenJac GenSpec LimitSpec ExamplesR ExamplesGen.
Import ListNotations.
Local Open Scope R_scope.

(** f(x) = |x| - |-x|, which is 0 everywhere *)
Definition rx_zero : func R := AdvFn 1 1 (Let1 UAbs 0 (Let1 UNeg 0 (Let1 UAbs 2 (Let2 BSub 1 3 (Ret [4]%nat))))).

(** symbolic evaluation, deciding comparisons of closed terms *)
Ltac rlazy := lazy -[IZR Rplus Rminus Rmult Rdiv Ropp Rabs Rinv Reqb Rltb].
Ltac rdecide :=
  repeat (rlazy; match goal with
    | |- context[Reqb ?a ?b] =>
        first [rewrite (proj2 (Reqb_true a b)) by lra | rewrite (proj2 (Reqb_false a b)) by lra]
    | |- context[Rltb ?a ?b] =>
        first [rewrite (proj2 (Rltb_true a b)) by lra | rewrite (proj2 (Rltb_false a b)) by lra]
    end); rlazy.

Lemma rx_zero_gj : exists G w', generalized_jacobian Rops (@concat _) rx_zero [0] [0] [0%N] None world0 = Ok (G, w') /\
  g_hom G = mkM 1 1 [[-2]] /\ g_inh G = [0] /\ g_mult G = 2%nat.
Proof.
  enough (match generalized_jacobian Rops (@concat _) rx_zero [0] [0] [0%N] None world0 with
    | Ok (G, _) => g_hom G = mkM 1 1 [[-2]] /\ g_inh G = [0] /\ g_mult G = 2%nat | _ => False end) as H.
  { destruct (generalized_jacobian _ _ _ _ _ _ _ _) as [[G w']|p]; [|contradiction]. exists G, w'. auto. }
  rdecide. split; [|split; [|reflexivity]].
  - do 3 f_equal. ring.
  - f_equal. rewrite Rminus_0_l, Rmult_0_r, Rabs_R0. ring.
Qed.

Lemma rx_zero_tape : exists t w', fn_tape Rops rx_zero [0] world0 = Ok (t, w') /\ NoDup (t_deps t) /\ abs_once t /\
  forall v, tape_forward Rops t [v] = Ok [0].
Proof.
  destruct (fn_tape Rops rx_zero [0] world0) as [[t w']|p] eqn:E; [|exfalso; revert E; rtape; discriminate].
  exists t, w'. split; [reflexivity|]. revert E; rtape; intros [= <- _].
  split; [cbn; repeat constructor; cbn; intuition discriminate|].
  split; [cbn; repeat constructor; cbn; intuition discriminate|]. intros v.
  lazy -[IZR Rplus Rminus Rmult Rdiv Ropp Rabs Rinv Reqb Rltb].
  do 2 f_equal. replace ((0 - 1) * 0 + (0 * 0 + (0 - 1) * v)) with (- v) by ring. replace ((0 - 1) * 0) with 0 by ring.
  rewrite Rabs_Ropp, Rplus_0_l. ring.
Qed.


(** hence the matrix is not a limiting Jacobian of the linearisation *)
Lemma rx_zero_not_limiting (F : list R -> list R -> Prop) :
  (forall x y, F x y -> y = [0]) -> ~ limiting F (mkM 1 1 [[-2]]) [0] [0].
Proof.
  intros HF HL. destruct (HL 1 ltac:(lra)) as (p & Lp & _ & d & Hd & H).
  destruct p as [|p0 [|]]; try discriminate.
  assert (forall q, Rabs (q - p0) < d -> q = 0) as Hq.
  { intros q Hq. specialize (H [q] eq_refl). cbn in H.
    specialize (H ltac:(lra)). apply HF in H. cbn in H. injection H as H. lra. }
  pose proof (Hq p0 ltac:(rewrite Rminus_diag_eq, Rabs_R0 by auto; auto)).
  pose proof (Hq (p0 + d / 2) ltac:(replace (p0 + d / 2 - p0) with (d / 2) by ring; rewrite Rabs_right; lra)). lra.
Qed.

(** f(x0, x1) = (|x0|, |x1|): at the origin all four combinations of signs occur. *)
Definition rx_two : func R := AdvFn 2 2 (Let1 UAbs 0 (Let1 UAbs 1 (Ret [2; 3]%nat))).
Definition rx_two_anf : @anf R :=
  mkANF [0; 0] (mkM 2 2 [[1; 0]; [0; 1]]) (mkM 2 2 [[0; 0]; [0; 0]])
        [0; 0] (mkM 2 2 [[0; 0]; [0; 0]]) (mkM 2 2 [[1; 0]; [0; 1]]).

Lemma rx_two_tape : exists t w', fn_tape Rops rx_two [0; 0] world0 = Ok (t, w') /\ NoDup (t_deps t) /\ abs_once t /\
  num_abs t = 2%nat /\ anf_of t rx_two_anf.
Proof.
  destruct (fn_tape Rops rx_two [0; 0] world0) as [[t w']|p] eqn:E; [|exfalso; revert E; rtape; discriminate].
  exists t, w'. split; [reflexivity|]. revert E; rtape; intros [= <- _].
  split; [cbn; repeat constructor; cbn; intuition discriminate|].
  split; [cbn; repeat constructor; cbn; intuition discriminate|]. split; [reflexivity|]. constructor.
  eexists _, _. split; [cbv -[IZR Rplus Rminus Rmult Rdiv Ropp Rabs Rinv Reqb Rltb]; reflexivity|].
  split; [cbv -[IZR Rplus Rminus Rmult Rdiv Ropp Rabs Rinv Reqb Rltb]; reflexivity|].
  assert (forall A : matrix R, m_rows A = 2%nat -> m_cols A = 2%nat -> length (m_dat A) = 2%nat ->
    Forall (fun r => length r = 2%nat) (m_dat A) -> shape A 2 2) as HS.
  { intros A Hr Hc Hl Hf. split; [|auto]. split; [congruence|]. rewrite Hc. exact Hf. }
  assert (forall (dx : list R), length dx = 2%nat -> exists u v, dx = [u; v]) as H2.
  { intros [|u [|v [|]]] L; try discriminate. eauto. }
  split; [|split; [|split; [|split; [|split]]]];
    try (split; [apply HS; cbn; auto|]; intros dx L; destruct (H2 dx L) as (u & v & ->); clear L;
      lazy -[IZR Rplus Rminus Rmult Rdiv Ropp Rabs Rinv Reqb Rltb]; do 3 f_equal; try ring; f_equal; ring).
  - cbn. rewrite Rabs_R0. f_equal; [ring|f_equal; ring].
  - cbn. rewrite Rabs_R0. f_equal; [ring|f_equal; ring].
Qed.

Lemma rx_two_signs sigma : length sigma = 2%nat -> (forall i, (i < 2)%nat -> nth i sigma 0 = 1 \/ nth i sigma 0 = -1) ->
  forall e, 0 < e -> exists p zp, length p = 2%nat /\ nrm1 (vsub p [0; 0]) < e /\ switching rx_two_anf p zp /\
    forall i, (i < 2)%nat -> nth i sigma 0 * nth i zp 0 > 0.
Proof.
  intros L H e He. destruct sigma as [|a [|b [|]]]; try discriminate.
  pose proof (H 0%nat ltac:(lia)) as Ha. pose proof (H 1%nat ltac:(lia)) as Hb. cbn in Ha, Hb.
  assert (forall c, c = 1 \/ c = -1 -> Rabs (c * e / 3) = e / 3 /\ c * (c * e / 3) > 0) as Hc.
  { intros c [-> | ->]; [rewrite Rabs_right by lra|rewrite Rabs_left by lra]; lra. }
  destruct (Hc a Ha) as [Na Pa]. destruct (Hc b Hb) as [Nb Pb].
  exists [a * e / 3; b * e / 3], [a * e / 3; b * e / 3]. split; [reflexivity|]. split.
  { cbn. rewrite !Rminus_0_r, Na, Nb. lra. }
  split.
  { split; [reflexivity|]. cbn. f_equal; [ring|f_equal; ring]. }
  intros [|[|i]] Hi; cbn; try lia; auto.
Qed.

(** |x| at 0: multiplicity 1 *)
Lemma rx_abs0_gj : exists G w', generalized_jacobian Rops (@concat _) rx_abs [0] [0] [1%N] None world0 = Ok (G, w') /\
  g_hom G = mkM 1 1 [[1]] /\ g_mult G = 1%nat.
Proof.
  enough (match generalized_jacobian Rops (@concat _) rx_abs [0] [0] [1%N] None world0 with
    | Ok (G, _) => g_hom G = mkM 1 1 [[1]] /\ g_mult G = 1%nat | _ => False end) as H.
  { destruct (generalized_jacobian _ _ _ _ _ _ _ _) as [[G w']|p]; [|contradiction]. exists G, w'. auto. }
  rdecide. split; [|reflexivity]. do 3 f_equal. ring.
Qed.
Lemma rx_abs0_tape : exists t w', fn_tape Rops rx_abs [0] world0 = Ok (t, w') /\ NoDup (t_deps t) /\ abs_once t.
Proof.
  destruct (fn_tape Rops rx_abs [0] world0) as [[t w']|p] eqn:E; [|exfalso; revert E; rtape; discriminate].
  exists t, w'. split; [reflexivity|]. revert E; rtape; intros [= <- _].
  split; cbn; repeat constructor; cbn; intuition discriminate.
Qed.
