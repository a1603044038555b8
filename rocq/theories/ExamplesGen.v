(** Example functions for the generalized Jacobian. *)
From Coq Require Import Reals Lra List Arith ZArith NArith Bool Lia SpecFloat.
From Verif Require Import Base Float Operation Tape AContext Methods Function Spec Param
  Instances ReplayFacts ApiFacts3 RealInst FloatInst DerivSpec DerivFacts LinearFacts DerivFacts2 Matrix MatrixFacts AbsNormal
  AbsNormalFacts AnfSpec RVec AnfFacts AnfFacts2 GenJac GenSpec ExamplesR.
Import ListNotations.
Local Open Scope R_scope.

(** |x| over the reals *)
Definition rx_abs : func R := AdvFn 1 1 (Let1 UAbs 0 (Ret [1]%nat)).
(** A chain of the two nested abs of [rx_pl] and a further abs. *)
Definition rx_chain : func R := Chain [rx_pl; rx_abs].

Lemma rx_chain_tame : tame (fn_iter rx_chain) [1; -2].
Proof.
  split; [reflexivity|].
  destruct (fn_tape Rops rx_pl [1; -2] world0) as [[t w']|p] eqn:E; [|exfalso; revert E; rtape; discriminate].
  destruct (fn_tape_fresh Rops _ _ _ _ _ E) as (_ & (y & _ & Ey & Ly) & _).
  exists t, w', y. split; [exact E|].
  assert (NoDup (t_deps t) /\ NoDup (map arg1 (filter is_abs (t_ops t))) /\ num_deps t = 1%nat) as (A & B & C).
  { revert E; rtape; intros [= <- _]. split; [|split]; [| |reflexivity]; cbn; repeat constructor; cbn; intuition discriminate. }
  split; [exact A|]. split; [exact B|]. split; [exact Ey|].
  assert (length y = 1%nat) as L1 by congruence. destruct y as [|y0 [|]]; try discriminate. clear E Ey.
  split; [reflexivity|].
  destruct (fn_tape Rops rx_abs [y0] world0) as [[t2 w2]|p] eqn:E2; [|exfalso; revert E2; rtape; discriminate].
  destruct (fn_tape_fresh Rops _ _ _ _ _ E2) as (_ & (y2 & _ & Ey2 & _) & _).
  exists t2, w2, y2. split; [exact E2|].
  assert (NoDup (t_deps t2) /\ NoDup (map arg1 (filter is_abs (t_ops t2)))) as (A2 & B2).
  { revert E2; rtape; intros [= <- _]. split; cbn; repeat constructor; cbn; intuition discriminate. }
  split; [exact A2|]. split; [exact B2|]. split; [exact Ey2|]. exact I.
Qed.

(** next: 3 y + 1 *)
Definition rx_next : gjac R := mkG (mkM 1 1 [[3]]) [1] 2.
Lemma rx_next_ok : next_ok 1 (Some rx_next).
Proof. cbn. repeat split; repeat constructor. Qed.
