(** Example functions and tapes for the abs-normal form. *)
From Coq Require Import Reals Lra List Arith ZArith Bool Lia SpecFloat.
From Verif Require Import Base Float Operation Tape AContext Methods Function Spec Param
  Instances ReplayFacts ApiFacts3 RealInst FloatInst DerivSpec DerivFacts LinearFacts DerivFacts2 Matrix MatrixFacts AbsNormal
  AbsNormalFacts AnfSpec RVec AnfFacts AnfFacts2 ExamplesR.
Import ListNotations.
Open Scope R_scope.

(** In binary64: f(x0, x1) = |x0| + |x0| *)
Definition ex_abs2 : func spec_float :=
  AdvFn 2 1 (Let1 UAbs 0 (Let1 UAbs 0 (Let2 BAdd 2 3 (Ret [4]%nat)))).

(** | 3 x0 - |x1| | at (1, -2) over the reals: two nested abs, all hypotheses hold. *)
Lemma rx_pl_tape : exists t w', fn_tape Rops rx_pl [1; -2] world0 = Ok (t, w') /\ wf_tape t /\
  num_indeps t = 2%nat /\ num_deps t = 1%nat /\ num_abs t = 2%nat /\ NoDup (t_deps t) /\ abs_once t.
Proof.
  destruct (fn_tape Rops rx_pl [1; -2] world0) as [[t w']|p] eqn:E; [|exfalso; revert E; rtape; discriminate].
  destruct (fn_tape_wf Rops _ _ _ _ _ E) as ([W _] & _ & N).
  exists t, w'. split; [reflexivity|]. split; [exact W|]. split; [exact N|].
  revert E; rtape; intros [= <- _]. do 2 (split; [reflexivity|]).
  split; cbn; repeat constructor; cbn; intuition discriminate.
Qed.

Lemma rx_pl_anf : exists t N, anf_of t N /\ wf_tape t /\ num_abs t = 2%nat /\ num_indeps t = 2%nat.
Proof.
  destruct rx_pl_tape as (t & w' & _ & W & N1 & _ & N2 & _).
  destruct (anf_exists t W) as [N HN]. exists t, N. auto.
Qed.

(** Its L sub-tape, a tape without abs and with distinct outputs. *)
Lemma rx_pl_sub : exists t M, wf_tape t /\ no_abs t /\ NoDup (t_deps t) /\ represents t M /\
  num_indeps t = 2%nat /\ num_deps t = 2%nat /\ t_ops t <> [].
Proof.
  destruct (fn_tape Rops rx_pl [1; -2] world0) as [[t w']|p] eqn:E; [|exfalso; revert E; rtape; discriminate].
  destruct (fn_tape_wf Rops _ _ _ _ _ E) as ([W _] & _ & N).
  destruct (abs_args_ok t W) as (args & EA & LA).
  assert (abs_args t = Ok args /\ length (abs_ids t) = 2%nat /\ length args = 2%nat /\ NoDup args /\ t_ops t <> [])
    as (_ & L1 & L2 & ND & NE).
  { split; auto. revert E EA. rtape. intros [= <- _]. cbn. intros [= <-]. repeat split; auto.
    - repeat constructor; cbn; intuition discriminate.
    - discriminate. }
  pose proof (sub_l t W args EA) as SL.
  exists (mk_sub t (abs_ids t) args), (tmat (mk_sub t (abs_ids t) args)).
  assert (wf_tape (mk_sub t (abs_ids t) args)) as WS by (eapply sub_of_wf; eauto).
  assert (no_abs (mk_sub t (abs_ids t) args)) as NS by (eapply sub_no_abs; eauto).
  split; [auto|]. split; [auto|]. split; [auto|]. split; [apply represented; auto|].
  split; [auto|]. split; [auto|]. cbn. destruct (t_ops t); [congruence|discriminate].
Qed.
