(** Example functions over the reals, and small witnesses, for Props2. *)
From Coq Require Import Reals Lra List Arith ZArith Bool Lia SpecFloat.
From Verif Require Import Base Float Operation Tape AContext Methods Function Spec Param
  Instances ApiFacts3 RealInst FloatInst DerivSpec DerivFacts LinearFacts DerivFacts2.
Import ListNotations.
Open Scope R_scope.

(** f(x0, x1) = (x0 / x1, ln x0 * x1) *)
Definition rx_f : func R :=
  AdvFn 2 2 (Let2 BDiv 0 1 (Let1 ULn 0 (Let2 BMul 3 1 (Ret [2; 4]%nat)))).

Lemma rx_f_regular : regular rx_f [2; 3].
Proof.
  intros ys P H. cbn in H. injection H as _ <-. cbn.
  repeat split; auto; try lra. intros y [= <-]. lra.
Qed.

(** f(x) = if x < 0 then -x else x * x, by inspecting the value *)
Definition rx_branch : func R :=
  Simple 1 1 (Inspect 0 (fun v => if Rlt_dec v 0 then Let1 UNeg 0 (Ret [1]%nat)
                                  else Let2 BMul 0 0 (Ret [1]%nat))).

Lemma rx_branch_near : same_branches_near rx_branch [1].
Proof.
  right. exists (/ 2). split; [lra|]. intros [|h [|? ?]] L Hh; try discriminate.
  cbn in Hh. unfold vadd; cbn. intros v1 v2 [= <-] [= <-].
  pose proof (Rabs_pos h). assert (Rabs h < / 2) as Hh' by lra. apply Rabs_def2 in Hh'.
  destruct (Rlt_dec 1 0), (Rlt_dec (1 + h) 0); try lra. split; auto; cbn; auto.
Qed.

Lemma rx_branch_regular : regular rx_branch [1].
Proof.
  intros ys P H. cbn in H. destruct (Rlt_dec 1 0); [lra|]. cbn in H. injection H as _ <-.
  cbn. auto.
Qed.

Lemma rx_branch_tape :
  fn_tape Rops rx_branch [1] world0
  = fn_tape Rops (Simple 1 1 (Let2 BMul 0 0 (Ret [1]%nat))) [1] world0.
Proof. unfold fn_tape, mbind. cbn. destruct (Rlt_dec 1 0); [lra|]. reflexivity. Qed.

(** f(x0, x1) = | 3 x0 - |x1| | *)
Definition rx_pl : func R :=
  AdvFn 2 1 (LetC 3 (Let2 BMul 2 0 (Let1 UAbs 1 (Let2 BSub 3 4 (Let1 UAbs 5 (Ret [6]%nat)))))).

Lemma rx_pl_affine : piecewise_affine rx_pl [1; -2].
Proof. intros ys P H. cbn in H. injection H as _ <-. cbn. auto 10. Qed.

(** f(x0, x1) = |sin x0| * x1 *)
Definition rx_ps : func R :=
  AdvFn 2 1 (Let1 USin 0 (Let1 UAbs 2 (Let2 BMul 3 1 (Ret [4]%nat)))).

Lemma rx_ps_regular : regular rx_ps [0; 3].
Proof. intros ys P H. cbn in H. injection H as _ <-. cbn. auto 10. Qed.

(** In binary64: f(x) = |x| and f(x) = (x, x) *)
Definition ex_abs : func spec_float := AdvFn 1 1 (Let1 UAbs 0 (Ret [1]%nat)).
Definition ex_dup : func spec_float := AdvFn 1 2 (Ret [0; 0]%nat).
Definition quarter : spec_float := f_div d64 (lit 1) (lit 4).
