(** Increments of |x| at two points on different sides of the kink. *)
From Coq Require Import Reals Lra List Arith ZArith Bool Lia.
From Verif Require Import Base Float Operation Tape AContext Methods Function Spec RealInst Instances
  DerivSpec DerivFacts2 ExamplesR.
Import ListNotations.
Open Scope R_scope.

(** f(x) = |x| *)
Definition rx_abs : func R := AdvFn 1 1 (Let1 UAbs 0 (Ret [1]%nat)).

Lemma abs_increment x h : exists t w', fn_tape Rops rx_abs [x] world0 = Ok (t, w') /\
  tape_forward Rops t [h] = Ok [Rabs (x + h) - Rabs x].
Proof.
  rtape. eexists _, _. split; [reflexivity|]. cbn. reflexivity.
Qed.

Lemma increments_jump K d : 0 < d -> exists x1 x2 h t1 w1 t2 w2 a b,
    Rabs x1 < d /\ Rabs x2 < d /\ Rabs h < d /\
    fn_tape Rops rx_abs [x1] world0 = Ok (t1, w1) /\ fn_tape Rops rx_abs [x2] world0 = Ok (t2, w2) /\
    tape_forward Rops t1 [h] = Ok [a] /\ tape_forward Rops t2 [h] = Ok [b] /\
    K * Rabs (x1 - x2) * Rabs h < Rabs (a - b).
Proof.
  intros Hd. pose proof (Rabs_pos K) as Kp.
  assert (0 <= d * Rabs K) as Hk by (apply Rmult_le_pos; lra).
  set (e := d / (2 * (1 + d * Rabs K))).
  assert (0 < e) as He by (apply Rdiv_lt_0_compat; lra).
  assert (e * (2 * (1 + d * Rabs K)) = d) as Ee by (unfold e; field; lra).
  assert (0 <= e * (d * Rabs K)) as P1 by (apply Rmult_le_pos; lra).
  assert (e < d) as Hed by lra.
  assert (K * e < 1) as Hke.
  { assert (K * e <= Rabs K * e) as A by (apply Rmult_le_compat_r; [lra|apply Rle_abs]).
    assert (Rabs K * e < 1) as B.
    { unfold e. unfold Rdiv. rewrite <- Rmult_assoc.
      apply (Rmult_lt_reg_r (2 * (1 + d * Rabs K))); [lra|].
      rewrite Rmult_assoc, Rinv_l by lra. lra. }
    lra. }
  destruct (abs_increment e e) as (t1 & w1 & T1 & F1).
  destruct (abs_increment (- e) e) as (t2 & w2 & T2 & F2).
  exists e, (- e), e, t1, w1, t2, w2, (Rabs (e + e) - Rabs e), (Rabs (- e + e) - Rabs (- e)).
  rewrite Rabs_Ropp, (Rabs_right e) by lra.
  repeat (split; [solve [auto]|]).
  split; [rewrite F1, (Rabs_right e) by lra; reflexivity|]. split.
  { rewrite F2. rewrite Rabs_Ropp, (Rabs_right e) by lra. reflexivity. }
  replace (- e + e) with 0 by lra. rewrite Rabs_R0, (Rabs_right (e + e)) by lra.
  rewrite !Rabs_right by lra.
  assert (K * e * (2 * e) < 1 * (2 * e)) as A by (apply Rmult_lt_compat_r; lra).
  replace (K * (e - - e) * e) with (K * e * (2 * e)) by ring. lra.
Qed.
