(** Two threads computing jointly: an example schedule for C69. *)
From Coq Require Import List Arith ZArith Bool Lia SpecFloat.
From Verif Require Import Base Float Operation Tape AContext FloatInst Concurrent ConcSpec ConcMain JointSpec Props1 Props8.
Import ListNotations.

(** After the race of Props8.v, where thread 0 has added x and y while thread 1 has multiplied x
    by the constant 2, thread 0 subtracts the product from the sum and designates the difference a
    dependent variable; thread 1 takes the tape. *)
Definition ex_joint : list (nat * @move spec_float) :=
  ex_race ++ (0, DoOp Sub 3 (Some 4)) :: repeat (0, Go) 9 ++ (0, DoDep 0 5) :: repeat (0,Go) 4 ++
  (1, DoTape 0) :: repeat (1, Go) 12.
(** The state after [n] steps. *)
Definition after (n : nat) : sys spec_float spec_float :=
  match play d64 Some sys0 (firstn n ex_joint) with Some g => g | None => sys0 end.

Lemma after_ok n : play d64 Some sys0 (firstn n ex_joint) = Some (after n).
Proof.
  assert (exists g, play d64 Some sys0 ex_joint = Some g) as [g E].
  { assert (match play d64 Some sys0 ex_joint with Some _ => true | None => false end = true) as H by (vm_compute; reflexivity).
    destruct (play d64 Some sys0 ex_joint); [eauto|discriminate]. }
  unfold after. destruct (play d64 Some sys0 (firstn n ex_joint)) eqn:E1; [reflexivity|]. exfalso.
  rewrite <- (firstn_skipn n ex_joint) in E. revert E1 E. generalize (firstn n ex_joint), (skipn n ex_joint), (@sys0 spec_float spec_float).
  clear. intros l l'. induction l as [|[j m] l IH]; cbn; intros s E1 E; [discriminate|].
  destruct (step d64 Some s j m) as [s'|]; [|discriminate]. exact (IH s' E1 E).
Qed.
Lemma after_play n k : play d64 Some (after n) (firstn k (skipn n ex_joint)) = Some (after (n + k)).
Proof.
  rewrite <- (play_app d64 Some _ (firstn k (skipn n ex_joint)) _ _ (after_ok n)), <- (after_ok (n + k)). f_equal.
  generalize ex_joint. intros l. revert l. induction n as [|n IH]; intros l; [reflexivity|].
  destruct l; cbn; [now rewrite firstn_nil|]. now rewrite IH.
Qed.
Lemma after_reachable n : reachable d64 Some (after n).
Proof. eexists. apply after_ok. Qed.
Lemma after_later n k : later d64 Some (after n) (after (n + k)).
Proof. split; [apply after_reachable|]. eexists. apply after_play. Qed.

Lemma after_returns n i m k r : nth_error ex_joint n = Some (i, m) ->
  carries_on i (firstn k (skipn (n + 1) ex_joint)) ->
  t_code (g_thr (after (n + 1 + k)) i) = Some (Ret r) -> returns d64 Some (after n) i m r (after (n + 1 + k)).
Proof.
  intros E C H. split; [apply after_reachable|]. exists (after (n + 1)), (firstn k (skipn (n + 1) ex_joint)).
  split; [|split; [exact C|]; split; [apply after_play|exact H]].
  pose proof (after_play n 1) as P.
  assert (firstn 1 (skipn n ex_joint) = [(i, m)]) as E1.
  { revert E. generalize ex_joint. clear. induction n as [|n IH]; intros [|p l]; cbn; try discriminate; [congruence|]. apply IH. }
  rewrite E1 in P. cbn in P. destruct (step d64 Some (after n) i m); congruence.
Qed.

Ltac carries := repeat constructor; cbn; try discriminate; try (intros; discriminate); auto.
Ltac a_call := apply after_returns; [reflexivity|carries|vm_compute; reflexivity].

Definition ex_x := mkAF (lit 2) (lit 0) (Some (1, 0)).
Definition ex_y := mkAF (lit 2) (lit 0) (Some (1, 1)).
Definition ex_sum := mkAF (lit 4) (lit 0) (Some (1, 2)).
Definition ex_prod := mkAF (lit 4) (lit 0) (Some (1, 4)).
Definition ex_diff := mkAF (lit 0) (lit 0) (Some (1, 5)).
Definition ex_expr : expr spec_float :=
  EOp2 Sub (EOp2 Add (EIndep 0) (EIndep 1)) (EOp2 Mul (EIndep 0) (EConst (lit 2))).

Lemma ex_computed : computed d64 Some (after 58) ex_diff ex_expr.
Proof.
  assert (computed d64 Some (after (8 + 1 + 3)) ex_x (EIndep 0)) as X.
  { eapply co_indep with (i := 0) (a := 0) (n := 0) (c := 1); [|reflexivity]. a_call. }
  assert (computed d64 Some (after (20 + 1 + 3)) ex_y (EIndep 1)) as Y.
  { eapply co_indep with (i := 1) (a := 0) (n := 0) (c := 1); [|reflexivity]. a_call. }
  assert (computed d64 Some (after (25 + 1 + 14)) ex_sum (EOp2 Add (EIndep 0) (EIndep 1))) as Z1.
  { eapply co_op2 with (i := 0) (n1 := 1) (n2 := 2) (x1 := ex_x) (x2 := ex_y) (c := 1) (g := after 25);
      [vm_compute; reflexivity|vm_compute; reflexivity| | |a_call|reflexivity].
    - eapply co_later; [exact X|]. apply (after_later 12 13).
    - eapply co_later; [exact Y|]. apply (after_later 24 1). }
  assert (computed d64 Some (after (26 + 1 + 20)) ex_prod (EOp2 Mul (EIndep 0) (EConst (lit 2)))) as Z2.
  { eapply co_op2 with (i := 1) (n1 := 1) (n2 := 0) (x1 := ex_x) (x2 := mkAF (lit 2) (lit 0) None) (c := 1) (g := after 26);
      [vm_compute; reflexivity|vm_compute; reflexivity| | |a_call|reflexivity].
    - eapply co_later; [exact X|]. apply (after_later 12 14).
    - apply co_const. }
  assert (computed d64 Some (after (48 + 1 + 8)) ex_diff ex_expr) as Z3.
  { eapply co_op2 with (i := 0) (n1 := 3) (n2 := 4) (x1 := ex_sum) (x2 := ex_prod) (c := 1) (g := after 48);
      [vm_compute; reflexivity|vm_compute; reflexivity| | |a_call|reflexivity].
    - eapply co_later; [exact Z1|]. apply (after_later 40 8).
    - eapply co_later; [exact Z2|]. apply (after_later 47 1). }
  eapply co_later; [exact Z3|]. apply (after_later 57 1).
Qed.
Lemma ex_designated : nth_error (g_vars (after 58)) 5 = Some ex_diff /\
  returns d64 Some (after 58) 0 (DoDep 0 5) RUnit (after (58 + 1 + 3)).
Proof. split; [vm_compute; reflexivity|]. a_call. Qed.
Lemma ex_tape : exists t, returns d64 Some (after 63) 1 (DoTape 0) (RTape t) (after (63 + 1 + 12)) /\
  num_indeps t = 2 /\ length (t_ops t) = 4 /\ t_deps t = [5].
Proof. eexists. split; [apply after_returns; [reflexivity|carries|vm_compute; reflexivity]|]. repeat split. Qed.
