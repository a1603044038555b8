(** Property theorems C103: functions whose decisions are not on a boundary. *)
From Coq Require Import Reals Lra List Arith ZArith Bool.
From Verif Require Import Base Float Operation Tape AContext Methods Function Spec Instances FunctionFacts ReplayFacts RealInst DerivSpec DerivFacts2 LinearFacts
  Matrix Jacobian JacobianFacts SourceSpec DecideSpec SamePath DecideMain.
Import ListNotations.
Open Scope R_scope.

(** *** C103 Whether the derivatives of a function with branches can be trusted at x is decided at x alone: it is enough
    that wherever the function looks at values at x, it would go on in the same way with all values near these
    ([stable], DecideSpec.v).  Then it is recorded alike at all points near x, and everything in C102 applies. *)
Theorem C103_stable_decisions :
  forall (n m : nat) (p : prog R) (f : func R) (x : list R) (w : world R) (t : tape R) (w' : world R),
  f = Simple n m p \/ f = AdvFn n m p ->
  fn_tape Rops f x w = Ok (t, w') -> regular f x -> stable p x -> alike_near f x.
Proof. exact stable_alike. Qed.
Print Assumptions C103_stable_decisions.

(** Comparisons of different values are such decisions: [if v_i < v_j { p } else { q }] with v_i <> v_j. *)
Theorem C103_comparisons :
  forall (i j : nat) (p q : prog R) (vs : list R) (a b : R),
  nth_error vs i = Some a -> nth_error vs j = Some b -> a <> b ->
  stable (if Rltb a b then p else q) vs -> stable (compare i j p q) vs.
Proof. exact compare_stable. Qed.
Print Assumptions C103_comparisons.

(** So forward sweeps give derivatives, with hypotheses about the point x only, *)
Theorem C103_derivative :
  forall (n m : nat) (p : prog R) (f : func R) (x : list R) (w : world R) (t : tape R) (w' : world R),
  f = Simple n m p \/ f = AdvFn n m p ->
  fn_tape Rops f x w = Ok (t, w') -> regular f x -> stable p x -> no_abs t ->
  forall dx, length dx = length x ->
  exists dy, tape_forward Rops t dx = Ok dy /\ length dy = length (outputs f x) /\
    forall k, (k < length dy)%nat ->
      derivable_pt_lim (fun s => nth k (outputs f (vadd x (vscal s dx))) 0) 0 (nth k dy 0).
Proof. exact stable_derivative. Qed.
Print Assumptions C103_derivative.

(** ... and both drivers the Jacobian. *)
Theorem C103_jacobians :
  forall red1 red2 (n m : nat) (p : prog R) (f : func R) (x : list R) (w : world R) (t : tape R) (w' : world R),
  rayon red1 -> rayon red2 -> f = Simple n m p \/ f = AdvFn n m p -> length x = n ->
  fn_tape Rops f x w = Ok (t, w') -> num_deps t = m ->
  regular f x -> stable p x -> no_abs t ->
  exists J, jacobian_forward Rops red1 f x w = Ok J /\
    (NoDup (t_deps t) -> jacobian_reverse Rops red2 t = Ok J) /\
    m_rows J = m /\ m_cols J = n /\
    forall i j, (i < m)%nat -> (j < n)%nat ->
      derivable_pt_lim (fun s => nth i (outputs f (update x j (nth j x 0 + s))) 0) 0 (ent Rops J i j).
Proof. exact stable_jacobians. Qed.
Print Assumptions C103_jacobians.

(** With a tie the derivative can be wrong although the function is smooth: x * x with a special case for 1. *)
Theorem C103_tie_refuted :
  exists t w', fn_tape Rops ex_special [1] world0 = Ok (t, w') /\ regular ex_special [1] /\ no_abs t /\
    (forall s, outputs ex_special [s] = [s * s]) /\ tape_forward Rops t [1] = Ok [0] /\
    derivable_pt_lim (fun s => nth 0 (outputs ex_special (vadd [1] (vscal s [1]))) 0) 0 2.
Proof. exact special_wrong. Qed.
Print Assumptions C103_tie_refuted.

(** [let s = x[0] * x[1]; if x[0] < s { [s.sin()] } else { [x[0]] }] at (2, 3), which compares 2 with 6 *)
Definition ex_product : prog R := Let2 BMul 0 1 (compare 0 2 (Let1 USin 2 (Ret [3%nat])) (Ret [0%nat])).
Example C103_example :
  stable ex_product [2; 3] /\ regular (AdvFn 2 1 ex_product) [2; 3] /\
  exists t w', fn_tape Rops (AdvFn 2 1 ex_product) [2; 3] world0 = Ok (t, w') /\ no_abs t /\ num_deps t = 1%nat /\ NoDup (t_deps t).
Proof.
  assert (forall a b : R, a < b -> Rltb a b = true) as LT by (intros; now apply Rltb_true).
  assert (resolve_f Rops (AdvFn 2 1 ex_product) [2; 3] = @AdvFn R 2 1 (Let2 BMul 0 1 (Let1 USin 2 (Ret [3%nat])))) as RS.
  { cbn -[Rltb]. rewrite LT by lra. reflexivity. }
  split; [|split].
  - constructor. cbn. intros a b r [= <-] [= <-] [= <-]. eapply C103_comparisons; [reflexivity|reflexivity|lra|].
    rewrite LT by lra. constructor. intros. constructor.
  - intros ys P H. unfold ex_product, compare in H. cbn -[Rltb] in H. unfold mbind in H. cbn -[Rltb] in H. rewrite LT in H by (cbn; lra). cbn in H. injection H as _ <-. cbn. auto 10.
  - rewrite fn_tape_resolve, RS. rtape. do 2 eexists. split; [reflexivity|]. split; [reflexivity|]. split; [reflexivity|].
    repeat constructor; cbn; intuition discriminate.
Qed.
