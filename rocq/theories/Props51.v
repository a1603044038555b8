(** Property theorem C101, derivatives. *)
From Coq Require Import Reals Lra List Arith ZArith Bool.
From Verif Require Import Base Float Operation Tape AContext Methods Function Instances RealInst DerivSpec LinearFacts ReplayFacts DerivFacts2 Matrix MatrixFacts Jacobian JacobianFacts
  Source SourceSpec SourceFacts SourceMain SourceDeriv.
Import ListNotations.
Open Scope R_scope.

(** *** C101 In exact arithmetic, where all tests come out alike in a neighbourhood and no operation is at
    the border of its domain, forward sweeps give the directional derivatives of the function. *)
Theorem C101_derivative :
  forall (D : Type) (conv : D -> R) (f : source R D) (x y : list R) (d : list bool) (w : world R) (t : tape R) (w' : world R),
  plain Rops conv f x = Some (y, d) -> decided_near conv f x d -> in_domains conv f x ->
  fn_tape Rops (written conv (length x) f) x w = Ok (t, w') -> no_abs t ->
  forall dx, length dx = length x ->
  exists dy, tape_forward Rops t dx = Ok dy /\ length dy = length y /\
    forall k, (k < length y)%nat -> derivable_pt_lim (fun s => nth k (results conv f (vadd x (vscal s dx))) 0) 0 (nth k dy 0).
Proof. exact @source_derivative. Qed.
Print Assumptions C101_derivative.

(** The drivers return the Jacobian of the function as written. *)
Theorem C101_jacobians :
  forall (D : Type) (conv : D -> R) red1 red2 (f : source R D) (x y : list R) (d : list bool) (w : world R) (t : tape R) (w' : world R),
  rayon red1 -> rayon red2 ->
  plain Rops conv f x = Some (y, d) -> decided_near conv f x d -> in_domains conv f x ->
  fn_tape Rops (written conv (length x) f) x w = Ok (t, w') -> no_abs t ->
  exists J, jacobian_forward Rops red1 (written conv (length x) f) x w = Ok J /\
    (NoDup (t_deps t) -> jacobian_reverse Rops red2 t = Ok J) /\
    m_rows J = length y /\ m_cols J = length x /\
    forall i j, (i < length y)%nat -> (j < length x)%nat ->
      derivable_pt_lim (fun s => nth i (results conv f (update x j (nth j x 0 + s))) 0) 0 (ent Rops J i j).
Proof. exact @source_jacobians. Qed.
Print Assumptions C101_jacobians.

(** [let mut s = x; while s < 5.0 { s *= x; } [1.0 / s]] at 2 *)
Definition ex_power : source R R :=
  (XSeq (XLet (XVar 0))
  (XSeq (XWhile 9 [1%nat] (fun l => match l with [s] => Rltb s 5 | _ => false end) (XOp OMul 1 (XVar 0)))
        (XAssign 1 (XLeft ODiv 1 (XVar 1)))), [1%nat]).
Lemma ex_power_plain x : 15 / 8 < x < 17 / 8 -> plain Rops (fun c => c) ex_power [x] = Some ([1 / (x * x * x)], [true; true; false]).
Proof.
  intros H. assert (225 / 64 < x * x < 289 / 64) by nra. assert (5 < x * x * x) by nra.
  assert (Rltb x 5 = true) as T1 by (apply Rltb_true; lra). assert (Rltb (x * x) 5 = true) as T2 by (apply Rltb_true; lra).
  assert (Rltb (x * x * x) 5 = false) as T3 by (apply Rltb_false; lra).
  unfold plain, ex_power. cbn -[Rltb]. rewrite T1. cbn -[Rltb]. rewrite T2. cbn -[Rltb]. rewrite T3. reflexivity.
Qed.
Example C101_example_derivative :
  (exists y, plain Rops (fun c => c) ex_power [2] = Some (y, [true; true; false])) /\
  decided_near (fun c => c) ex_power [2] [true; true; false] /\ in_domains (fun c => c) ex_power [2] /\
  exists t w', fn_tape Rops (written (fun c => c) 1 ex_power) [2] world0 = Ok (t, w') /\ no_abs t /\ NoDup (t_deps t).
Proof.
  assert (Rltb 2 5 = true) as T1 by (apply Rltb_true; lra). assert (Rltb (2 * 2) 5 = true) as T2 by (apply Rltb_true; lra).
  assert (Rltb (2 * 2 * 2) 5 = false) as T3 by (apply Rltb_false; lra).
  split; [eexists; apply ex_power_plain; lra|]. split; [|split].
  - exists (1 / 8). split; [lra|]. intros [|h [|? ?]] L N; try discriminate. eexists. cbn in N.
    pose proof (Rabs_def2 h (1 / 8) ltac:(lra)). apply ex_power_plain. cbn. lra.
  - intros ys P. unfold x_run, ex_power. cbn -[Rltb]. unfold mbind, mret. cbn -[Rltb]. rewrite T1. cbn -[Rltb].
    unfold leave, mbind. cbn -[Rltb]. rewrite T2. cbn -[Rltb]. rewrite T3. cbn. intros [= <- <-].
    repeat split. intros y [= <-]. lra.
  - rewrite fn_tape_resolve.
    replace (resolve_f Rops (written (fun c => c) 1 ex_power) [2])
      with (AdvFn 1 1 (Let2 BMul 0 0 (Let2 BMul 1 0 (LetC 1 (Let2 BDiv 3 2 (Ret [4%nat])))))).
    { rtape. eexists _, _. split; [reflexivity|]. split; [reflexivity|]. repeat constructor. cbn. tauto. }
    unfold written, ex_power. cbn -[Rltb]. rewrite T1. cbn -[Rltb]. rewrite T2. cbn -[Rltb]. rewrite T3. reflexivity.
Qed.
