(** Property theorems C102, derivatives of any order. *)
From Coq Require Import Reals Lra List Arith ZArith Bool.
From Verif Require Import Base Float Operation Tape AContext Methods Function Spec Instances FunctionFacts ReplayFacts RealInst DerivSpec DerivFacts2 LinearFacts
  Nested NestedSpec Nest NestSpec NestFacts NestMain NestExtra SamePath SameNest.
Import ListNotations.
Open Scope R_scope.

(** *** C102 AFloats nested to any depth compute the derivatives of any order of functions that are recorded alike
    near the point (C91 for these functions; [derivs], [point], [regular_n] as there). *)
Theorem C102_mixed_derivatives :
  forall (k : nat) (f : func R) (X ys : list (nest R (S k))),
  alike_near f (map (nval (S k)) X) -> regular_n k f X ->
  nest_eval Rops k f X = Ok ys ->
  length ys = length (outputs f (map (nval (S k)) X)) /\
  forall j y, nth_error ys j = Some y ->
    derivs (S k) y (fun e => nth j (outputs f (map (fun a => point (S k) a e) X)) 0).
Proof. exact alike_nest. Qed.
Print Assumptions C102_mixed_derivatives.

(** One input: the derivatives of f up to order S k. *)
Theorem C102_derivatives_of_one_input :
  forall (k : nat) (f : func R) (x : R) (y : nest R (S k)),
  alike_near f [x] -> regular_n k f [seed (S k) x] ->
  nest_eval Rops k f [seed (S k) x] = Ok [y] ->
  exists D : nat -> R -> R,
    (forall s, D O s = nth 0 (outputs f [s]) 0) /\ derivatives_at (S k) x D /\
    forall p, length p = S k -> comp (S k) p y = D (count p) x.
Proof. exact alike_one_input. Qed.
Print Assumptions C102_derivatives_of_one_input.

(** [let q = x * x; if x < q { [q] } else { [x] }] at 2 *)
Definition ex_square : func R :=
  Simple 1 1 (Let2 BMul 0 0 (Inspect 0 (fun a => Inspect 1 (fun b => if Rltb a b then Ret [1%nat] else Ret [0%nat])))).
Example C102_example_nested : forall k,
  alike_near ex_square [2] /\ regular_n k ex_square [seed (S k) 2] /\
  exists y, nest_eval Rops k ex_square [seed (S k) 2] = Ok [y].
Proof.
  intros k. assert (forall a b : R, a < b -> Rltb a b = true) as LT by (intros; now apply Rltb_true).
  assert (resolve_f Rops ex_square [2] = @Simple R 1 1 (Let2 BMul 0 0 (Ret [1%nat]))) as RS.
  { cbn -[Rltb]. rewrite LT by lra. reflexivity. }
  split; [|split].
  - assert (exists t w', fn_tape Rops ex_square [2] world0 = Ok (t, w')) as (t & w' & T).
    { rewrite fn_tape_resolve, RS. rtape. eauto. }
    exists 1. split; [lra|]. intros [|h [|? ?]] L N; try discriminate. cbn in N. pose proof (Rabs_def2 h 1 ltac:(lra)).
    eapply path_alike; [exact T|reflexivity|]. right. unfold same_path. rewrite RS. cbn -[Rltb]. rewrite LT by nra. reflexivity.
  - apply entire_regular. cbn -[Rltb]. split; auto. intros s1 s2. destruct (Rltb s1 s2); exact I.
  - rewrite <- (nest_eval_resolve k ex_square). cbn [map]. rewrite seed_val, RS, nest_eval_eq. eexists. reflexivity.
Qed.
