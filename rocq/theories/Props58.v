(** Property theorems C103, chains of functions whose decisions are not on a boundary. *)
From Coq Require Import Reals Lra List Arith ZArith Bool.
From Verif Require Import Base Float Operation Tape AContext Methods Function Spec Instances FunctionFacts ReplayFacts RealInst DerivSpec DerivFacts2 LinearFacts
  Matrix Jacobian JacobianFacts SourceSpec DecideSpec SamePath DecideMain DecideChainSpec DecideChain.
Import ListNotations.
Open Scope R_scope.

(** *** C103 The same for all functions, also (nested) chains: it is enough that each function of the chain decides stably
    at the values it gets from the one before it ([stable_f], DecideChainSpec.v). *)
Theorem C103_chain_stable_decisions :
  forall (f : func R) (x : list R) (w : world R) (t : tape R) (w' : world R),
  fn_tape Rops f x w = Ok (t, w') -> regular f x -> stable_f f x -> alike_near f x.
Proof. exact stable_f_alike. Qed.
Print Assumptions C103_chain_stable_decisions.

(** So forward sweeps give derivatives, *)
Theorem C103_chain_derivative :
  forall (f : func R) (x : list R) (w : world R) (t : tape R) (w' : world R),
  fn_tape Rops f x w = Ok (t, w') -> regular f x -> stable_f f x -> no_abs t ->
  forall dx, length dx = length x ->
  exists dy, tape_forward Rops t dx = Ok dy /\ length dy = length (outputs f x) /\
    forall k, (k < length dy)%nat ->
      derivable_pt_lim (fun s => nth k (outputs f (vadd x (vscal s dx))) 0) 0 (nth k dy 0).
Proof. exact stable_f_derivative. Qed.
Print Assumptions C103_chain_derivative.

(** ... and both drivers the Jacobian. *)
Theorem C103_chain_jacobians :
  forall red1 red2 (n m : nat) (f : func R) (x : list R) (w : world R) (t : tape R) (w' : world R),
  rayon red1 -> rayon red2 -> fn_n f = Ok n -> fn_m f = Ok m -> length x = n ->
  fn_tape Rops f x w = Ok (t, w') -> num_deps t = m ->
  regular f x -> stable_f f x -> no_abs t ->
  exists J, jacobian_forward Rops red1 f x w = Ok J /\
    (NoDup (t_deps t) -> jacobian_reverse Rops red2 t = Ok J) /\
    m_rows J = m /\ m_cols J = n /\
    forall i j, (i < m)%nat -> (j < n)%nat ->
      derivable_pt_lim (fun s => nth i (outputs f (update x j (nth j x 0 + s))) 0) 0 (ent Rops J i j).
Proof. exact stable_f_jacobians. Qed.
Print Assumptions C103_chain_jacobians.

(** [|x| [x[0] * x[1]]] followed by [|y| if y[0] < 5.0 { [y[0]] } else { [y[0].exp()] }], at (2, 3): compares 6 with 5 *)
Definition ex_links : func R :=
  Chain [AdvFn 2 1 (Let2 BMul 0 1 (Ret [2%nat])); Simple 1 1 (LetC 5 (compare 0 1 (Ret [0%nat]) (Let1 UExp 0 (Ret [2%nat]))))].
Example C103_chain_example :
  stable_f ex_links [2; 3] /\ regular ex_links [2; 3] /\ fn_n ex_links = Ok 2%nat /\ fn_m ex_links = Ok 1%nat /\
  exists t w', fn_tape Rops ex_links [2; 3] world0 = Ok (t, w') /\ no_abs t /\ num_deps t = 1%nat /\ NoDup (t_deps t).
Proof.
  assert (Rltb (2 * 3) 5 = false) as LT by (destruct (Rltb (2 * 3) 5) eqn:E; auto; apply Rltb_true in E; lra).
  assert (resolve_f Rops ex_links [2; 3] = @Chain R [AdvFn 2 1 (Let2 BMul 0 1 (Ret [2%nat])); Simple 1 1 (LetC 5 (Let1 UExp 0 (Ret [2%nat])))]) as RS.
  { cbn -[Rltb]. rewrite LT. unfold v_eval. cbn -[Rltb]. rewrite LT. reflexivity. }
  split; [|split; [|split; [reflexivity|split; [reflexivity|]]]].
  - cbn [stable_f ex_links]. split; [constructor; intros; constructor|]. split; [|exact I].
    assert (outputs (AdvFn 2 1 (Let2 BMul 0 1 (Ret [2%nat]))) [2; 3] = [2 * 3]) as -> by reflexivity.
    constructor. eapply compare_stable; [reflexivity|reflexivity|lra|]. rewrite LT. constructor. intros. constructor.
  - intros ys P H. unfold ex_links, compare in H. cbn -[Rltb] in H. unfold mbind in H. cbn -[Rltb] in H. rewrite LT in H. cbn in H. injection H as _ <-. cbn. auto 10.
  - rewrite fn_tape_resolve, RS. rtape. do 2 eexists. split; [reflexivity|]. split; [reflexivity|]. split; [reflexivity|].
    repeat constructor; cbn; intuition discriminate.
Qed.
