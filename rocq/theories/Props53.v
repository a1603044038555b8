(** Property theorems C101 for chains: functions as they are written, one after the other. *)
From Coq Require Import Reals Lra List Arith ZArith Bool SpecFloat.
From Verif Require Import Base Float Operation Tape AContext Methods Function Instances FloatInst Examples FunctionFacts RealInst DerivSpec LinearFacts ReplayFacts DerivFacts2 Matrix MatrixFacts Jacobian JacobianFacts
  Source SourceSpec SourceFacts SourceMain SourceDeriv SamePath SourceChain ChainDeriv.
Import ListNotations.
Open Scope R_scope.

(** *** C101 [Chain (links conv n fs)]: the chain of the functions [fs], the first with n inputs;
    [plain_chain]: what they compute on plain numbers one after the other, and the outcomes of the tests.
    Calling the chain executes the statements of the functions one function after the other. *)
Theorem C101_chain_executes :
  forall (F D : Type) (Fo : Fops F) (conv : D -> F) (fs : list (source F D)) (x : list (AF F)) (w : world F) y w',
  x_chain Fo conv (from_op Fo Some) (af_const Fo) af_v fs x w = Ok (y, w') <->
  eval Fo (Chain (links conv (length x) fs)) x w = Ok (y, w').
Proof. exact @chain_executes. Qed.
Print Assumptions C101_chain_executes.

(** The chain evaluates to the composition ... *)
Theorem C101_chain_evaluates :
  forall (F D : Type) (Fo : Fops F) (conv : D -> F) (fs : list (source F D)) (x : list F) (w : world F) (z : list F),
  eval_float Fo (Chain (links conv (length x) fs)) x w = Ok (z, w) <-> exists ds, plain_chain Fo conv fs x = Some (z, ds).
Proof. exact @chain_evaluates. Qed.
Print Assumptions C101_chain_evaluates.

(** ... is recorded exactly where that is defined ... *)
Theorem C101_chain_records :
  forall (F D : Type) (Fo : Fops F) (conv : D -> F) (fs : list (source F D)) (x : list F) (w : world F),
  (exists t w', fn_tape Fo (Chain (links conv (length x) fs)) x w = Ok (t, w')) <->
  (exists z ds, plain_chain Fo conv fs x = Some (z, ds)).
Proof. exact @chain_records. Qed.
Print Assumptions C101_chain_records.

(** ... and replayed correctly where all tests of all functions come out the same. *)
Theorem C101_chain_replays :
  forall (F D : Type) (Fo : Fops F) (conv : D -> F) (fs : list (source F D)) (x x' z z' : list F) (ds : list (list bool)) (w : world F),
  length x' = length x -> plain_chain Fo conv fs x = Some (z, ds) -> plain_chain Fo conv fs x' = Some (z', ds) ->
  exists t w' t', fn_tape Fo (Chain (links conv (length x) fs)) x w = Ok (t, w') /\ tape_y t = Ok z /\
    tape_zero_order Fo t x' = Ok t' /\ tape_y t' = Ok z'.
Proof. exact @chain_replays. Qed.
Print Assumptions C101_chain_replays.

(** In exact arithmetic its forward sweeps are the derivatives of the composition. *)
Theorem C101_chain_derivative :
  forall (D : Type) (conv : D -> R) (fs : list (source R D)) (x : list R) (w : world R) (t : tape R) (w' : world R),
  fn_tape Rops (Chain (links conv (length x) fs)) x w = Ok (t, w') -> chain_decided_near conv fs x ->
  chain_in_domains conv fs x -> no_abs t ->
  forall dx, length dx = length x ->
  exists dy, tape_forward Rops t dx = Ok dy /\ length dy = length (chain_results conv fs x) /\
    forall k, (k < length dy)%nat -> derivable_pt_lim (fun s => nth k (chain_results conv fs (vadd x (vscal s dx))) 0) 0 (nth k dy 0).
Proof. exact @chain_derivative. Qed.
Print Assumptions C101_chain_derivative.

(** The drivers return the Jacobian of the composition. *)
Theorem C101_chain_jacobians :
  forall (D : Type) (conv : D -> R) red1 red2 (fs : list (source R D)) (x : list R) (w : world R) (t : tape R) (w' : world R),
  rayon red1 -> rayon red2 -> fs <> [] ->
  fn_tape Rops (Chain (links conv (length x) fs)) x w = Ok (t, w') -> chain_decided_near conv fs x ->
  chain_in_domains conv fs x -> no_abs t ->
  exists J, jacobian_forward Rops red1 (Chain (links conv (length x) fs)) x w = Ok J /\
    (NoDup (t_deps t) -> jacobian_reverse Rops red2 t = Ok J) /\
    m_rows J = length (chain_results conv fs x) /\ m_cols J = length x /\
    forall i j, (i < length (chain_results conv fs x))%nat -> (j < length x)%nat ->
      derivable_pt_lim (fun s => nth i (chain_results conv fs (update x j (nth j x 0 + s))) 0) 0 (ent Rops J i j).
Proof. exact @chain_jacobians. Qed.
Print Assumptions C101_chain_jacobians.

(** [if a < b { a *= b } else { a -= b }; [a, b]], then [if a < 10.0 { a = 1.0 / a }; [a]] *)
Definition ex_links {F} (Fo : Fops F) (one ten : F) : list (source F F) :=
  [(XIf [0; 1]%nat (fun l => match l with [a; b] => f_ltb Fo a b | _ => false end) (XOp OMul 0 (XVar 1)) (XOp OSub 0 (XVar 1)), [0; 1]%nat);
   (XIf [0]%nat (fun l => match l with [a] => f_ltb Fo a ten | _ => false end) (XAssign 0 (XLeft ODiv one (XVar 0))) XSkip, [0]%nat)].

Example C101_chain_example :
  plain_chain d64 (fun c => c) (ex_links d64 (lit 1) (lit 10)) [lit 1; lit 2] = Some ([f_div d64 (lit 1) (lit 2)], [[true]; [true]]) /\
  plain_chain d64 (fun c => c) (ex_links d64 (lit 1) (lit 10)) [lit 2; lit 4] = Some ([f_div d64 (lit 1) (lit 8)], [[true]; [true]]) /\
  plain_chain d64 (fun c => c) (ex_links d64 (lit 1) (lit 10)) [lit 3; lit 4] = Some ([lit 12], [[true]; [false]]).
Proof. repeat split; vm_compute; reflexivity. Qed.

Lemma ex_links_plain a b : a < b -> a * b < 10 -> plain_chain Rops (fun c => c) (ex_links Rops 1 10) [a; b] = Some ([1 / (a * b)], [[true]; [true]]).
Proof.
  intros H1 H2. unfold plain_chain, ex_links, plain. cbn -[Rltb]. rewrite (proj2 (Rltb_true a b) H1). cbn -[Rltb].
  rewrite (proj2 (Rltb_true (a * b) 10) H2). reflexivity.
Qed.
Example C101_chain_example_derivative :
  chain_decided_near (fun c => c) (ex_links Rops 1 10) [1; 3] /\ chain_in_domains (fun c => c) (ex_links Rops 1 10) [1; 3] /\
  exists t w', fn_tape Rops (Chain (links (fun c => c) 2 (ex_links Rops 1 10))) [1; 3] world0 = Ok (t, w') /\ no_abs t /\ NoDup (t_deps t).
Proof.
  assert (Rltb 1 3 = true) as T1 by (apply Rltb_true; lra). assert (Rltb (1 * 3) 10 = true) as T2 by (apply Rltb_true; lra).
  split; [|split].
  - exists [[true]; [true]], 1. split; [lra|]. intros [|h1 [|h2 [|? ?]]] L N; try discriminate. cbn in N.
    pose proof (Rabs_pos h1). pose proof (Rabs_pos h2).
    pose proof (Rabs_def2 h1 1 ltac:(lra)). pose proof (Rabs_def2 h2 1 ltac:(lra)).
    eexists. apply ex_links_plain; cbn [fst snd]; [lra|]. apply Rlt_trans with (2 * (3 + h2)); [apply Rmult_lt_compat_r|]; lra.
  - intros ys P. unfold x_chain, x_run, ex_links. cbn -[Rltb]. unfold mbind, mret. cbn -[Rltb]. rewrite T1. cbn -[Rltb].
    unfold leave, mbind. cbn -[Rltb]. rewrite T2. cbn. intros [= <- <-]. repeat split. intros y [= <-]. lra.
  - rewrite fn_tape_resolve.
    replace (resolve_f Rops (Chain (links (fun c => c) 2 (ex_links Rops 1 10))) [1; 3])
      with (@Chain R [AdvFn 2 2 (Let2 BMul 0 1 (Ret [2; 1]%nat)); AdvFn 2 1 (LetC 1 (Let2 BDiv 2 0 (Ret [3]%nat)))]).
    { rtape. eexists _, _. split; [reflexivity|]. split; [reflexivity|]. repeat constructor. cbn. tauto. }
    unfold ex_links, links, written, translate. cbn -[Rltb v_eval]. rewrite T1. unfold v_eval. cbn -[Rltb]. unfold mbind, mret, mlift. cbn -[Rltb]. rewrite T1. cbn -[Rltb]. unfold mbind, mret, mlift. cbn -[Rltb]. rewrite T2. reflexivity.
Qed.
