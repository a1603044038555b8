(** Property theorems C93: the chain rule. *)
From Coq Require Import Reals Lra List Arith ZArith Bool Lia.
From Verif Require Import Base Float Operation Tape AContext Methods Function Spec Param
  Instances RealInst DerivSpec DerivFacts2 LinearFacts Matrix Jacobian JacobianFacts AnfSpec ExamplesR ChainFacts ChainRuleSpec ChainRule.
Import ListNotations.

(** *** C93 Sweeps on the tape of a chain compose, Jacobians multiply.
    [links Fo fs x ts y]: [ts] are the tapes of the functions [fs], each recorded at the values the ones
    before it return.  [push], [pull]: forward sweeps on all of them, first to last; reverse sweeps, last to
    first.  [fn_iter] is iter(): the functions the chain is made of.

    Whenever the chain can be recorded, its functions can be recorded one after the other. *)
Theorem C93_parts_can_be_recorded :
  forall (F : Type) (Fo : Fops F) (c : func F) (x : list F) (w : world F) (t : tape F) (w' : world F),
  fn_tape Fo c x w = Ok (t, w') -> exists ts y, links Fo (fn_iter c) x ts y /\ tape_y t = Ok y.
Proof. exact @links_of_chain. Qed.
Print Assumptions C93_parts_can_be_recorded.

(** Forward, over the reals, functions with abs included. *)
Theorem C93_forward :
  forall (c : func R) (x : list R) (w : world R) (t : tape R) (w' : world R) (ts : list (tape R)) (y dx : list R),
  fn_tape Rops c x w = Ok (t, w') -> links Rops (fn_iter c) x ts y -> length dx = length x ->
  exists dy, tape_forward Rops t dx = Ok dy /\ push Rops ts dx = Ok dy.
Proof. exact chain_forward_R. Qed.
Print Assumptions C93_forward.

(** Forward, in every arithmetic, bit for bit, if no function passes a nonzero tangent through a constant. *)
Theorem C93_forward_any_arithmetic :
  forall (F : Type) (Fo : Fops F) (c : func F) (x : list F) (w : world F) (t : tape F) (w' : world F)
         (ts : list (tape F)) (y dx : list F),
  fn_tape Fo c x w = Ok (t, w') -> links Fo (fn_iter c) x ts y -> length dx = length x ->
  const_tangents_zero Fo c x dx -> steady Fo (fn_iter c) ts x dx ->
  exists dy, tape_forward Fo t dx = Ok dy /\ push Fo ts dx = Ok dy.
Proof. exact @chain_forward. Qed.
Print Assumptions C93_forward_any_arithmetic.

Open Scope R_scope.

(** Reverse. *)
Theorem C93_reverse :
  forall (c : func R) (x : list R) (w : world R) (t : tape R) (w' : world R) (ts : list (tape R)) (y ybar : list R),
  fn_tape Rops c x w = Ok (t, w') -> links Rops (fn_iter c) x ts y -> length ybar = length y ->
  no_abs t -> NoDup (t_deps t) -> Forall no_abs ts -> Forall (fun t => NoDup (t_deps t)) ts ->
  exists xbar, tape_reverse Rops t ybar = Ok xbar /\ pull Rops ts ybar = Ok xbar.
Proof. exact chain_reverse. Qed.
Print Assumptions C93_reverse.

(** Jacobians; [mm] is the matrix product.  Only the second function must not call abs. *)
Theorem C93_jacobians_multiply :
  forall red (f g : func R) (x : list R) (w : world R) (t : tape R) (w' : world R) (tf tg : tape R)
         (wf wf' wg wg' : world R) (y : list R) (n k m : nat),
  rayon red -> fn_n f = Ok n -> fn_m f = Ok k -> fn_n g = Ok k -> fn_m g = Ok m ->
  length x = n -> length y = k ->
  fn_tape Rops f x wf = Ok (tf, wf') -> tape_y tf = Ok y ->
  fn_tape Rops g y wg = Ok (tg, wg') -> num_deps tg = m -> no_abs tg ->
  fn_tape Rops (Chain [f; g]) x w = Ok (t, w') -> num_deps t = m ->
  exists A B, jacobian_forward Rops red f x wf = Ok A /\ jacobian_forward Rops red g y wg = Ok B /\
    jacobian_forward Rops red (Chain [f; g]) x w = Ok (mm B A).
Proof. exact chain_jacobian. Qed.
Print Assumptions C93_jacobians_multiply.

(** (x0 / x1, ln x0 * x1) at (2, 3), followed by (a, b) |-> exp(a) * b: all hypotheses hold. *)
Definition cx_g : func R := AdvFn 2 1 (Let1 UExp 0 (Let2 BMul 2 1 (Ret [3]%nat))).
Example C93_example :
  exists t w' ts y, fn_tape Rops (Chain [rx_f; cx_g]) [2; 3] world0 = Ok (t, w') /\
  links Rops (fn_iter (Chain [rx_f; cx_g])) [2; 3] ts y /\ length ts = 2%nat /\ length y = 1%nat /\
  no_abs t /\ NoDup (t_deps t) /\ Forall no_abs ts /\ Forall (fun t => NoDup (t_deps t)) ts.
Proof.
  rtape. eexists _, _, _, _. split; [reflexivity|].
  split.
  { cbn [fn_iter]. eapply (links_cons _ _ _ _ world0); [rtape; reflexivity|reflexivity|].
    eapply (links_cons _ _ _ _ world0); [rtape; reflexivity|reflexivity|]. constructor. }
  do 2 (split; [reflexivity|]). split; [reflexivity|].
  split; [repeat constructor; cbn; intuition discriminate|].
  split; [repeat constructor|]. repeat constructor; cbn; intuition discriminate.
Qed.

Example C93_example_jacobians :
  exists tf wf y tg wg t w, fn_tape Rops rx_f [2; 3] world0 = Ok (tf, wf) /\ tape_y tf = Ok y /\ length y = 2%nat /\
  fn_tape Rops cx_g y world0 = Ok (tg, wg) /\ num_deps tg = 1%nat /\ no_abs tg /\
  fn_tape Rops (Chain [rx_f; cx_g]) [2; 3] world0 = Ok (t, w) /\ num_deps t = 1%nat /\
  fn_n rx_f = Ok 2%nat /\ fn_m rx_f = Ok 2%nat /\ fn_n cx_g = Ok 2%nat /\ fn_m cx_g = Ok 1%nat.
Proof.
  do 7 eexists. split; [rtape; reflexivity|]. split; [reflexivity|]. split; [reflexivity|].
  split; [rtape; reflexivity|]. split; [reflexivity|]. split; [reflexivity|].
  split; [rtape; reflexivity|]. repeat split; reflexivity.
Qed.

(** A variable returned twice is counted once by its reverse sweep: for x |-> (x, x) and (a, b) |-> a + b
    the tape of the chain returns 2, the two sweeps return 1. *)
Theorem C93_repeated_output_refuted :
  exists (c : func R) (t : tape R) (w' : world R) (ts : list (tape R)) (y : list R),
  fn_tape Rops c [3] world0 = Ok (t, w') /\ links Rops (fn_iter c) [3] ts y /\ length y = 1%nat /\
  no_abs t /\ NoDup (t_deps t) /\ Forall no_abs ts /\
  tape_reverse Rops t [1] = Ok [2] /\ pull Rops ts [1] = Ok [1].
Proof. exact chain_repeated. Qed.
Print Assumptions C93_repeated_output_refuted.

(** With abs in the second function the Jacobians need not multiply: 4 x + 3 followed by abs, at -1. *)
Theorem C93_abs_refuted :
  exists f g A B J y w1 w2,
  fn_tape Rops f [-1] world0 = Ok (w1) /\ tape_y (fst w1) = Ok y /\ fn_tape Rops g y world0 = Ok w2 /\
  jacobian_forward Rops (@concat _) f [-1] world0 = Ok A /\
  jacobian_forward Rops (@concat _) g y world0 = Ok B /\
  jacobian_forward Rops (@concat _) (Chain [f; g]) [-1] world0 = Ok J /\
  ent Rops (mm B A) 0 0 = -4 /\ ent Rops J 0 0 = 2.
Proof. exact chain_abs. Qed.
Print Assumptions C93_abs_refuted.
