(** The perceptron example: its gradient is the gradient of the error of the network. *)
From Coq Require Import Reals Lra List Arith ZArith Bool Lia.
From Verif Require Import Base Float Operation Tape AContext Methods Function Spec TapeFacts RealInst Param Instances
  FunctionFacts ReplayFacts Replay2 Shape MethodSpec MethodFacts DerivSpec DerivFacts DerivFacts2 Matrix MatrixFacts
  Jacobian JacobianFacts LinearFacts TapeSize Build BuildFacts Programs.
Import ListNotations.
Open Scope R_scope.

(** ** The network, written down once more *)
Definition sigma (x : R) : R := exp x / (exp x + 1).
Definition network (p : list R) (a b : R) : R :=
  let q i := nth i p 0 in
  let h1 := sigma (a * q 0%nat + b * q 1%nat + q 4%nat) in
  let h2 := sigma (a * q 2%nat + b * q 3%nat + q 5%nat) in
  sigma (h1 * q 6%nat + h2 * q 7%nat + q 8%nat).
Definition sq (x : R) : R := x * x.
Definition network_error (p : list R) : R :=
  sq (network p 0 0 - 0) + sq (network p 0 1 - 1) + sq (network p 1 0 - 1) + sq (network p 1 1 - 0).

Ltac rcomp l :=
  let v := eval lazy -[IZR Rplus Rminus Rmult Rdiv Ropp Rabs Rinv sin cos tan exp ln asin acos
                           atan sqrt Rpowf powerRZ pow Rpower Reqb Rltb] in l in
  let H := fresh in assert (H : l = v) by reflexivity; rewrite H; clear H.

Lemma xor_outputs p0 p1 p2 p3 p4 p5 p6 p7 p8 :
  outputs (xor_fn Rops) [p0; p1; p2; p3; p4; p5; p6; p7; p8] =
  [network_error [p0; p1; p2; p3; p4; p5; p6; p7; p8]].
Proof.
  unfold outputs.
  match goal with |- match ?l with _ => _ end = _ => rcomp l end. reflexivity.
Qed.

Lemma xor_regular p0 p1 p2 p3 p4 p5 p6 p7 p8 : regular (xor_fn Rops) [p0; p1; p2; p3; p4; p5; p6; p7; p8].
Proof.
  intros ys P H. revert H.
  match goal with |- ?l = _ -> _ => 
  let v := eval lazy -[IZR Rplus Rminus Rmult Rdiv Ropp Rabs Rinv sin cos tan exp ln asin acos
                           atan sqrt Rpowf powerRZ pow Rpower Reqb Rltb in_domain] in l in
   change l with v end.
  intros [= _ <-].
  assert (forall u y, Some (exp u + 1) = Some y -> y <> 0) as E.
  { intros u y [= <-]. pose proof (exp_pos u). lra. }
  repeat match goal with
  | |- _ /\ _ => split
  | |- forall y : R, _ -> _ => apply E
  | |- _ => exact I
  end.
Qed.

Theorem xor_gradient_correct red (params : list R) w : rayon red -> length params = 9%nat ->
  exists t w' J, record0 Rops (xor_fn Rops) w = Ok (t, w') /\ xor_gradient Rops red t params = Ok J /\
    m_rows J = 1%nat /\ m_cols J = 9%nat /\
    forall j, (j < 9)%nat ->
      derivable_pt_lim (fun s => network_error (update params j (nth j params 0 + s))) 0 (ent Rops J 0 j).
Proof.
  intros HR L.
  assert (forall p, length p = 9%nat -> outputs (xor_fn Rops) p = [network_error p]) as HO.
  { intros p Lp. do 10 (destruct p as [|? p]; try discriminate Lp). apply xor_outputs. }
  assert (straight_f (xor_fn Rops)) as HS.
  { apply straight_body. intros x. unfold xor_error, squared_error, perceptron, sigmoid. b_straight. }
  assert (exists t w', fn_tape Rops (xor_fn Rops) (repeat 0 9) w = Ok (t, w')) as (t & w' & HT).
  { apply record_iff. eexists _, w. rewrite eval_float_v. cbn [repeat].
    match goal with |- context[v_eval ?o ?f ?x] => rcomp (v_eval o f x) end. reflexivity. }
  destruct (replay_is_record Rops (xor_fn Rops) (repeat 0 9) w t w' params w HT) as (t2 & w3 & HT2 & HZ); auto.
  assert (no_abs t2) as NA.
  { apply (smooth_no_abs Rops _ _ _ _ _ HT2). unfold xor_fn, smooth_f. cbn. unfold smooth_un, smooth_bin.
    repeat split; discriminate. }
  assert (num_deps t2 = 1%nat) as ND.
  { destruct (fn_tape_fresh Rops _ _ _ _ _ HT2) as (_ & (y & Ey & _ & Ly) & _).
    assert (v_eval Rops (xor_fn Rops) params = Ok [network_error params]) as Ev.
    { clear -L. do 10 (destruct params as [|? params]; try discriminate L).
      match goal with |- ?l = _ => rcomp l end. reflexivity. }
    rewrite Ev in Ey. injection Ey as <-. exact Ly. }
  assert (NoDup (t_deps t2)) as NN.
  { unfold num_deps in ND. destruct (t_deps t2) as [|k [|]]; try discriminate. repeat constructor. cbn. tauto. }
  assert (regular (xor_fn Rops) params) as HG.
  { clear -L. do 10 (destruct params as [|? params]; try discriminate L). apply xor_regular. }
  destruct (jacobian_reverse_forward red red (xor_fn Rops) params w t2 w3 9 1 HR HR) as (J & E1 & E2); auto.
  destruct (jacobian_forward_derivative red (xor_fn Rops) params w t2 w3 9 1 HR) as (J' & E3 & _ & Rj & Cj & HD); auto.
  { left. auto. }
  rewrite E2 in E3. injection E3 as <-.
  exists t, w', J. split; [unfold record0, mbind, mlift; cbn [fn_n xor_fn f_zero Rops]; exact HT|].
  split; [unfold xor_gradient; rewrite HZ; exact E1|]. split; [auto|]. split; [auto|].
  intros j Hj. specialize (HD 0%nat j ltac:(lia) Hj).
  intros e He. destruct (HD e He) as [d Hd]. exists d. intros h Hh Hl. specialize (Hd h Hh Hl).
  rewrite !HO in Hd by (rewrite update_length; auto). exact Hd.
Qed.

Lemma network_error_0 : network_error [0; 0; 0; 0; 0; 0; 0; 0; 0] = 1.
Proof.
  unfold network_error, network, sq. cbn [nth]. repeat rewrite ?Rmult_0_r, ?Rplus_0_r.
  unfold sigma. rewrite exp_0. field.
Qed.

Lemma smooth_forward (f : func R) (x : list R) (w : world R) (t : tape R) (w' : world R) :
  fn_tape Rops f x w = Ok (t, w') -> regular f x -> same_branches_near f x -> smooth_f f ->
  forall dx, length dx = length x ->
  exists dy, tape_forward Rops t dx = Ok dy /\ length dy = length (outputs f x) /\
    forall k, (k < length dy)%nat ->
      derivable_pt_lim (fun s => nth k (outputs f (vadd x (vscal s dx))) 0) 0 (nth k dy 0).
Proof.
  intros HT HR HB HS dx L.
  destruct (forward_derivative f x w t w' HT HR HB (smooth_no_abs Rops f x w t w' HT HS) dx L) as (dy & E & L2 & _ & D).
  eauto.
Qed.
