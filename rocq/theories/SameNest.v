(** Derivatives of any order of functions that are recorded alike near a point. *)
From Coq Require Import Reals Lra List Arith ZArith Bool Lia.
From Verif Require Import Base Float Operation Tape AContext Methods Function Spec Param TapeFacts
  Instances FunctionFacts ReplayFacts ApiFacts3 Replay2 RealInst Approx DerivSpec DerivFacts
  LinearFacts DerivFacts2 Nested NestedSpec NestedFacts NestedMain Nest NestSpec NestFacts NestMain SamePath.
Import ListNotations.
Open Scope R_scope.

Lemma dk_val k oc (x : nest R (S k)) (y : option (nest R (S k))) (s : unit) r s' :
  arity_ok oc y -> d_fop (nops Rops k) oc x y s = Ok (r, s') ->
  zero_order_value Rops oc (nval (S k) x) (option_map (nval (S k)) y) = Ok (nval (S k) r).
Proof.
  intros Ha. destruct s. rewrite d_fop_k by auto. rewrite <- zk_S by auto. intros [= <- <-].
  rewrite nval_op by auto. apply zv_ok. destruct y; auto.
Qed.

Lemma nest_eval_resolve k f X : nest_eval Rops k (resolve_f Rops f (map (nval (S k)) X)) X = nest_eval Rops k f X.
Proof.
  rewrite !nest_eval_eq. rewrite (feval_resolve Rops (d_fop (nops Rops k)) (ncst Rops (S k)) (nval (S k)) (dk_val k) (fun c => nval_cst (S k) c) f X).
  reflexivity.
Qed.

Lemma regular_n_resolve k f X : regular_n k f X -> regular_n k (resolve_f Rops f (map (nval (S k)) X)) X.
Proof.
  intros H ys P E. apply (H ys).
  assert (map (fun p : nest R (S k) * bool => nval (S k) (fst p)) (map (fun a => (a, false)) X) = map (nval (S k)) X) as MX by (rewrite map_map; reflexivity).
  rewrite (feval_resolve Rops (nk_fop k) (fun c => (ncst Rops (S k) c, true)) (fun p => nval (S k) (fst p))); [rewrite MX; exact E| |].
  - intros oc a b s v s' Ha. unfold nk_fop. destruct (d_fop (nops Rops k) oc (fst a) (option_map fst b) tt) as [[z u]|] eqn:Q; [|discriminate].
    intros [= <- <-]. apply dk_val in Q; [|destruct b; auto]. cbn [fst]. rewrite <- Q. destruct b; reflexivity.
  - intros c. apply (nval_cst (S k)).
Qed.

Theorem alike_nest k f (X ys : list (nest R (S k))) :
  alike_near f (map (nval (S k)) X) -> regular_n k f X ->
  nest_eval Rops k f X = Ok ys ->
  length ys = length (outputs f (map (nval (S k)) X)) /\
  forall j y, nth_error ys j = Some y ->
    derivs (S k) y (fun e => nth j (outputs f (map (fun a => point (S k) a e) X)) 0).
Proof.
  intros (r & Hr & P) RG E. set (x := map (nval (S k)) X) in *. set (g := resolve_f Rops f x).
  destruct (nest_derivatives k g X ys) as [L H].
  - left. apply resolve_f_straight.
  - apply regular_n_resolve; auto.
  - unfold g, x. rewrite nest_eval_resolve. auto.
  - assert (outputs g x = outputs f x) as OX by (unfold outputs, g; now rewrite !eval_float_v, <- v_eval_resolve).
    fold x in L. rewrite OX in L. split; auto. intros j y Hj. eapply derivs_ext; [|apply (H j y Hj)].
    eapply near_imp; [|apply (near_small (S k) X r Hr)]. cbn beta. intros e He. f_equal. rewrite point_shift. fold x.
    set (h := map (fun a => point (S k) a e - nval (S k) a) X) in *.
    unfold outputs, g. rewrite alike_eval; auto. apply P; auto. unfold h, x. now rewrite !map_length.
Qed.

(** One input, the derivatives up to any order *)
Theorem alike_one_input k f x y :
  alike_near f [x] -> regular_n k f [seed (S k) x] ->
  nest_eval Rops k f [seed (S k) x] = Ok [y] ->
  exists D : nat -> R -> R,
    (forall s, D O s = nth 0 (outputs f [s]) 0) /\ derivatives_at (S k) x D /\
    forall p, length p = S k -> comp (S k) p y = D (count p) x.
Proof.
  intros HB HR E.
  assert (map (nval (S k)) [seed (S k) x] = [x]) as Ev by (cbn [map]; rewrite seed_val; reflexivity).
  destruct (alike_nest k f [seed (S k) x] [y]) as [_ H]; auto; [rewrite Ev; auto|].
  specialize (H 0%nat y eq_refl).
  set (G := fun s => nth 0 (outputs f [x + s]) 0).
  assert (derivs (S k) y (fun e => G (total e))) as HD.
  { eapply derivs_ext; [|apply H]. eapply near_imp; [|apply (near_len (S k))]. cbn beta. intros e He.
    unfold G. cbn [map]. rewrite seed_point, firstn_all2 by lia. reflexivity. }
  destruct (nth_derivs (S k) y G HD) as (D & D0 & [D1 D2] & D3).
  exists (fun j s => D j (s - x)). split; [|split; [split|]].
  - intros s. rewrite D0. unfold G. f_equal. f_equal. f_equal. ring.
  - intros j Hj. destruct (D1 j Hj) as (d & Hd & Hs). exists d. split; auto. intros s Hlt.
    specialize (Hs (s - x)). rewrite Rminus_0_r in Hs. specialize (Hs Hlt).
    apply d_shift in Hs. apply d_shift. eapply d_ext_near; [|apply Hs]. exists 1. split; [lra|].
    intros t _. f_equal. ring.
  - intros j Hj. specialize (D2 j Hj). replace (x - x) with 0 by ring. apply d_shift.
    eapply d_ext_near; [|apply D2]. exists 1. split; [lra|]. intros t _. f_equal. ring.
  - intros p Hp. rewrite D3 by auto. f_equal. ring.
Qed.
