(** Recording nested AFloats: the power rule drops a derivative. *)
From Coq Require Import Reals Lra List Arith ZArith Bool Lia.
From Verif Require Import Base Float Operation Tape AContext Methods Function Spec Param SweepFacts
  Instances RealInst Approx DerivSpec DerivFacts2 LinearFacts JacobianFacts ExamplesR Nested NestedSpec NestedMain Hess HessComp HessMain.
Import ListNotations.
Open Scope R_scope.

Ltac rlazy := lazy -[IZR Rplus Rminus Rmult Rdiv Ropp Rabs Rinv sin cos tan exp ln asin acos
                     atan sqrt Rpowf powerRZ pow Rpower Reqb Rltb].

Lemma hx_sqrt_wrong :
  exists t w', fn_tape Rops (tangent Rops 1 1 (nx_sqrt 1)) ([0] ++ [1]) world0 = Ok (t, w') /\
  no_abs t /\ NoDup (t_deps t) /\ tape_reverse Rops t ([0] ++ [1]) = Ok ([0] ++ [0]).
Proof.
  rtape.
  assert (Reqb 0 0 = true) as H by (apply Reqb_true; ring).
  assert (Reqb (1 * 0 + 0 * 1 + 0) 0 = true) as H2 by (apply Reqb_true; ring).
  rewrite ?H, ?H2.
  do 2 eexists. split.
  { rlazy. rewrite ?H, ?H2. rlazy. rewrite ?H, ?H2. rlazy. rewrite ?H, ?H2. rlazy. reflexivity. }
  split; [reflexivity|]. split; [repeat constructor; cbn; intuition discriminate|].
  match goal with |- tape_reverse ?o ?t ?y = _ =>
      let v := eval lazy -[IZR Rplus Rmult Rpowf powerRZ Reqb ln Rminus] in (tape_reverse o t y) in
      assert (tape_reverse o t y = v) as -> by reflexivity end.
  cbn [app]. apply f_equal. repeat (apply f_equal2; [ring|]). reflexivity.
Qed.

Lemma hx_sqrt_refuted :
  exists (f : func R) (t : tape R) (w' : world R),
  fn_tape Rops (tangent Rops 1 1 f) ([0] ++ [1]) world0 = Ok (t, w') /\ no_abs t /\ NoDup (t_deps t) /\
  straight_f f /\ regular f [0] /\ tape_reverse Rops t ([0] ++ [1]) = Ok ([0] ++ [0]) /\
  exists g' : R -> R, (forall s, derivable_pt_lim (fun r => nth 0 (outputs f [r]) 0) s (g' s)) /\ derivable_pt_lim g' 0 1.
Proof.
  destruct hx_sqrt_wrong as (t & w' & H1 & H2 & H3 & H4).
  exists (nx_sqrt 1), t, w'. split; [exact H1|]. split; [exact H2|]. split; [exact H3|].
  split; [cbn; auto|]. split; [|split; [exact H4|]].
  - intros ys P H. cbn -[Rpowf] in H. injection H as _ <-. repeat split; auto.
    intros y [= <-]. left. cbn. lra.
  - exists (fun t => t / sqrt (t * t + 1)). split; [|apply nx_sqrt_d2].
    intros s. eapply d_ext; [|apply nx_sqrt_d1]. intros r. cbn beta. rewrite nx_sqrt_out. reflexivity.
Qed.
