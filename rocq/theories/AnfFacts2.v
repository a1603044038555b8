(** The abs-normal form of a function. *)
From Coq Require Import Reals Lra List Arith ZArith Bool Lia Sorted.
From Verif Require Import Base Float Operation Tape AContext Methods Function Spec TapeFacts
  SweepFacts RealInst Param Instances FunctionFacts ReplayFacts ApiFacts3 DerivSpec DerivFacts LinearFacts DerivFacts2
  Matrix MatrixFacts Jacobian JacobianFacts AbsNormal AbsNormalFacts AnfSpec RVec AnfFacts.
Import ListNotations.
Open Scope R_scope.

(** No variable is passed to abs twice. *)
Definition abs_once {F : Type} (t : tape F) : Prop :=
  NoDup (map arg1 (filter is_abs (t_ops t))).

Lemma abs_args_nodup {F} (t : tape F) args : abs_once t -> abs_args t = Ok args -> NoDup args.
Proof.
  unfold abs_once, abs_args. generalize (filter is_abs (t_ops t)) as l.
  intros l; revert args; induction l as [|o l IH]; intros args ND E; cbn in *.
  - injection E as <-. constructor.
  - destruct (arg1 o) as [i|] eqn:Eo; cbn in E; [|discriminate].
    apply bind_ok in E as (r & E & [= <-]). inversion ND; subst. constructor; [|eauto].
    intros Hin. apply In_nth_error in Hin as [k Hk].
    assert (nth_error l k <> None) as NN.
    { apply nth_error_Some. apply mapM_ok_length in E. rewrite <- E. apply nth_error_Some. congruence. }
    destruct (nth_error l k) as [o'|] eqn:Eo'; [|congruence].
    destruct (mapM_ok_nth _ _ _ _ _ E Eo') as (b & Hb & Hn).
    apply H1. apply in_map_iff. exists o'. split; [|eapply nth_error_In; eauto].
    destruct (arg1 o') as [j|]; cbn in Hb; congruence.
Qed.

Theorem abs_normal_correct red f x w t w' :
  rayon red -> fn_tape Rops f x w = Ok (t, w') -> NoDup (t_deps t) -> abs_once t ->
  exists N, abs_normal Rops red f x w = Ok N /\ anf_of t N.
Proof.
  intros HR HT ND NA. destruct (fn_tape_wf Rops _ _ _ _ _ HT) as ([W _] & _ & _).
  unfold abs_normal. rewrite HT. cbn [bind fst].
  apply abs_normal_tape_correct; auto. intros args E. eapply abs_args_nodup; eauto.
Qed.

Theorem abs_normal_exact red f x w t w' :
  rayon red -> fn_tape Rops f x w = Ok (t, w') -> NoDup (t_deps t) -> abs_once t ->
  piecewise_affine f x ->
  exists N y, abs_normal Rops red f x w = Ok N /\ tape_y t = Ok y /\
  forall h, length h = length x -> straight_f f \/ agree_f Rops f x (vadd x h) ->
    exists zh, switching N h zh /\ (forall zh', switching N h zh' -> zh' = zh) /\
      forall w2, eval_float Rops f (vadd x h) w2 = Ok (vadd y (increment N h zh), w2).
Proof.
  intros HR HT ND NA PA.
  destruct (abs_normal_correct red f x w t w' HR HT ND NA) as (N & EN & AN).
  destruct (piecewise_affine_exact f x w t w' HT PA) as (y & Ey & HY).
  exists N, y. split; [auto|]. split; [auto|]. intros h Lh HB.
  destruct (fn_tape_wf Rops _ _ _ _ _ HT) as ([W _] & _ & Nn).
  destruct (HY h Lh HB) as (dy & EF & _ & EV).
  destruct (anf_correct t N h W AN) as (zh & S1 & S2 & S3); [congruence|].
  exists zh. split; [auto|]. split; [auto|]. intros w2. rewrite EV.
  rewrite S3 in EF. injection EF as <-. auto.
Qed.

Theorem abs_normal_linearisation red f x w t w' :
  rayon red -> fn_tape Rops f x w = Ok (t, w') -> NoDup (t_deps t) -> abs_once t ->
  regular f x -> same_branches_near f x ->
  exists N y, abs_normal Rops red f x w = Ok N /\ tape_y t = Ok y /\
  forall e, 0 < e -> exists d, 0 < d /\ forall h, length h = length x -> nrm1 h < d ->
    exists y' zh, (forall w2, eval_float Rops f (vadd x h) w2 = Ok (y', w2)) /\
      switching N h zh /\ (forall zh', switching N h zh' -> zh' = zh) /\
      forall k, (k < length y)%nat ->
        Rabs (nth k y' 0 - nth k y 0 - nth k (increment N h zh) 0) <= e * nrm1 h.
Proof.
  intros HR HT ND NA RG SB.
  destruct (abs_normal_correct red f x w t w' HR HT ND NA) as (N & EN & AN).
  destruct (piecewise_linearisation f x w t w' HT RG SB) as (y & Ey & HY).
  exists N, y. split; [auto|]. split; [auto|]. intros e He.
  destruct (fn_tape_wf Rops _ _ _ _ _ HT) as ([W _] & _ & Nn).
  destruct (HY e He) as (d & Hd & HD). exists d. split; [auto|]. intros h Lh Hh.
  destruct (HD h Lh Hh) as (y' & dy & EV & EF & _ & _ & HK).
  destruct (anf_correct t N h W AN) as (zh & S1 & S2 & S3); [congruence|].
  rewrite S3 in EF. injection EF as <-. exists y', zh. auto.
Qed.

Lemma subtapes_ok (t : tape R) (a : antape) : wf_tape t -> an_new t = Ok a ->
  (forall s, In s [z_tape a; l_tape a; j_tape a; y_tape a] -> wf_tape s /\ no_abs s) /\
  num_indeps (z_tape a) = num_indeps t /\ num_deps (z_tape a) = num_abs t /\
  num_indeps (l_tape a) = num_abs t /\ num_deps (l_tape a) = num_abs t /\
  num_indeps (j_tape a) = num_indeps t /\ num_deps (j_tape a) = num_deps t /\
  num_indeps (y_tape a) = num_abs t /\ num_deps (y_tape a) = num_deps t.
Proof.
  intros W EN. split; [|apply an_sizes; auto].
  destruct (abs_args_ok t W) as (args & EA & LA).
  destruct (sub_tapes t a args EN EA) as (-> & -> & -> & -> & _).
  assert (forall s, sub_of t s -> wf_tape s /\ no_abs s) as H
    by (intros s HS; split; [eapply sub_of_wf; eauto|eapply sub_no_abs; eauto]).
  cbn. intros s [<-|[<-|[<-|[<-|[]]]]]; apply H;
    [apply sub_z|apply sub_l|apply sub_j|apply sub_y]; auto.
Qed.
