(** Tapeless forward mode returns the values and the derivatives the tape returns. *)
From Coq Require Import Reals List Arith Lia.
From Verif Require Import Base Float Operation Tape AContext Methods Function Spec FunctionFacts TapeFacts Instances ApiFacts3 ReplayFacts Replay2 DerivSpec DerivFacts GenMain
  RealInst LinearFacts DerivFacts2.
Import ListNotations.

Theorem tapeless_is_taped (F : Type) (Fo : Fops F) (f : func F) (x : list F) (w : world F) (t : tape F) (w' : world F) (dx : list F) :
  fn_tape Fo f x w = Ok (t, w') -> length dx = length x -> const_tangents_zero Fo f x dx ->
  exists outs, (forall w2, eval Fo f (pairs x dx) w2 = Ok (outs, w2)) /\
    (forall w2, eval_float Fo f x w2 = Ok (map af_v outs, w2)) /\
    tape_y t = Ok (map af_v outs) /\ tape_forward Fo t dx = Ok (map af_dv outs).
Proof.
  intros HT L HZ. destruct (forward_is_tapeless Fo f x w t w' dx HT L HZ) as (outs & Eo & Ed).
  destruct (fn_tape_fresh Fo _ _ _ _ _ HT) as (_ & (y & Hv & Hy & _) & _).
  assert (map af_v outs = y) as Ev.
  { pose proof (Eo world0) as E. unfold pairs in E. rewrite eval_detached in E.
    pose proof (d_eval_values Fo f (combine x dx)) as E2. rewrite map_fst_combine in E2 by auto. rewrite Hv in E2.
    destruct (d_eval Fo f (combine x dx)) as [yy|]; cbn in E, E2; [|discriminate].
    injection E as <-. injection E2 as E2. rewrite map_map. transitivity (map fst yy); [|congruence]. apply map_ext. auto. }
  exists outs. rewrite Ev. split; [auto|]. split; [|auto]. intros w2. rewrite eval_float_v, Hv. reflexivity.
Qed.

Local Open Scope R_scope.
Theorem tapeless_derivative_full f x w t w' :
  fn_tape Rops f x w = Ok (t, w') -> regular f x -> same_branches_near f x -> no_abs t ->
  forall dx, length dx = length x ->
  exists outs, (forall w2, eval Rops f (pairs x dx) w2 = Ok (outs, w2)) /\
    map af_v outs = outputs f x /\
    forall k, (k < length outs)%nat ->
      derivable_pt_lim (fun s => nth k (outputs f (vadd x (vscal s dx))) 0) 0 (nth k (map af_dv outs) 0).
Proof.
  intros HT HR HB NA dx L. destruct (tapeless_derivative f x w t w' HT HR HB NA dx L) as (outs & Eo & HD).
  destruct (tapeless_is_taped R Rops f x w t w' dx HT L (R_const_tangents f x dx)) as (o2 & Eo2 & Ev & _).
  assert (o2 = outs) as -> by (specialize (Eo world0); specialize (Eo2 world0); congruence).
  exists outs. split; [auto|]. split; [|auto]. unfold outputs. rewrite Ev. reflexivity.
Qed.
