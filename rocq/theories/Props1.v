(** Property theorems C01-C11: recording and replay. *)
From Coq Require Import List Arith ZArith Bool Lia SpecFloat Permutation.
From Verif Require Import Base Float Operation Tape AContext Methods Function Spec Param
  AContextFacts Instances SweepFacts Api ApiFacts ApiFacts2 ApiFacts3 TapeFacts FunctionFacts
  RecordFacts ReplayFacts Replay2 FloatInst Examples Tapeless.
Import ListNotations.

(** *** C01 Replay equals re-evaluation.
    [straight_f f]: f never inspects values.  [agree_f f x x']: wherever f inspects a value, it
    continues in the same way at x' as at x. *)
Theorem C01_replay_equals_reevaluation :
  forall (F : Type) (Fo : Fops F) (f : func F) (x : list F) (w : world F) (t : tape F)
    (w' : world F) (x' : list F),
  fn_tape Fo f x w = Ok (t, w') -> length x' = length x ->
  straight_f f \/ agree_f Fo f x x' ->
  exists t' y', tape_zero_order Fo t x' = Ok t' /\ tape_y t' = Ok y' /\
    forall w2, eval_float Fo f x' w2 = Ok (y', w2).
Proof. exact @replay_float. Qed.
Print Assumptions C01_replay_equals_reevaluation.

(** Recording succeeds exactly when evaluation does (the panics are the user's own or those of
    unsupported methods). *)
Theorem C01_recording_succeeds :
  forall (F : Type) (Fo : Fops F) (f : func F) (x : list F) (w : world F),
  (exists t w', fn_tape Fo f x w = Ok (t, w')) <->
  (exists y w', eval_float Fo f x w = Ok (y, w')).
Proof. exact @record_iff. Qed.
Print Assumptions C01_recording_succeeds.

Example C01_example :
  exists t w', fn_tape d64 ex_chain [lit 2; lit 5] world0 = Ok (t, w') /\
    straight_f ex_chain /\ length (t_ops t) = 8 /\
    (t' <- tape_zero_order d64 t [lit (-3); lit 7] ;; tape_y t') = Ok [lit (-51); lit 18].
Proof. eexists _, _. split; [vm_compute; reflexivity|]. repeat split. Qed.

Example C01_example_branch :
  exists t w', fn_tape d64 (ex_branch d64) [lit (-2)] world0 = Ok (t, w') /\
    agree_f d64 (ex_branch d64) [lit (-2)] [lit (-7)] /\ ~ straight_f (ex_branch d64) /\
    (t' <- tape_zero_order d64 t [lit (-7)] ;; tape_y t') = Ok [lit 7].
Proof.
  eexists _, _. split; [vm_compute; reflexivity|]. split.
  - cbn. intros v1 v2 [= <-] [= <-]. split; [vm_compute; reflexivity|]. vm_compute. auto.
  - split; [cbn; tauto|]. vm_compute. reflexivity.
Qed.

(** Without the proviso on the path the claim is false. *)
Theorem C01_other_path_refuted :
  exists t w' t', fn_tape d64 (ex_branch d64) [lit 1] world0 = Ok (t, w') /\
    tape_zero_order d64 t [lit (-2)] = Ok t' /\ tape_y t' = Ok [lit (-2)] /\
    eval_float d64 (ex_branch d64) [lit (-2)] world0 = Ok ([lit 2], world0).
Proof.
  eexists _, _, _. split; [vm_compute; reflexivity|]. split; [vm_compute; reflexivity|].
  split; [vm_compute; reflexivity|].
  rewrite eval_float_v. vm_compute. reflexivity.
Qed.
Print Assumptions C01_other_path_refuted.

(** *** C02 Replays carry no history. *)
Theorem C02_replays_carry_no_history :
  forall (F : Type) (Fo : Fops F) (t : tape F), wf_tape t ->
  (forall (xs : list (list F)) (t1 : tape F) (x : list F),
     foldM (fun t x => tape_zero_order Fo t x) xs t = Ok t1 ->
     tape_zero_order Fo t1 x = tape_zero_order Fo t x) /\
  (forall x, length x = num_indeps t ->
     exists t', tape_zero_order Fo t x = Ok t' /\ tape_x t' = Ok x /\
       t_indeps t' = t_indeps t /\ t_deps t' = t_deps t /\ t_ops t' = t_ops t) /\
  (forall x, length x <> num_indeps t -> tape_zero_order Fo t x = Panic PAssert).
Proof.
  exact (fun F Fo t W => conj (fun xs t1 x => no_history Fo t xs t1 x W)
    (conj (fun x => zero_order_after Fo t x W) (zero_order_wrong Fo t))).
Qed.
Print Assumptions C02_replays_carry_no_history.

(** Well-formed tapes are what recordings produce. *)
Theorem C02_recorded_tapes_qualify :
  forall (F : Type) (Fo : Fops F) f x w t w',
  fn_tape Fo f x w = Ok (t, w') -> wf_tape t.
Proof. exact (fun F Fo f x w t w' H => rt_wf _ (proj1 (fn_tape_wf Fo f x w t w' H))). Qed.
Print Assumptions C02_recorded_tapes_qualify.

Example C02_example :
  exists t w' t1, fn_tape d64 ex_f [lit 2; lit 5] world0 = Ok (t, w') /\
    foldM (fun t x => tape_zero_order d64 t x) [[lit 1; lit 1]; [lit (-4); lit 9]] t = Ok t1 /\
    t1 <> t.
Proof.
  eexists _, _, _. split; [vm_compute; reflexivity|]. split; [vm_compute; reflexivity|].
  intros H. discriminate (f_equal t_vals H).
Qed.

(** *** C03 A fresh tape stores the recorded run. *)
Theorem C03_fresh_tape_stores_run :
  forall (F : Type) (Fo : Fops F) (f : func F) (x : list F) (w : world F) (t : tape F)
    (w' : world F),
  fn_tape Fo f x w = Ok (t, w') ->
  tape_x t = Ok x /\ num_indeps t = length x /\ tape_zero_order Fo t x = Ok t /\
  exists y, eval_float Fo f x w = Ok (y, w) /\ tape_y t = Ok y /\ num_deps t = length y.
Proof. exact @fresh. Qed.
Print Assumptions C03_fresh_tape_stores_run.

(** Taping has no side effect on other contexts, and the tape does not depend on them. *)
Theorem C03_taping_has_no_side_effects :
  forall (F : Type) (Fo : Fops F) (f : func F) (x : list F) (w : world F) (t : tape F)
    (w' : world F),
  fn_tape Fo f x w = Ok (t, w') -> w_ctx w (w_next w) = None ->
  w_next w' = w_next w + 1 /\ forall k, w_ctx w' k = w_ctx w k.
Proof. exact @fn_tape_clean. Qed.
Print Assumptions C03_taping_has_no_side_effects.

Theorem C03_tape_independent_of_world :
  forall (F : Type) (Fo : Fops F) (f : func F) (x : list F) (w1 w2 : world F),
  match fn_tape Fo f x w1 with
  | Ok (t, _) => exists w2', fn_tape Fo f x w2 = Ok (t, w2')
  | Panic p => fn_tape Fo f x w2 = Panic p
  end.
Proof. exact @fn_tape_world. Qed.
Print Assumptions C03_tape_independent_of_world.

Example C03_example :
  exists t w', fn_tape d64 ex_f [lit 2; lit 5] (a_world ex_state) = Ok (t, w') /\
    tape_y t = Ok [lit 13; lit 2] /\ w_ctx (a_world ex_state) (w_next (a_world ex_state)) = None.
Proof.
  eexists _, _. split; [vm_compute; reflexivity|]. split; vm_compute; reflexivity.
Qed.

(** *** C04 Every recorded tape is well formed: every tape taken and every live context in every
    state a history of calls leads to, and everything [Function::tape] returns.
    [recorded_tape] is defined in Spec.v; the second theorem spells out single assignment. *)
Theorem C04_recorded_tapes_well_formed :
  forall (Sc F : Type) (So : Fops Sc) (tof : Sc -> option F) (s : api Sc F),
  reachable So tof s ->
  (forall t, In t (a_tapes s) -> recorded_tape t) /\
  (forall c i, w_ctx (a_world s) c = Some i ->
     recorded_tape (mkTape (i_indeps i) (i_deps i) (i_ops i) (i_vals i))).
Proof.
  exact (fun Sc F So tof s R =>
    let I := reachable_inv So tof s R in
    conj (inv_tapes tof s I) (fun c i H => proj2 (inv_world tof s I c i H))).
Qed.
Print Assumptions C04_recorded_tapes_well_formed.

Theorem C04_every_id_defined_once :
  forall (F : Type) (t : tape F), recorded_tape t ->
  Permutation (t_indeps t ++ map vid (t_ops t)) (seq 0 (length (t_vals t))).
Proof. exact @recorded_permutation. Qed.
Print Assumptions C04_every_id_defined_once.

Theorem C04_function_tapes_well_formed :
  forall (F : Type) (Fo : Fops F) f x w t w',
  fn_tape Fo f x w = Ok (t, w') -> recorded_tape t.
Proof. exact (fun F Fo f x w t w' H => proj1 (fn_tape_wf Fo f x w t w' H)). Qed.
Print Assumptions C04_function_tapes_well_formed.

(** User functions (all derived methods included) only perform such calls. *)
Theorem C04_functions_are_histories :
  forall (F : Type) (Fo : Fops F) (f : func F) (env outs : list (AF F)) (s : api F F)
    (w' : world F),
  quiet s -> incl env (a_vars s) -> eval Fo f env (a_world s) = Ok (outs, w') ->
  exists ks s', history Fo Some s ks s' /\ Forall local_call ks /\ a_world s' = w' /\
    quiet s' /\ a_handles s' = a_handles s /\
    (exists l, a_vars s' = a_vars s ++ l) /\
    forall o, In o outs -> In o (a_vars s') \/ exists v, o = af_const Fo v.
Proof. exact @run_is_history. Qed.
Print Assumptions C04_functions_are_histories.

(** [AContext::record] called directly with invented ids can store anything: then well-formedness
    and safety are lost. *)
Theorem C04_direct_record_refuted :
  exists (c : nat) (w1 w2 w3 : world spec_float) (t : tape spec_float),
    ctx_new world0 = Ok (c, w1) /\
    record Some c Add (lit 0) (Some 7) (Some 8) w1 = Ok (0, w2) /\
    ctx_tape c w2 = Ok (t, w3) /\ ~ wf_tape t /\
    tape_zero_order d64 t [] = Panic PIndex.
Proof.
  eexists _, _, _, _, _. split; [reflexivity|]. split; [reflexivity|]. split; [reflexivity|].
  split; [|vm_compute; reflexivity].
  intros W. destruct (wf_ops _ W (mkOp Add 0 (Some 7) (Some 8))) as (_ & (i & [= <-] & H) & _).
  - left; reflexivity.
  - cbn in H. lia.
Qed.
Print Assumptions C04_direct_record_refuted.

Example C04_example :
  reachable d64 Some ex_state /\ quiet ex_state /\
  exists a outs w', nth_error (a_vars ex_state) 0 = Some a /\ incl [a; a] (a_vars ex_state) /\
    eval d64 ex_f [a; a] (a_world ex_state) = Ok (outs, w') /\ length outs = 2.
Proof.
  split; [exact ex_state_reachable|]. split; [intros c; vm_compute; reflexivity|].
  eexists _, _, _. split; [vm_compute; reflexivity|]. split.
  - intros z [<-|[<-|[]]]; vm_compute; auto.
  - split; [vm_compute; reflexivity|reflexivity].
Qed.

(** *** C05 No sweep on a recorded tape goes out of bounds. *)
Theorem C05_sweeps_in_bounds :
  forall (F : Type) (Fo : Fops F) (t : tape F), wf_tape t ->
  (exists x, tape_x t = Ok x) /\ (exists y, tape_y t = Ok y) /\
  (forall x, panics (tape_zero_order Fo t x) <-> length x <> num_indeps t) /\
  (forall dx, panics (tape_forward Fo t dx) <-> length dx < num_indeps t) /\
  (forall ybar, panics (tape_reverse Fo t ybar) <-> length ybar < num_deps t \/ has_abs t).
Proof.
  exact (fun F Fo t W => conj (proj1 (tape_xy_ok t W)) (conj (proj2 (tape_xy_ok t W))
    (conj (fun x => zero_order_panics Fo t x W)
      (conj (fun dx => forward_panics Fo t dx W) (fun y => reverse_panics Fo t y W))))).
Qed.
Print Assumptions C05_sweeps_in_bounds.

Example C05_example :
  exists t w', fn_tape d64 ex_f [lit 2; lit 5] world0 = Ok (t, w') /\ wf_tape t /\ has_abs t /\
    tape_reverse d64 t [lit 1; lit 1] = Panic PAbsReverse.
Proof.
  destruct (fn_tape d64 ex_f [lit 2; lit 5] world0) as [[t w']|] eqn:E; [|discriminate E].
  exists t, w'. split; [reflexivity|]. split; [eapply C02_recorded_tapes_qualify; eauto|].
  vm_compute in E. injection E as <- <-. split; [|reflexivity].
  exists (mkOp Abs 5 (Some 0) None). split; [|reflexivity]. cbn. tauto.
Qed.

(** *** C06 Variables and their recorded values agree. *)
Theorem C06_variables_agree :
  forall (F : Type) (Fo : Fops F) (s : api F F) (j : nat) (x : AF F) (c v : nat) (i : inner F),
  reachable Fo Some s -> nth_error (a_vars s) j = Some x -> nth_error (a_dirty s) j = Some false ->
  af_ctx x = Some (c, v) -> w_ctx (a_world s) c = Some i ->
  nth_error (i_vals i) v = Some (af_v x).
Proof.
  exact (fun F Fo s j x c v i R Hx Hd Hc Hi =>
    match inv_agree Fo s j x c v i R Hx Hd Hc Hi with H => H end).
Qed.
Print Assumptions C06_variables_agree.

(** If value_mut is never used on an attached variable, every tape taken stores the values of
    evaluating it at its own x(): replaying there changes nothing. *)
Theorem C06_tapes_consistent :
  forall (F : Type) (Fo : Fops F) (ks : list (call F)) (s : api F F) (t : tape F),
  clean_history Fo Some api0 ks s -> In t (a_tapes s) ->
  exists x, tape_x t = Ok x /\ tape_zero_order Fo t x = Ok t.
Proof. exact @clean_tape_replay. Qed.
Print Assumptions C06_tapes_consistent.

(** value_mut on an attached variable breaks both. *)
Theorem C06_value_mut_refuted :
  exists (ks : list (call spec_float)) s t x t',
    history d64 Some api0 ks s /\ In t (a_tapes s) /\ tape_x t = Ok x /\
    tape_zero_order d64 t x = Ok t' /\ t' <> t.
Proof.
  exists [CNew; CVar (lit 1) (lit 0); CIndep 0 0; CSetV 0 (lit 5); COp Sin 0 None; CTape 0].
  eexists _, _, _, _. split.
  { apply play_history; [|vm_compute; reflexivity].
    intros k [<-|[<-|[<-|[<-|[<-|[<-|[]]]]]]]; vm_compute; auto. }
  split; [left; reflexivity|]. split; [vm_compute; reflexivity|].
  split; [vm_compute; reflexivity|]. intros H. discriminate (f_equal t_vals H).
Qed.
Print Assumptions C06_value_mut_refuted.

Example C06_example :
  exists x, nth_error (a_vars ex_state) 1 = Some x /\ nth_error (a_dirty ex_state) 1 = Some false /\
    af_ctx x = Some (2, 0) /\ w_ctx (a_world ex_state) 2 <> None.
Proof.
  eexists. split; [vm_compute; reflexivity|]. split; [vm_compute; reflexivity|].
  split; [reflexivity|]. vm_compute. discriminate.
Qed.

(** *** C07 Contexts are isolated and append-only. *)
Theorem C07_isolated :
  forall (Sc F : Type) (So : Fops Sc) (tof : Sc -> option F) (s : api Sc F) (k : call Sc) s' r c,
  step So tof s k = Some (s', r) -> ~ touches s k c ->
  w_ctx (a_world s') c = w_ctx (a_world s) c.
Proof. exact @step_isolated. Qed.
Print Assumptions C07_isolated.

Theorem C07_append_only :
  forall (Sc F : Type) (So : Fops Sc) (tof : Sc -> option F) (s : api Sc F) (k : call Sc) s' r c i,
  reachable So tof s -> wf_call k -> step So tof s k = Some (s', r) ->
  w_ctx (a_world s) c = Some i ->
  match w_ctx (a_world s') c with
  | Some i' =>
      (exists l, i_indeps i' = i_indeps i ++ l) /\ (exists l, i_deps i' = i_deps i ++ l) /\
      (exists l, i_ops i' = i_ops i ++ l) /\ (exists l, i_vals i' = i_vals i ++ l)
  | None => (* the last handle was dropped *)
      exists h, k = CDrop h /\ handle s h = Some c /\ owned (a_handles s') c = false
  end.
Proof. exact @step_append_or_drop. Qed.
Print Assumptions C07_append_only.

(** Operations record operations and values only; marking is left to set_indep and set_dep. *)
Theorem C07_operations_mark_nothing :
  forall (Sc F : Type) (So : Fops Sc) (tof : Sc -> option F) oc x y (w : world F) r w' c i i',
  from_op So tof oc x y w = Ok (r, w') -> w_ctx w c = Some i -> w_ctx w' c = Some i' ->
  i_indeps i' = i_indeps i /\ i_deps i' = i_deps i.
Proof. exact @ApiFacts3.from_op_io. Qed.
Print Assumptions C07_operations_mark_nothing.

Example C07_example :
  exists s' i i', step d64 Some ex_state (COp Mul 0 (Some 2)) = Some (s', None) /\
    w_ctx (a_world ex_state) 1 = Some i /\ w_ctx (a_world s') 1 = Some i' /\
    length (i_ops i') = length (i_ops i) + 2 /\
    w_ctx (a_world s') 2 = w_ctx (a_world ex_state) 2 /\ ~ touches ex_state (COp Mul 0 (Some 2)) 2.
Proof.
  eexists _, _, _. split; [vm_compute; reflexivity|].
  repeat (split; [vm_compute; reflexivity|]).
  vm_compute. intros [H|(j & [= <-] & H)]; discriminate.
Qed.

(** *** C08 Context ids are unique and lookup is exact. *)
Theorem C08_ids_unique :
  forall (Sc F : Type) (So : Fops Sc) (tof : Sc -> option F) (s : api Sc F),
  reachable So tof s ->
  NoDup (a_created s) /\
  exists s' c, step So tof s CNew = Some (s', None) /\ a_created s' = a_created s ++ [c] /\
    ~ In c (a_created s) /\ handle s' (length (a_handles s)) = Some c.
Proof. exact @ids_unique. Qed.
Print Assumptions C08_ids_unique.

Theorem C08_lookup_exact :
  forall (Sc F : Type) (So : Fops Sc) (tof : Sc -> option F) (s : api Sc F) (c : nat),
  reachable So tof s ->
  exists s' o, step So tof s (CLookup c) = Some (s', None) /\
    nth_error (a_handles s') (length (a_handles s)) = Some o /\
    (o = Some c <-> exists h, handle s h = Some c) /\
    (o = None <-> forall h, handle s h <> Some c) /\
    (~ In c (a_created s) -> o = None).
Proof. exact @lookup_exact. Qed.
Print Assumptions C08_lookup_exact.

Example C08_example :
  reachable d64 Some ex_state /\ a_created ex_state = [1; 2] /\
  handle ex_state 1 = Some 2 /\ handle ex_state 2 = None.
Proof. split; [exact ex_state_reachable|]. vm_compute. auto. Qed.

(** *** C09 Contexts never mix silently. *)
Theorem C09_mixing_operation_panics :
  forall (Sc F : Type) (So : Fops Sc) (tof : Sc -> option F) oc x y (a b : AF Sc) c1 v1 c2 v2
    (s : api Sc F),
  binary_oc oc = true -> nth_error (a_vars s) x = Some a -> nth_error (a_vars s) y = Some b ->
  af_ctx a = Some (c1, v1) -> af_ctx b = Some (c2, v2) -> c1 <> c2 ->
  step So tof s (COp oc x (Some y)) = Some (s, Some PAssert).
Proof. exact @step_mix_op. Qed.
Print Assumptions C09_mixing_operation_panics.

(** All derived two-argument methods as well (log, max, min, abs_sub, hypot, ...), as long as both
    contexts are alive; log and hypot may already have recorded unused operations by then. *)
Theorem C09_mixing_method_panics :
  forall (Sc F : Type) (So : Fops Sc) (tof : Sc -> option F) b (x y : AF Sc) c1 v1 c2 v2
    (w : world F),
  (forall a, tof a <> None) -> b <> BUnsupported ->
  af_ctx x = Some (c1, v1) -> af_ctx y = Some (c2, v2) -> c1 <> c2 ->
  w_ctx w c1 <> None -> w_ctx w c2 <> None ->
  meth2 So (from_op So tof) (af_const So) b x y w = Panic PAssert.
Proof. exact @mix_methods. Qed.
Print Assumptions C09_mixing_method_panics.

Theorem C09_foreign_dependent_panics :
  forall (Sc F : Type) (So : Fops Sc) (tof : Sc -> option F) h x (a : AF Sc) c c2 v2
    (s : api Sc F),
  reachable So tof s -> handle s h = Some c -> a_poison s c = false ->
  nth_error (a_vars s) x = Some a -> af_ctx a = Some (c2, v2) -> c2 <> c ->
  exists s', step So tof s (CDep h x) = Some (s', Some PAssert) /\ a_world s' = a_world s /\
    a_tapes s' = a_tapes s /\ a_vars s' = a_vars s.
Proof. exact @foreign_dep. Qed.
Print Assumptions C09_foreign_dependent_panics.

(** The failed assertion in set_dep happens while the context is locked: from then on every use
    of that context panics (std's mutex poisoning), including operations on its variables. *)
Theorem C09_foreign_dependent_poisons :
  forall (Sc F : Type) (So : Fops Sc) (tof : Sc -> option F) h x (a : AF Sc) c c2 v2
    (s : api Sc F),
  reachable So tof s -> handle s h = Some c -> a_poison s c = false ->
  nth_error (a_vars s) x = Some a -> af_ctx a = Some (c2, v2) -> c2 <> c ->
  exists s', step So tof s (CDep h x) = Some (s', Some PAssert) /\
    step So tof s' (CTape h) = Some (s', Some PUnwrap) /\
    forall y b v oc, nth_error (a_vars s') y = Some b -> af_ctx b = Some (c, v) ->
      step So tof s' (COp oc y None) = Some (s', Some PUnwrap).
Proof. exact @foreign_dep_poisons. Qed.
Print Assumptions C09_foreign_dependent_poisons.

Example C09_example :
  exists a b, nth_error (a_vars ex_state) 0 = Some a /\ nth_error (a_vars ex_state) 1 = Some b /\
    af_ctx a = Some (1, 0) /\ af_ctx b = Some (2, 0) /\ handle ex_state 0 = Some 1 /\
    a_poison ex_state 1 = false /\ w_ctx (a_world ex_state) 1 <> None /\
    w_ctx (a_world ex_state) 2 <> None.
Proof.
  eexists _, _. do 6 (split; [vm_compute; reflexivity|]). vm_compute. split; discriminate.
Qed.

(** *** C10 Outliving the context.  [op_vals oc x y v dv]: v and dv are the value and derivative
    the operation always has. *)
Theorem C10_dead_or_detached_operands :
  forall (Sc F : Type) (So : Fops Sc) (tof : Sc -> option F) oc (x : AF Sc) y v dv (w : world F),
  op_vals So oc x y v dv ->
  (forall c k, af_ctx x = Some (c, k) -> w_ctx w c = None) ->
  (forall b c k, y = Some b -> af_ctx b = Some (c, k) -> w_ctx w c = None) ->
  (forall b c k c' k', y = Some b -> af_ctx x = Some (c, k) -> af_ctx b = Some (c', k') -> c = c') ->
  from_op So tof oc x y w = Ok (mkAF v dv None, w).
Proof. exact @op_nothing. Qed.
Print Assumptions C10_dead_or_detached_operands.

Theorem C10_attached_operands :
  forall (Sc F : Type) (So : Fops Sc) (tof : Sc -> option F) oc (x y : AF Sc) c k k2 v dv fv
    (w : world F) i,
  op_vals So oc x (Some y) v dv -> tof v = Some fv ->
  af_ctx x = Some (c, k) -> af_ctx y = Some (c, k2) -> w_ctx w c = Some i ->
  exists w', from_op So tof oc x (Some y) w = Ok (mkAF v dv (Some (c, length (i_vals i))), w') /\
    only_ctx w w' c (mkInner (i_indeps i) (i_deps i)
      (i_ops i ++ [mkOp oc (length (i_vals i)) (Some k) (Some k2)]) (i_vals i ++ [fv])).
Proof. exact @op_attached2. Qed.
Print Assumptions C10_attached_operands.

Theorem C10_detached_right_operand :
  forall (Sc F : Type) (So : Fops Sc) (tof : Sc -> option F) oc (x y : AF Sc) c k v dv fv fy
    (w : world F) i,
  op_vals So oc x (Some y) v dv -> tof v = Some fv -> tof (af_v y) = Some fy ->
  af_ctx x = Some (c, k) -> af_ctx y = None -> w_ctx w c = Some i ->
  exists w', from_op So tof oc x (Some y) w = Ok (mkAF v dv (Some (c, length (i_vals i) + 1)), w') /\
    only_ctx w w' c (mkInner (i_indeps i) (i_deps i)
      (i_ops i ++ [mkOp Const (length (i_vals i)) None None;
                   mkOp oc (length (i_vals i) + 1) (Some k) (Some (length (i_vals i)))])
      (i_vals i ++ [fy; fv])).
Proof. exact @op_attached_detached. Qed.
Print Assumptions C10_detached_right_operand.

Theorem C10_detached_left_operand :
  forall (Sc F : Type) (So : Fops Sc) (tof : Sc -> option F) oc (x y : AF Sc) c k v dv fv fx
    (w : world F) i,
  op_vals So oc x (Some y) v dv -> tof v = Some fv -> tof (af_v x) = Some fx ->
  af_ctx x = None -> af_ctx y = Some (c, k) -> w_ctx w c = Some i ->
  exists w', from_op So tof oc x (Some y) w = Ok (mkAF v dv (Some (c, length (i_vals i) + 1)), w') /\
    only_ctx w w' c (mkInner (i_indeps i) (i_deps i)
      (i_ops i ++ [mkOp Const (length (i_vals i)) None None;
                   mkOp oc (length (i_vals i) + 1) (Some (length (i_vals i))) (Some k)])
      (i_vals i ++ [fx; fv])).
Proof. exact @op_detached_attached. Qed.
Print Assumptions C10_detached_left_operand.

Theorem C10_attached_unary :
  forall (Sc F : Type) (So : Fops Sc) (tof : Sc -> option F) oc (x : AF Sc) c k v dv fv
    (w : world F) i,
  op_vals So oc x None v dv -> tof v = Some fv ->
  af_ctx x = Some (c, k) -> w_ctx w c = Some i ->
  exists w', from_op So tof oc x None w = Ok (mkAF v dv (Some (c, length (i_vals i))), w') /\
    only_ctx w w' c (mkInner (i_indeps i) (i_deps i)
      (i_ops i ++ [mkOp oc (length (i_vals i)) (Some k) None]) (i_vals i ++ [fv])).
Proof. exact @op_attached1. Qed.
Print Assumptions C10_attached_unary.

(** A whole function evaluated on variables of one context returns the same values and
    derivatives whether the context is alive, dropped, or there is none ... *)
Theorem C10_functions_unaffected :
  forall (F : Type) (Fo : Fops F) (c : nat) (f : func F) (env : list (AF F)) (w : world F),
  Forall (belongs c) env ->
  match eval Fo f (map (fun a => af_new (af_v a) (af_dv a)) env) w with
  | Ok (outs0, _) => exists outs w', eval Fo f env w = Ok (outs, w') /\
      map vd outs = map vd outs0 /\ Forall (belongs c) outs
  | Panic p => eval Fo f env w = Panic p
  end.
Proof. exact @functions_unaffected. Qed.
Print Assumptions C10_functions_unaffected.

(** ... and records nothing when it has been dropped. *)
Theorem C10_dead_functions_record_nothing :
  forall (F : Type) (Fo : Fops F) (c : nat) (f : func F) (env outs : list (AF F)) (w w' : world F),
  Forall (belongs c) env -> w_ctx w c = None ->
  eval Fo f env w = Ok (outs, w') -> w' = w.
Proof. exact @dead_functions. Qed.
Print Assumptions C10_dead_functions_record_nothing.

Example C10_example :
  exists a s', nth_error (a_vars ex_state) 0 = Some a /\ belongs 1 a /\ af_ctx a <> None /\
    step d64 Some ex_state (CDrop 0) = Some (s', None) /\ w_ctx (a_world s') 1 = None /\
    exists v dv, op_vals d64 Mul a (Some a) v dv.
Proof.
  eexists _, _. split; [vm_compute; reflexivity|]. split; [right; exists 0; reflexivity|].
  split; [discriminate|]. split; [vm_compute; reflexivity|]. split; [vm_compute; reflexivity|].
  eexists _, _. split; vm_compute; reflexivity.
Qed.

(** *** C11 Tape forward sweep equals tapeless forward mode.
    [pairs x dx] are the variables AFloat::new(x_i, dx_i). *)
Theorem C11_forward_equals_tapeless :
  forall (F : Type) (Fo : Fops F) (f : func F) (x : list F) (w : world F) (t : tape F)
    (w' : world F) (dx : list F),
  fn_tape Fo f x w = Ok (t, w') -> length dx = length x -> const_tangents_zero Fo f x dx ->
  exists outs, (forall w2, eval Fo f (pairs x dx) w2 = Ok (outs, w2)) /\
    (forall w2, eval_float Fo f x w2 = Ok (map af_v outs, w2)) /\
    tape_y t = Ok (map af_v outs) /\ tape_forward Fo t dx = Ok (map af_dv outs).
Proof. exact tapeless_is_taped. Qed.
Print Assumptions C11_forward_equals_tapeless.

(** The proviso holds whenever the derivative rules map zero tangents to zero (as in exact
    arithmetic). *)
Theorem C11_proviso :
  forall (F : Type) (Fo : Fops F) (f : func F) (x dx : list F),
  (forall oc a b r, first_order_value Fo oc a b (f_zero Fo) (Some (f_zero Fo)) = Ok r \/
                    first_order_value Fo oc a b (f_zero Fo) None = Ok r -> r = f_zero Fo) ->
  const_tangents_zero Fo f x dx.
Proof. exact @const_tangents. Qed.
Print Assumptions C11_proviso.

(** Without it the claim is false in IEEE arithmetic, whatever the math library: for
    f(x) = x + acos(-1) tapeless mode returns derivative NaN, the tape 1. *)
Theorem C11_constant_subexpression_refuted :
  forall T : libm, exists t w' outs,
    fn_tape (f64ops T) ex_acos [lit 1] world0 = Ok (t, w') /\
    eval (f64ops T) ex_acos (pairs [lit 1] [lit 1]) world0 = Ok (outs, world0) /\
    map af_dv outs = [S754_nan] /\ tape_forward (f64ops T) t [lit 1] = Ok [lit 1].
Proof. exact acos_witness. Qed.
Print Assumptions C11_constant_subexpression_refuted.

Example C11_example :
  exists t w', fn_tape d64 (Chain [ex_f; ex_f]) [lit 2; lit 5] world0 = Ok (t, w') /\
    const_tangents_zero d64 (Chain [ex_f; ex_f]) [lit 2; lit 5] [lit 1; lit (-1)].
Proof.
  eexists _, _. split; [vm_compute; reflexivity|].
  intros ys P H. vm_compute in H. injection H as _ <-. tauto.
Qed.
