(** Property theorems C50-C55 (vocabulary in Spec.v and Api.v). *)
From Coq Require Import List Arith ZArith Bool Lia SpecFloat.
From Verif Require Import Base Float Operation Tape AContext Methods Function Spec Param Api ApiFacts3
  FloatInst Replay2 AbsNormal Shape SmoothPart SmallFacts PanicSeq Examples.
Import ListNotations.

(** *** C50 Ids.  On every tape obtained in any history, [max_id] is the last index of the stored
    values; operations, inputs and outputs use only ids up to it; operands come before results;
    the abs-normal tape uses the same ids. *)
Theorem C50_ids_are_indices :
  forall (Sc F : Type) (So : Fops Sc) (tof : Sc -> option F) (s : api Sc F) (t : tape F),
  reachable So tof s -> In t (a_tapes s) ->
  max_id t = length (t_vals t) - 1 /\
  (forall o, In o (t_ops t) -> vid o <= max_id t) /\
  (forall o i, In o (t_ops t) -> arg1 o = Some i \/ arg2 o = Some i -> i < vid o) /\
  (forall i, In i (t_indeps t) \/ In i (t_deps t) -> i <= max_id t) /\
  (forall a, an_new t = Ok a -> max_id (an_tape a) = max_id t).
Proof. exact @reachable_max_id. Qed.
Print Assumptions C50_ids_are_indices.

(** Two contexts, variables a (of the first), b (of the second), d (detached); |a| and |a| * d are
    recorded, the tape is taken. *)
Definition ex_ids : list (call spec_float) :=
  ex_two ++ [COp Abs 0 None; COp Mul 3 (Some 2); CDep 0 4; CTape 0].
Example C50_example :
  exists s t a, history d64 Some api0 ex_ids s /\ a_tapes s = [t] /\ max_id t = 3 /\ an_new t = Ok a.
Proof.
  destruct (play d64 api0 ex_ids) as [s|] eqn:E; [|vm_compute in E; discriminate].
  exists s. do 2 eexists. split.
  - apply play_history; [|exact E].
    cbn. intros k [<-|[<-|[<-|[<-|[<-|[<-|[<-|[<-|[<-|[<-|[<-|[]]]]]]]]]]]]; cbn; auto; repeat split; discriminate.
  - vm_compute in E. injection E as <-. split; [reflexivity|]. split; vm_compute; reflexivity.
Qed.

(** *** C51 A panic while a context was locked.  Whenever set_indep, set_dep or tape panics, the
    context is poisoned afterwards, *)
Theorem C51_panics_freeze :
  forall (Sc F : Type) (So : Fops Sc) (tof : Sc -> option F) (s : api Sc F) h x (k : call Sc) (s' : api Sc F) p c,
  reachable So tof s -> handle s h = Some c -> (k = CIndep h x \/ k = CDep h x \/ k = CTape h) ->
  step So tof s k = Some (s', Some p) -> a_poison s' c = true.
Proof. exact @panic_freezes. Qed.
Print Assumptions C51_panics_freeze.

(** and whenever an operation panics, its operands are variables of two contexts and nothing has
    changed, or the context of one of them is poisoned afterwards. *)
Theorem C51_operation_panics_freeze :
  forall (Sc F : Type) (So : Fops Sc) (tof : Sc -> option F) (s : api Sc F) oc x y (s' : api Sc F) p,
  arity_ok oc y -> step So tof s (COp oc x y) = Some (s', Some p) ->
  (s' = s /\ exists j a b c1 k1 c2 k2, y = Some j /\ nth_error (a_vars s) x = Some a /\ nth_error (a_vars s) j = Some b /\
     af_ctx a = Some (c1, k1) /\ af_ctx b = Some (c2, k2) /\ c1 <> c2) \/
  (exists z c k, (nth_error (a_vars s) x = Some z \/ exists j, y = Some j /\ nth_error (a_vars s) j = Some z) /\
     af_ctx z = Some (c, k) /\ a_poison s' c = true).
Proof. exact @op_panic_freezes. Qed.
Print Assumptions C51_operation_panics_freeze.

(** In every later history the context stays poisoned
    and what it recorded stays as it is (or the context is dropped), *)
Theorem C51_poisoned_contexts_are_frozen :
  forall (Sc F : Type) (So : Fops Sc) (tof : Sc -> option F) (s : api Sc F) ks (s' : api Sc F) c i,
  reachable So tof s -> a_poison s c = true -> w_ctx (a_world s) c = Some i ->
  history So tof s ks s' ->
  a_poison s' c = true /\ (w_ctx (a_world s') c = Some i \/ w_ctx (a_world s') c = None).
Proof. exact @poison_forever_reachable. Qed.
Print Assumptions C51_poisoned_contexts_are_frozen.

(** every call through a handle panics and changes nothing, *)
Theorem C51_calls_panic :
  forall (Sc F : Type) (So : Fops Sc) (tof : Sc -> option F) (s : api Sc F) c h x,
  a_poison s c = true -> handle s h = Some c -> nth_error (a_vars s) x <> None ->
  step So tof s (CIndep h x) = Some (s, Some PUnwrap) /\
  step So tof s (CDep h x) = Some (s, Some PUnwrap) /\
  step So tof s (CTape h) = Some (s, Some PUnwrap).
Proof. exact @poison_panics. Qed.
Print Assumptions C51_calls_panic.

(** and so does every operation on one of its variables, alone, or with another variable of it
    or a detached one on either side. *)
Theorem C51_operations_panic :
  forall (Sc F : Type) (So : Fops Sc) (tof : Sc -> option F) (s : api Sc F) c oc x y a k i,
  a_poison s c = true -> w_ctx (a_world s) c = Some i ->
  nth_error (a_vars s) x = Some a -> af_ctx a = Some (c, k) ->
  (step So tof s (COp oc x None) = Some (s, Some PUnwrap)) /\
  (forall b, nth_error (a_vars s) y = Some b ->
     (forall c2 k2, af_ctx b = Some (c2, k2) -> c2 = c) ->
     step So tof s (COp oc x (Some y)) = Some (s, Some PUnwrap) /\
     step So tof s (COp oc y (Some x)) = Some (s, Some PUnwrap)).
Proof. exact @poison_ops. Qed.
Print Assumptions C51_operations_panic.

(** Marking a variable of the other context as an output poisons the first context. *)
Example C51_example :
  exists s i, history d64 Some api0 (ex_two ++ [CDep 0 1]) s /\ a_poison s 1 = true /\
    w_ctx (a_world s) 1 = Some i /\ handle s 0 = Some 1 /\
    (exists a, nth_error (a_vars s) 0 = Some a /\ af_ctx a = Some (1, 0)).
Proof.
  destruct (play d64 api0 (ex_two ++ [CDep 0 1])) as [s|] eqn:E; [|vm_compute in E; discriminate].
  exists s. eexists. split.
  - apply play_history; [|exact E].
    cbn. intros k [<-|[<-|[<-|[<-|[<-|[<-|[<-|[<-|[]]]]]]]]]; exact I.
  - vm_compute in E. injection E as <-. split; [reflexivity|]. split; [vm_compute; reflexivity|].
    split; [vm_compute; reflexivity|]. eexists. split; vm_compute; reflexivity.
Qed.

(** The marking, and multiplying the variables of the two contexts, are such panics. *)
Example C51_panic_example :
  exists s s', history d64 Some api0 ex_two s /\ handle s 0 = Some 1 /\
    step d64 Some s (CDep 0 1) = Some (s', Some PAssert) /\ step d64 Some s (COp Mul 0 (Some 1)) = Some (s, Some PAssert) /\
    step d64 Some s' (COp Sin 0 None) = Some (s', Some PUnwrap).
Proof.
  destruct (play d64 api0 ex_two) as [s|] eqn:E; [|vm_compute in E; discriminate].
  exists s. eexists. split.
  - apply play_history; [|exact E].
    cbn. intros k [<-|[<-|[<-|[<-|[<-|[<-|[<-|[]]]]]]]]; exact I.
  - vm_compute in E. injection E as <-. split; [reflexivity|]. split; [vm_compute; reflexivity|].
    split; vm_compute; reflexivity.
Qed.

(** *** C52 Derivative seeds never influence anything but derivatives: on variables that differ
    only in their derivatives, a function panics alike, or returns variables that differ only in
    their derivatives, and has recorded the same. *)
Theorem C52_seeds_do_not_matter :
  forall (F : Type) (Fo : Fops F) (f : func F) (env1 env2 : list (AF F)) (w : world F),
  Forall2 (fun x y => af_v x = af_v y /\ af_ctx x = af_ctx y) env1 env2 ->
  match eval Fo f env1 w with
  | Ok (outs1, w') => exists outs2, eval Fo f env2 w = Ok (outs2, w') /\
      Forall2 (fun x y => af_v x = af_v y /\ af_ctx x = af_ctx y) outs1 outs2
  | Panic p => eval Fo f env2 w = Panic p
  end.
Proof. exact @seeds_do_not_matter. Qed.
Print Assumptions C52_seeds_do_not_matter.

Example C52_example :
  exists outs w', eval d64 ex_f [mkAF (lit 2) (lit 1) None; mkAF (lit 3) S754_nan None] world0 = Ok (outs, w') /\
    map af_v outs = [lit 9; lit 2] /\
    Forall2 (fun x y => af_v x = af_v y /\ af_ctx x = af_ctx y)
      [mkAF (lit 2) (lit 1) None; mkAF (lit 3) S754_nan None]
      [mkAF (lit 2) (lit 5) None; mkAF (lit 3) (lit 7) None].
Proof.
  eexists _, _. split; [vm_compute; reflexivity|]. split; [vm_compute; reflexivity|].
  repeat constructor.
Qed.

(** *** C53 New independent variables: consecutive fresh ids, the given value, derivative zero,
    registered as inputs in order; nothing else changes. *)
Theorem C53_new_indep :
  forall (F : Type) (Fo : Fops F) (c : nat) (v : F) (w : world F) (i : inner F),
  w_ctx w c = Some i ->
  exists w', new_indep Fo Some c v w = Ok (mkAF v (f_zero Fo) (Some (c, length (i_vals i))), w') /\
    w_next w' = w_next w /\ (forall k, k <> c -> w_ctx w' k = w_ctx w k) /\
    w_ctx w' c = Some (mkInner (i_indeps i ++ [length (i_vals i)]) (i_deps i) (i_ops i) (i_vals i ++ [v])).
Proof. exact @new_indep_spec. Qed.
Print Assumptions C53_new_indep.

Theorem C53_new_indep_vec :
  forall (F : Type) (Fo : Fops F) (c len : nat) (v : F) (w : world F) (i : inner F),
  w_ctx w c = Some i ->
  exists w', new_indep_vec Fo Some c len v w =
      Ok (map (fun k => mkAF v (f_zero Fo) (Some (c, length (i_vals i) + k))) (seq 0 len), w') /\
    w_next w' = w_next w /\ (forall k, k <> c -> w_ctx w' k = w_ctx w k) /\
    w_ctx w' c = Some (mkInner (i_indeps i ++ seq (length (i_vals i)) len) (i_deps i) (i_ops i)
                               (i_vals i ++ repeat v len)).
Proof. exact @new_indep_vec_spec. Qed.
Print Assumptions C53_new_indep_vec.

Example C53_example :
  exists i, w_ctx (a_world ex_state) 1 = Some i /\ length (i_vals i) = 1.
Proof. eexists. split; vm_compute; reflexivity. Qed.

(** *** C54 The abs-normal tape is the smooth part.  Replaying it at n + s numbers succeeds,
    otherwise it panics; *)
Theorem C54_replay_needs_n_plus_s :
  forall (F : Type) (Fo : Fops F) (t : tape F) (a : antape) (xw : list F),
  wf_tape t -> an_new t = Ok a ->
  (length xw = num_indeps t + num_abs t -> exists a', an_zero_order Fo a xw = Ok a') /\
  (length xw <> num_indeps t + num_abs t -> an_zero_order Fo a xw = Panic PAssert).
Proof. exact @an_zero_order_total. Qed.
Print Assumptions C54_replay_needs_n_plus_s.

(** it is then at the point given, and its outputs are z followed by y; *)
Theorem C54_outputs :
  forall (F : Type) (Fo : Fops F) (t : tape F) (a : antape) (x w : list F) (a' : antape),
  wf_tape t -> an_new t = Ok a -> length x = num_indeps t -> length w = num_abs t ->
  an_zero_order Fo a (x ++ w) = Ok a' ->
  an_x a' = Ok x /\
  exists z y, an_z a' = Ok z /\ an_y a' = Ok y /\ length z = num_abs t /\ length y = num_deps t /\
    tape_y (an_tape a') = Ok (z ++ y).
Proof. exact @an_reads. Qed.
Print Assumptions C54_outputs.

(** y = F(x) exactly if (z, y) = G(x, |z|) for some z; *)
Theorem C54_decomposition :
  forall (F : Type) (Fo : Fops F) (t : tape F) (a : antape) (x y : list F),
  wf_tape t -> an_new t = Ok a -> length x = num_indeps t ->
  ((exists t', tape_zero_order Fo t x = Ok t' /\ tape_y t' = Ok y) <->
   (exists z a', an_zero_order Fo a (x ++ map (f_abs Fo) z) = Ok a' /\ an_z a' = Ok z /\ an_y a' = Ok y)).
Proof. exact @smooth_decomposition. Qed.
Print Assumptions C54_decomposition.

(** the tapes of the four matrices cannot be replayed. *)
Theorem C54_matrix_tapes_are_read_only :
  forall (F : Type) (Fo : Fops F) (t : tape F) (a : antape) (s : tape F) (x : list F),
  wf_tape t -> an_new t = Ok a -> In s [z_tape a; l_tape a; j_tape a; y_tape a] ->
  exists p, sub_zero_order Fo s x = Panic p /\ (length x = num_indeps s -> p = PValuesMut) /\
            (length x <> num_indeps s -> p = PAssert).
Proof. exact @sub_tapes_read_only. Qed.
Print Assumptions C54_matrix_tapes_are_read_only.

(** ex_f(x0, x1) = (x0 * x1 + 3, |x0|): G((2, 5), (7)) = ((2), (13, 7)), G((-2, 5), (2)) = ((-2), (-7, 2)). *)
Example C54_example :
  exists t w' a a1 a2, fn_tape d64 ex_f [lit 1; lit 1] world0 = Ok (t, w') /\ an_new t = Ok a /\
    num_indeps t = 2 /\ num_abs t = 1 /\
    an_zero_order d64 a [lit 2; lit 5; lit 7] = Ok a1 /\ an_z a1 = Ok [lit 2] /\ an_y a1 = Ok [lit 13; lit 7] /\
    an_zero_order d64 a [lit (-2); lit 5; f_abs d64 (lit (-2))] = Ok a2 /\ an_z a2 = Ok [lit (-2)] /\
    an_y a2 = Ok [lit (-7); lit 2].
Proof.
  do 5 eexists. split; [vm_compute; reflexivity|]. split; [vm_compute; reflexivity|].
  repeat (split; [vm_compute; reflexivity|]). vm_compute; reflexivity.
Qed.

(** *** C55 Replaying is recording.  If no value is inspected, or the same branches are taken at
    both points, then recording at x' succeeds in any process state, and replaying the recording
    made at x at x' gives the very tape recorded at x'. *)
Theorem C55_replaying_is_recording :
  forall (F : Type) (Fo : Fops F) (f : func F) (x : list F) (w : world F) (t : tape F) w1
    (x' : list F) (w2 : world F),
  fn_tape Fo f x w = Ok (t, w1) -> length x' = length x ->
  straight_f f \/ agree_f Fo f x x' ->
  exists t2 w3, fn_tape Fo f x' w2 = Ok (t2, w3) /\ tape_zero_order Fo t x' = Ok t2.
Proof. exact @replay_is_record. Qed.
Print Assumptions C55_replaying_is_recording.

Example C55_example :
  exists t w1, fn_tape d64 ex_chain [lit 2; lit 5] world0 = Ok (t, w1) /\ straight_f ex_chain /\
    length (t_ops t) = 8.
Proof. eexists _, _. split; [vm_compute; reflexivity|]. split; [cbn; tauto|vm_compute; reflexivity]. Qed.
Example C55_example_branch :
  exists t w1, fn_tape d64 (ex_branch d64) [lit (-2)] world0 = Ok (t, w1) /\
    agree_f d64 (ex_branch d64) [lit (-2)] [lit (-3)].
Proof.
  eexists _, _. split; [vm_compute; reflexivity|].
  cbn. intros v1 v2 [= <-] [= <-]. split; [vm_compute; reflexivity|]. vm_compute. auto.
Qed.
(** With other branches at the other point it fails: replaying the recording of |x| made at -2. *)
Theorem C55_other_branch_refuted :
  exists t w1 t2 t3 w3, fn_tape d64 (ex_branch d64) [lit (-2)] world0 = Ok (t, w1) /\
    tape_zero_order d64 t [lit 3] = Ok t2 /\ fn_tape d64 (ex_branch d64) [lit 3] world0 = Ok (t3, w3) /\
    tape_y t2 = Ok [lit (-3)] /\ tape_y t3 = Ok [lit 3].
Proof.
  do 5 eexists. repeat (split; [vm_compute; reflexivity|]). vm_compute; reflexivity.
Qed.
Print Assumptions C55_other_branch_refuted.
