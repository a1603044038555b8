(** Property theorems C44, C45, C49: the C++ interface (vocabulary in FfiSpec.v). *)
From Coq Require Import Reals Lra List Arith ZArith Bool Lia SpecFloat.
From Verif Require Import Base Float Operation Tape AContext AContextFacts Methods RealInst FloatInst MethodSpec
  MethodFacts Ffi FfiSpec FfiFacts.
Import ListNotations.

(** *** C44 C++ objects own their values.
    For every scalar arithmetic, every program and every process state with unused fresh ids: no
    freed memory is read, written or freed again. *)
Theorem C44_freed_memory_is_never_touched :
  forall (S : Type) (So : Fops S) (w : world S) (p : list (stmt S)),
  ids_fresh w -> Forall not_self_copy p -> cxx So p (mach0 w) <> Err UseAfterFree.
Proof. exact @never_touches_freed. Qed.
Print Assumptions C44_freed_memory_is_never_touched.

(** When all objects have been destroyed, everything has been freed and the contexts that
    exist are those that existed before. *)
Theorem C44_everything_is_freed :
  forall (S : Type) (So : Fops S) (w : world S) (p : list (stmt S)) (m : mach S),
  ids_fresh w -> Forall not_self_copy p -> cxx So p (mach0 w) = Done (tt, m) ->
  (forall x, m_obj m x = None) -> (forall k, m_cobj m k = None) ->
  (forall a, h_at (m_box m) a = None) /\ (forall a, h_at (m_imp m) a = None) /\
  (forall a, h_at (m_cbox m) a = None) /\ (forall a, h_at (m_cimp m) a = None) /\
  (forall c, w_ctx (m_w m) c = None <-> w_ctx w c = None).
Proof. exact @no_leak. Qed.
Print Assumptions C44_everything_is_freed.

(** Objects behave as values: the process and the value semantics of FfiSpec.v (copies are
    independent, a moved-from ADouble is zero, ...) end in the same way, with the same values. *)
Theorem C44_objects_are_values :
  forall (S : Type) (So : Fops S) (w : world S) (p : list (stmt S)),
  ids_fresh w -> Forall not_self_copy p -> Forall not_scalar_left p ->
  match cxx So p (mach0 w), value_run So (fun o => o) (store0 w) p with
  | Done (_, m), Done st => shows m st
  | Err e, Err e' => e = e'
  | _, _ => False
  end.
Proof. exact @value_semantics. Qed.
Print Assumptions C44_objects_are_values.

(** The exception: copying any object onto itself reads freed memory. *)
Theorem C44_self_copy_refuted :
  forall (S : Type) (So : Fops S) (w : world S) (p : list (stmt S)) (x : nat) (m : mach S),
  ids_fresh w -> Forall not_self_copy p -> cxx So p (mach0 w) = Done (tt, m) -> m_obj m x <> None ->
  cxx So (p ++ [SCopyAssign x x]) (mach0 w) = Err UseAfterFree.
Proof. exact @self_copy_faults. Qed.
Print Assumptions C44_self_copy_refuted.

(** A program with every kind of statement. *)
Definition ex_cxx : list (stmt spec_float) :=
  [KNew 0; KIndep 0 0; SValue 1 (lit 3); SBin CoMul 2 0 1; SBin CoSub 3 2 0; SFn1 CfAbs 4 3;
   SFn2 CfMax 5 4 1; SBinLeft CoAdd 6 (lit 2) 5; SCopy 7 6; SMove 8 7; SDefault 9; SCopyAssign 9 8;
   SMoveAssign 9 8; SMoveAssign 9 9; KDep 0 6; KMove 1 0; KDep 1 8; KNew 2; KMoveAssign 2 1; KMoveAssign 2 2;
   KDtor 0; KDtor 1; KDtor 2] ++ map SDtor (seq 0 10).
Example C44_example_hypotheses :
  ids_fresh (world0 (F := spec_float)) /\ Forall not_self_copy ex_cxx /\ Forall not_scalar_left ex_cxx.
Proof.
  split; [intros c _; reflexivity|].
  split; cbn; repeat constructor; discriminate.
Qed.
Example C44_example_runs :
  exists m, cxx d64 ex_cxx (mach0 world0) = Done (tt, m) /\
    (forall x, m_obj m x = None) /\ (forall k, m_cobj m k = None) /\ h_next (m_box m) = 14%nat.
Proof.
  eexists. split; [vm_compute; reflexivity|]. split; [|split; [|reflexivity]].
  - intros x. cbn. do 10 (destruct x as [|x]; [reflexivity|]). reflexivity.
  - intros k. cbn. do 3 (destruct k as [|k]; [reflexivity|]). reflexivity.
Qed.
Example C44_example_self_copy :
  cxx d64 ([SValue 0 (lit 3)] ++ [SCopyAssign 0 0]) (mach0 world0) = Err UseAfterFree.
Proof. vm_compute. reflexivity. Qed.

(** *** C45 Scalar on the left.  Whatever the operator, `c op x` adds: programs behave as in the
    value semantics where every such operator is [+]. *)
Theorem C45_scalar_left_always_adds :
  forall (S : Type) (So : Fops S) (w : world S) (p : list (stmt S)),
  ids_fresh w -> Forall not_self_copy p ->
  match cxx So p (mach0 w), value_run So (fun _ => CoAdd) (store0 w) p with
  | Done (_, m), Done st => shows m st
  | Err e, Err e' => e = e'
  | _, _ => False
  end.
Proof. exact @scalar_left_adds. Qed.
Print Assumptions C45_scalar_left_always_adds.

(** So 2 - 3 = 5, 2 * 3 = 5 and 2 / 3 = 5 for each operator but [+], in binary64. *)
Theorem C45_scalar_left_refuted :
  forall o, o <> CoAdd ->
  exists m st v v', cxx d64 [SValue 0 (lit 3); SBinLeft o 1 (lit 2) 0] (mach0 world0) = Done (tt, m) /\
    value_run d64 (fun o => o) (store0 world0) [SValue 0 (lit 3); SBinLeft o 1 (lit 2) 0] = Done st /\
    value_of m 1 = Some v /\ s_val st 1 = Some v' /\ af_v v = lit 5 /\ af_v v' <> lit 5.
Proof.
  intros o H. destruct o; try congruence; do 4 eexists;
    (split; [vm_compute; reflexivity|]); (split; [vm_compute; reflexivity|]);
    (split; [vm_compute; reflexivity|]); (split; [vm_compute; reflexivity|]);
    (split; [vm_compute; reflexivity|]); vm_compute; discriminate.
Qed.
Print Assumptions C45_scalar_left_refuted.

(** *** C49 The overloads for double and for ADouble agree. *)
Definition double_op {S : Type} (So : Fops S) (o : cop) : S -> S -> S :=
  match o with CoAdd => f_add So | CoSub => f_sub So | CoMul => f_mul So | CoDiv => f_div So end.
Definition double_fn1 {S : Type} (So : Fops S) (f : cfn1) : S -> S :=
  match f with
  | CfSin => f_sin So | CfCos => f_cos So | CfTan => f_tan So | CfAbs => f_abs So
  | CfExp => f_exp So | CfLn => f_ln So
  end.
Theorem C49_operators_and_functions_agree :
  forall (S : Type) (So : Fops S) (w w' : world S) (a b r : AF S),
  (forall o, meth2 So (fop So) (const_val So) (rust_op o) a b w = Ok (r, w') ->
             af_v r = double_op So o (af_v a) (af_v b)) /\
  (forall f, meth1 So (fop So) (const_val So) (rust_fn1 f) a w = Ok (r, w') ->
             af_v r = double_fn1 So f (af_v a)).
Proof.
  intros S So w w' a b r.
  split; intros o H; destruct o; apply (from_op_spec So Some) in H as [V _];
    injection V as <-; reflexivity.
Qed.
Print Assumptions C49_operators_and_functions_agree.

(** min and max: the double overloads compare, the ADouble ones compute
    (a + b -+ |a - b|) / 2; over the reals that is the same, *)
Theorem C49_min_max_agree :
  forall (w w' : world R) (a b r : AF R),
  (meth2 Rops (fop Rops) (const_val Rops) (rust_fn2 CfMin) a b w = Ok (r, w') ->
   af_v r = double_min Rops (af_v a) (af_v b)) /\
  (meth2 Rops (fop Rops) (const_val Rops) (rust_fn2 CfMax) a b w = Ok (r, w') ->
   af_v r = double_max Rops (af_v a) (af_v b)).
Proof.
  intros w w' a b r. split; intros H; apply (max_min_exact Some) in H as [H1 H2].
  - rewrite H2 by reflexivity. unfold double_min. cbn. unfold Rltb, Rmin.
    destruct (Rlt_dec (af_v a) (af_v b)), (Rle_dec (af_v a) (af_v b)); lra.
  - rewrite H1 by reflexivity. unfold double_max. cbn. unfold Rltb, Rmax.
    destruct (Rlt_dec (af_v a) (af_v b)), (Rle_dec (af_v a) (af_v b)); lra.
Qed.
Print Assumptions C49_min_max_agree.

(** in binary64 it is not: for doubles min(10^16, 1) = 1, for ADoubles 0. *)
Theorem C49_min_binary64_refuted :
  exists r w', meth2 d64 (fop d64) (const_val d64) (rust_fn2 CfMin) (const_val d64 (lit (10 ^ 16)))
                 (const_val d64 (lit 1)) world0 = Ok (r, w') /\
    af_v r = lit 0 /\ double_min d64 (lit (10 ^ 16)) (lit 1) = lit 1.
Proof. eexists. eexists. split; [vm_compute; reflexivity|]. split; vm_compute; reflexivity. Qed.
Print Assumptions C49_min_binary64_refuted.

Example C49_example :
  exists r w', meth2 Rops (fop Rops) (const_val Rops) (rust_fn2 CfMin) (const_val Rops 2%R) (const_val Rops 3%R)
                 world0 = Ok (r, w').
Proof. eexists. eexists. cbn. unfold m_min, m_add, m_sub, m_abs, m_mul, mbind. cbn. reflexivity. Qed.
