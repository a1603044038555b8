(** Property theorems C65: the panics of the Rust library that end C++ programs (vocabulary in
    FfiSpec.v and FfiPanicSpec.v); C66: functions on plain numbers (vocabulary in Native.v). *)
From Coq Require Import Reals Lra List Arith ZArith Bool Lia SpecFloat.
From Verif Require Import Base Float Operation Tape AContext Methods MethodSpec Function RealInst FloatInst F64Facts
  F64Ops EstF64 Ffi FfiSpec FfiPanicSpec FfiPanics Native NativeFacts.
Import ListNotations.
Local Open Scope nat_scope.

(** *** C65 C++ programs are ended by Rust exactly when they mix contexts.
    For every scalar arithmetic, program and process state with unused fresh ids. *)
Theorem C65_rust_panics_iff_contexts_are_mixed :
  forall (S : Type) (So : Fops S) (w : world S) (p : list (stmt S)) (q : panic),
  ids_fresh w -> Forall not_self_copy p ->
  (cxx So p (mach0 w) = Err (RustPanic q) <->
   q = PAssert /\
   exists p1 s p2 m, p = p1 ++ s :: p2 /\ cxx So p1 (mach0 w) = Done (tt, m) /\ mixes m s).
Proof. exact @rust_panics. Qed.
Print Assumptions C65_rust_panics_iff_contexts_are_mixed.

(** A program that creates at most one context is never ended by Rust. *)
Theorem C65_programs_with_one_context_never_panic :
  forall (S : Type) (So : Fops S) (w : world S) (p : list (stmt S)) (q : panic),
  ids_fresh w -> Forall not_self_copy p -> length (filter creates p) <= 1 ->
  cxx So p (mach0 w) <> Err (RustPanic q).
Proof. exact @one_context. Qed.
Print Assumptions C65_programs_with_one_context_never_panic.

(** Two contexts, one of them already destroyed, and the maximum of their variables. *)
Definition ex_mix : list (stmt spec_float) :=
  [KNew 0; KIndep 0 0; KNew 1; KIndep 1 1; SBin CoMul 2 0 0; KDtor 1; SFn2 CfMax 3 2 1; SDtor 0].
Definition ex_one : list (stmt spec_float) :=
  [KNew 0; KIndep 0 0; KIndep 1 0; SFn2 CfMax 2 0 1; SValue 3 (lit 2); SBin CoDiv 4 2 3; KDep 0 4; KDep 0 3; KDtor 0;
   SFn2 CfMin 5 4 0].
Example C65_example :
  ids_fresh (world0 (F := spec_float)) /\
  Forall not_self_copy ex_mix /\ cxx d64 ex_mix (mach0 world0) = Err (RustPanic PAssert) /\
  Forall not_self_copy ex_one /\ length (filter creates ex_one) <= 1 /\
  (exists m, cxx d64 ex_one (mach0 world0) = Done (tt, m) /\ value_of m 5 <> None).
Proof.
  split; [intros c _; reflexivity|]. split; [cbn; repeat constructor; discriminate|].
  split; [vm_compute; reflexivity|]. split; [cbn; repeat constructor; discriminate|].
  split; [cbn; lia|]. eexists. split; [vm_compute; reflexivity|vm_compute; discriminate].
Qed.

(** *** C66 A function gives the same results on plain numbers and on variables.
    [plain N f x]: [f] called with numbers, whose methods are [N] (Native.v).  In binary64, for every
    libm and every function that uses + - * / neg recip abs powf log and the elementary functions,
    with any control flow, panics included: *)
Theorem C66_same_results_binary64 :
  forall (T : libm), libm_doubles T -> forall L1 L2 fma (f : func spec_float) (x : list spec_float) (w : world spec_float),
  basic_f f -> Forall double x ->
  eval_float (f64ops T) f x w = (y <- plain (native64 T L1 L2 fma) f x ;; Ok (y, w)).
Proof. exact basic_agree. Qed.
Print Assumptions C66_same_results_binary64.

(** ... also while recording. *)
Theorem C66_same_results_recorded :
  forall (T : libm), libm_doubles T ->
  forall L1 L2 fma (f : func spec_float) (env : list (AF spec_float)) (w : world spec_float) ys w',
  basic_f f -> Forall double (map af_v env) -> eval (f64ops T) f env w = Ok (ys, w') ->
  plain (native64 T L1 L2 fma) f (map af_v env) = Ok (map af_v ys).
Proof. exact basic_recorded. Qed.
Print Assumptions C66_same_results_recorded.

(** In exact arithmetic, for every function all of whose method calls are valid ([valid1], [valid2] in
    MethodSpec.v). *)
Theorem C66_same_results_exact :
  forall (f : func R) (x : list R) (w : world R), calls_in_f exact_methods valid1 valid2 f x ->
  eval_float Rops f x w = (y <- plain exact_methods f x ;; Ok (y, w)).
Proof. exact exact_agree. Qed.
Print Assumptions C66_same_results_exact.

Theorem C66_same_results_exact_recorded :
  forall (f : func R) (env : list (AF R)) (w : world R) ys w',
  calls_in_f exact_methods valid1 valid2 f (map af_v env) -> eval Rops f env w = Ok (ys, w') ->
  plain exact_methods f (map af_v env) = Ok (map af_v ys).
Proof. exact exact_recorded. Qed.
Print Assumptions C66_same_results_exact_recorded.

(** In binary64 the other methods differ: max and min ignore a NaN operand on numbers and return it
    on variables, abs_sub ... *)
Theorem C66_derived_methods_refuted :
  forall (T : libm) L1 L2 fma (w : world spec_float),
  (forall b v, b = BMax \/ b = BMin -> SFeqb v v = true ->
     eval_float (f64ops T) (call2 b) [S754_nan; v] w = Ok ([S754_nan], w) /\
     plain (native64 T L1 L2 fma) (call2 b) [S754_nan; v] = Ok [v] /\
     eval_float (f64ops T) (call2 b) [v; S754_nan] w = Ok ([S754_nan], w) /\
     plain (native64 T L1 L2 fma) (call2 b) [v; S754_nan] = Ok [v]) /\
  eval_float (f64ops T) (call2 BAbsSub) [lit 1; lit 2] w = Ok ([lit 1], w) /\
  plain (native64 T L1 L2 fma) (call2 BAbsSub) [lit 1; lit 2] = Ok [lit 0].
Proof. exact derived_differ. Qed.
Print Assumptions C66_derived_methods_refuted.

(** ... sqrt of minus infinity, if pow(-inf, 1/2) = +inf, as C and IEEE 754 demand ... *)
Theorem C66_sqrt_refuted :
  forall (T : libm) L1 L2 fma (w : world spec_float),
  l_powf T (S754_infinity true) half64 = S754_infinity false ->
  eval_float (f64ops T) (call1 USqrt) [S754_infinity true] w = Ok ([S754_infinity false], w) /\
  plain (native64 T L1 L2 fma) (call1 USqrt) [S754_infinity true] = Ok [S754_nan].
Proof. exact sqrt_differs. Qed.
Print Assumptions C66_sqrt_refuted.

(** ... and mul_add, if the native one rounds once: 0 on variables, 1 on numbers. *)
Theorem C66_mul_add_refuted :
  forall (T : libm) L1 L2 fma (w : world spec_float),
  (forall x y z a b c, f64 x a -> f64 y b -> f64 z c -> (Rabs (a * b + c) <= 2 ^ 1000)%R ->
     nearest (fma x y z) (a * b + c)%R) ->
  eval_float (f64ops T) call3 [lit big1; lit big1; lit (- big2)] w = Ok ([lit 0], w) /\
  exists r, plain (native64 T L1 L2 fma) call3 [lit big1; lit big1; lit (- big2)] = Ok [r] /\ f64 r 1.
Proof. exact mul_add_differs. Qed.
Print Assumptions C66_mul_add_refuted.

(** A function that negates, branches and divides. *)
Definition ex_plain : func spec_float :=
  AdvFn 2 1 (Let2 BMul 0 1 (Let1 UNeg 2 (Inspect 3 (fun v =>
    if SFltb v (lit 0) then Let2 BLog 0 1 (Ret [4]) else LetC (lit 3) (Let2 BDiv 4 3 (Ret [5])))))).
Example C66_example :
  libm_doubles libm0 /\ basic_f ex_plain /\ Forall double [lit 2; lit 3] /\
  eval_float d64 ex_plain [lit 2; lit (-3)] world0 = Ok ([half64], world0).
Proof.
  assert (double (lit 2)) as D2 by (apply (double_f64 _ 2%R), f64_Z; lia).
  assert (double (lit 3)) as D3 by (apply (double_f64 _ 3%R), f64_Z; lia).
  split; [|split; [|split; [|vm_compute; reflexivity]]].
  - split; intros; cbn; tauto.
  - cbn [basic_f ex_plain basic]. do 2 (split; [reflexivity|]). intros v. destruct (SFltb v (lit 0)); cbn [basic]; auto.
  - auto.
Qed.
Example C66_example_exact :
  calls_in_f exact_methods valid1 valid2
    (Simple 2 1 (Let2 BHypot 0 1 (Let1 ULog2 2 (LetMulAdd 3 0 1 (Ret [4%nat]))))) [3%R; 4%R].
Proof.
  cbn [calls_in_f calls_in]. intros x y [= <-] [= <-]. split; [exact I|]. intros z [= <-].
  split; [|auto]. cbn [valid1 n2 exact_methods sem2]. apply sqrt_lt_R0. lra.
Qed.
