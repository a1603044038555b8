(** Property theorems C97: C++ programs as they are written. *)
From Coq Require Import List Arith Bool Reals SpecFloat.
From Flocq Require Import Core IEEE754.BinarySingleNaN.
From Verif Require Import Base Float Operation Tape AContext Methods FloatInst Ffi FfiSpec CxxSpec CxxFacts CxxMain.
Import ListNotations.
Open Scope nat_scope.

(** *** C97 The calls a compiler makes for a program with nested scopes, temporaries, copies, moves and
    assignments do what the source says with ADoubles as values, and free everything; they stop only
    where the Rust side panics.  [fun _ => CoAdd]: what double o ADouble does (C45). *)
Theorem C97_scoped_programs :
  forall (S : Type) (So : Fops S) (b : block S) (w : world S),
  ids_fresh w -> ok_block 0 0 b = true ->
  match meaning So (fun _ => CoAdd) b w with
  | Ok (_, w') => exists m, cxx So (program b) (mach0 w) = Done (tt, m) /\ m_w m = w' /\ all_freed w m
  | Panic p => cxx So (program b) (mach0 w) = Err (RustPanic p)
  end.
Proof. exact @program_means. Qed.
Print Assumptions C97_scoped_programs.

(** Programs without c - x, c * x and c / x mean what C++ programmers expect. *)
Theorem C97_plain_programs :
  forall (S : Type) (So : Fops S) (b : block S) (w : world S),
  ids_fresh w -> ok_block 0 0 b = true -> plain b = true ->
  match meaning So (fun o => o) b w with
  | Ok (_, w') => exists m, cxx So (program b) (mach0 w) = Done (tt, m) /\ m_w m = w' /\ all_freed w m
  | Panic p => cxx So (program b) (mach0 w) = Err (RustPanic p)
  end.
Proof. exact @plain_means. Qed.
Print Assumptions C97_plain_programs.

(** With at most one AContext the program always reaches its end. *)
Theorem C97_one_context :
  forall (S : Type) (So : Fops S) (b : block S) (w : world S),
  ids_fresh w -> ok_block 0 0 b = true -> contexts b <= 1 ->
  exists m w', cxx So (program b) (mach0 w) = Done (tt, m) /\ meaning So (fun _ => CoAdd) b w = Ok (tt, w') /\
    m_w m = w' /\ all_freed w m.
Proof. exact @one_context_runs. Qed.
Print Assumptions C97_one_context.

(** The test programs of tests/cxx run to their end and free everything, in every arithmetic. *)
Theorem C97_cxx_tests :
  forall (S : Type) (So : Fops S) (b : block S) (w : world S),
  In b (cxx_tests So) -> ids_fresh w ->
  exists m, cxx So (program b) (mach0 w) = Done (tt, m) /\ all_freed w m.
Proof. exact @tests_pass. Qed.
Print Assumptions C97_cxx_tests.

(** adv::min and adv::max of doubles return the two arguments in order ... *)
Theorem C97_min_max :
  forall (T : libm) (a b : spec_float),
  let mn := double_min (f64ops T) a b in let mx := double_max (f64ops T) a b in
  (mn = a /\ mx = b \/ mn = b /\ mx = a) /\
  SFltb a mn = false /\ SFltb b mn = false /\ SFltb mx a = false /\ SFltb mx b = false.
Proof. exact min_max_order. Qed.
Print Assumptions C97_min_max.

(** ... which for finite ones are the minimum and the maximum. *)
Theorem C97_min_max_value :
  forall (T : libm) (a b : binary_float 53 1024),
  is_finite a = true -> is_finite b = true ->
  SF2R radix2 (double_min (f64ops T) (B2SF a) (B2SF b)) = Rmin (B2R a) (B2R b) /\
  SF2R radix2 (double_max (f64ops T) (B2SF a) (B2SF b)) = Rmax (B2R a) (B2R b).
Proof. exact min_max_value. Qed.
Print Assumptions C97_min_max_value.

(** With NaN the result depends on the order of the arguments (unlike f64::min and f64::max). *)
Theorem C97_min_max_nan :
  forall (T : libm) (x : spec_float),
  double_min (f64ops T) S754_nan x = x /\ double_min (f64ops T) x S754_nan = S754_nan /\
  double_max (f64ops T) S754_nan x = S754_nan /\ double_max (f64ops T) x S754_nan = x.
Proof. exact min_max_nan. Qed.
Print Assumptions C97_min_max_nan.

(** AContext k; ADouble x(k.new_independent()), z(x * x + 2.0); { ADouble t(z); t = sin(t) - x;
    z = std::move(t); z = z * z; } k.set_dependent(2.0 + z); *)
Definition ex_block : block spec_float :=
  Do DCtx (Do (DIndep 0) (Do (DInit (EBin CoAdd true (EBin CoMul false (EVar 0) (EVar 0)) (ENum (lit 2))))
    (Sub (Do (DInit (EVar 0)) (Do (Assign 0 (EBin CoSub false (EFn1 CfSin (EVar 0)) (EVar 2)))
            (Do (AssignMove 1 0) (Do (Assign 1 (EBin CoMul false (EVar 1) (EVar 1))) Skip))))
      (Do (SetDep 0 (ELeft CoAdd (lit 2) (EVar 0))) Skip)))).
Example C97_example :
  ids_fresh (@world0 spec_float) /\ ok_block 0 0 ex_block = true /\ plain ex_block = true /\ contexts ex_block <= 1 /\
  program ex_block =
    [KNew 0; KIndep 1 0; SValue 2 (lit 2); SBin CoMul 3 1 1; SBin CoAdd 4 3 2; SDtor 3; SDtor 2;
     SCopy 5 4; SFn1 CfSin 6 5; SBin CoSub 7 6 1; SMoveAssign 5 7; SDtor 7; SDtor 6; SMoveAssign 4 5;
     SBin CoMul 8 4 4; SMoveAssign 4 8; SDtor 8; SDtor 5;
     SBinLeft CoAdd 9 (lit 2) 4; KDep 0 9; SDtor 9; SDtor 4; SDtor 1; KDtor 0].
Proof. repeat split; auto. Qed.
(** Two contexts whose variables meet: the Rust side panics, and so does the meaning. *)
Definition ex_two : block spec_float :=
  Do DCtx (Do (DIndep 0) (Do DCtx (Do (DIndep 0) (Do (Eval (EBin CoMul false (EVar 0) (EVar 1))) Skip)))).
Example C97_example_two :
  ok_block 0 0 ex_two = true /\
  match meaning d64 (fun o => o) ex_two world0 with Panic _ => True | _ => False end.
Proof. split; [reflexivity|vm_compute; exact I]. Qed.
