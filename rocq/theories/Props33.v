(** Property theorems C83: recording through the C++ interface. *)
From Coq Require Import List Arith ZArith Bool Lia SpecFloat.
From Verif Require Import Base Float Operation Tape AContext Methods Function Spec Param FloatInst
  Instances FunctionFacts ApiFacts3 Replay2 ExamplesR Ffi FfiSpec FfiRecSpec FfiRecord.
Import ListNotations.

(** *** C83 A C++ program records the tape that the Rust function with the same operations records.
    [recording n code outs]: a context, n independents, any code working on ADouble objects
    (constructions, copies, moves, assignments, operators, functions, destructions), dependents. *)
Theorem C83_same_tape :
  forall (S : Type) (So : Fops S) (w : world S) (n : nat) (code : list (stmt S)) (outs : list nat)
         (f : func S),
  ids_fresh w -> rust_fn So n code outs = Some f ->
  exists m c t w2 w', cxx So (recording n code outs) (mach0 w) = Done (tt, m) /\
    context_of m 0 = Some (Some c) /\ ctx_tape c (m_w m) = Ok (t, w2) /\
    fn_tape So f (repeat (f_zero So) n) w = Ok (t, w').
Proof. exact @recording_agrees. Qed.
Print Assumptions C83_same_tape.

(** The independents have the value 0 while the C++ code runs, but the recorded tape can be
    evaluated at every point, and gives what the Rust function gives on plain numbers there. *)
Theorem C83_evaluates_everywhere :
  forall (S : Type) (So : Fops S) (w : world S) (n : nat) (code : list (stmt S)) (outs : list nat)
         (f : func S) (m : mach S) (c : nat) (t : tape S) (w2 : world S) (x : list S) (w3 : world S),
  ids_fresh w -> rust_fn So n code outs = Some f ->
  cxx So (recording n code outs) (mach0 w) = Done (tt, m) -> context_of m 0 = Some (Some c) ->
  ctx_tape c (m_w m) = Ok (t, w2) -> length x = n ->
  exists t' y, tape_zero_order So t x = Ok t' /\ tape_y t' = Ok y /\
    eval_float So f x w3 = Ok (y, w3) /\ length y = length outs.
Proof. exact @recording_replays. Qed.
Print Assumptions C83_evaluates_everywhere.

(** There is such a Rust function for every code that does not mention contexts or copy an object
    onto itself, and that runs to its end. *)
Theorem C83_every_program :
  forall (S : Type) (So : Fops S) (w : world S) (n : nat) (code : list (stmt S)) (outs : list nat)
         (m : mach S),
  ids_fresh w -> Forall no_context code -> Forall not_self_copy code ->
  cxx So (recording n code outs) (mach0 w) = Done (tt, m) ->
  exists f, rust_fn So n code outs = Some f.
Proof. exact @recording_complete. Qed.
Print Assumptions C83_every_program.

(** ADouble z(x * y), s(sin(x)), r(z + s); z = std::move(r); destroy r; dependents z and x *)
Definition cxx_code : list (stmt spec_float) :=
  [SBin CoMul 2 0 1; SFn1 CfSin 3 0; SBin CoAdd 4 2 3; SMoveAssign 2 4; SDtor 4].
Example C83_example :
  ids_fresh (@world0 spec_float) /\ Forall no_context cxx_code /\ Forall not_self_copy cxx_code /\
  rust_fn d64 2 cxx_code [2; 0]
  = Some (AdvFn 2 2 (Let2 BMul 0 1 (Let1 USin 0 (Let2 BAdd 2 3 (LetC (f_zero d64) (Ret [4; 0])))))).
Proof. repeat split; repeat constructor. Qed.

(** 2 - x: what is recorded is 2 + x (C45). *)
Example C83_example_left :
  rust_fn d64 1 [SBinLeft CoSub 1 (lit 2) 0] [1] = Some (AdvFn 1 1 (LetC (lit 2) (Let2 BAdd 1 0 (Ret [2])))) /\
  eval_float d64 (AdvFn 1 1 (LetC (lit 2) (Let2 BAdd 1 0 (Ret [2])))) [lit 5] world0 = Ok ([lit 7], world0).
Proof. split; [reflexivity|vm_compute; reflexivity]. Qed.
