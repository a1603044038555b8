(** Property theorems C101: functions as they are written. *)
From Coq Require Import List Arith ZArith Bool SpecFloat.
From Verif Require Import Base Float Operation Tape AContext Methods Function Instances FloatInst Examples
  Source SourceSpec SourceFacts SourceMain.
Import ListNotations.

(** *** C101 A function written with variables that change, compound assignments, plain numbers on either
    side of an operator, branches and loops.  [written]: the model's function for it;
    [x_run .. from_op ..]: its statements executed one after the other with the operators of [AFloat];
    [plain]: what it computes on plain numbers and the outcomes of its tests.
    Calling the function executes the statements. *)
Theorem C101_executes :
  forall (F D : Type) (Fo : Fops F) (conv : D -> F) (f : source F D) (x : list (AF F)) (w : world F) y w',
  x_run Fo conv (from_op Fo Some) (af_const Fo) af_v f x w = Ok (y, w') <->
  eval Fo (written conv (length x) f) x w = Ok (y, w').
Proof. exact @written_executes. Qed.
Print Assumptions C101_executes.

(** Recording succeeds exactly where the function is defined. *)
Theorem C101_records :
  forall (F D : Type) (Fo : Fops F) (conv : D -> F) (f : source F D) (x : list F) (w : world F),
  (exists t w', fn_tape Fo (written conv (length x) f) x w = Ok (t, w')) <->
  (exists y d, plain Fo conv f x = Some (y, d)).
Proof. exact @written_records. Qed.
Print Assumptions C101_records.

(** The tape has the results of the function; replayed at x' it has the results at x' when the tests of
    all branches and loops come out the same. *)
Theorem C101_replays :
  forall (F D : Type) (Fo : Fops F) (conv : D -> F) (f : source F D) (x x' y y' : list F) (d : list bool) (w : world F),
  length x' = length x -> plain Fo conv f x = Some (y, d) -> plain Fo conv f x' = Some (y', d) ->
  exists t w' t', fn_tape Fo (written conv (length x) f) x w = Ok (t, w') /\ tape_y t = Ok y /\
    tape_zero_order Fo t x' = Ok t' /\ tape_y t' = Ok y'.
Proof. exact @written_replays. Qed.
Print Assumptions C101_replays.

(** Without branches and loops on values (counting loops are allowed) it does so everywhere. *)
Theorem C101_unconditional :
  forall (F D : Type) (Fo : Fops F) (conv : D -> F) (f : source F D) (x : list F) (w : world F) t w' (x' : list F),
  unconditional (fst f) -> length x' = length x -> fn_tape Fo (written conv (length x) f) x w = Ok (t, w') ->
  exists t' y', tape_zero_order Fo t x' = Ok t' /\ tape_y t' = Ok y' /\ plain Fo conv f x' = Some (y', []).
Proof. exact @unconditional_replays. Qed.
Print Assumptions C101_unconditional.

(** [let mut y = 1.0; while y * y < x { y += 1.0; } if y * y > x { y -= 0.5 } [2.0 / y]] *)
Definition ex_loop : source spec_float spec_float :=
  (XSeq (XLet (XNum (lit 1)))
  (XSeq (XWhile 9 [0; 1] (fun l => match l with [x; y] => f_ltb d64 (f_mul d64 y y) x | _ => false end) (XOpNum OAdd 1 (lit 1)))
  (XSeq (XIf [0; 1] (fun l => match l with [x; y] => f_ltb d64 x (f_mul d64 y y) | _ => false end)
           (XSeq (XLet (XRight ODiv (XVar 1) (lit 2))) (XOp OSub 1 (XBin BDiv (XVar 2) (XVar 1)))) XSkip)
        (XAssign 0 (XLeft OMul (lit 2) (XBin BMul (XVar 0) (XVar 1)))))), [0; 1]).
Example C101_example :
  plain d64 (fun c => c) ex_loop [lit 5] = Some ([lit 25; f_sub d64 (lit 3) (f_div d64 (lit 1) (lit 2))], [true; true; false; true]) /\
  plain d64 (fun c => c) ex_loop [lit 7] = Some ([lit 35; f_sub d64 (lit 3) (f_div d64 (lit 1) (lit 2))], [true; true; false; true]) /\
  plain d64 (fun c => c) ex_loop [lit 9] = Some ([lit 54; lit 3], [true; true; false; false]) /\
  (exists t w', fn_tape d64 (written (fun c => c) 1 ex_loop) [lit 5] world0 = Ok (t, w') /\ length (t_ops t) = 5 /\
     (t' <- tape_zero_order d64 t [lit 7] ;; tape_y t') = Ok [lit 35; f_sub d64 (lit 3) (f_div d64 (lit 1) (lit 2))]).
Proof.
  split; [vm_compute; reflexivity|]. split; [vm_compute; reflexivity|]. split; [vm_compute; reflexivity|].
  eexists _, _. split; [vm_compute; reflexivity|]. split; vm_compute; reflexivity.
Qed.

(** Where a test comes out otherwise the replay is not the function: *)
Theorem C101_other_decisions_refuted :
  exists t w' t' y, fn_tape d64 (written (fun c => c) 1 ex_loop) [lit 5] world0 = Ok (t, w') /\
    tape_zero_order d64 t [lit 9] = Ok t' /\ tape_y t' = Ok y /\
    option_map fst (plain d64 (fun c => c) ex_loop [lit 9]) = Some [lit 54; lit 3] /\ y <> [lit 54; lit 3].
Proof.
  eexists _, _, _, _. split; [vm_compute; reflexivity|]. split; [vm_compute; reflexivity|]. split; [vm_compute; reflexivity|].
  split; [vm_compute; reflexivity|]. vm_compute. discriminate.
Qed.
Print Assumptions C101_other_decisions_refuted.

(** [let mut s = 0.0; for i in 0..3 { s += x[i] * x[i] * 2.0; } [1.0 - s]] *)
Definition ex_count : source spec_float spec_float :=
  (XSeq (XLet (XNum (lit 0)))
  (XSeq (XFor 3 (fun i => XOp OAdd 3 (XRight OMul (XBin BMul (XVar i) (XVar i)) (lit 2))))
        (XAssign 3 (XLeft OSub (lit 1) (XVar 3)))), [3]).
Example C101_example_unconditional :
  unconditional (fst ex_count) /\
  plain d64 (fun c => c) ex_count [lit 1; lit 2; lit 3] = Some ([lit (-27)], []) /\
  exists t w', fn_tape d64 (written (fun c => c) 3 ex_count) [lit 1; lit 2; lit 3] world0 = Ok (t, w') /\
    (t' <- tape_zero_order d64 t [lit 0; lit (-1); lit 5] ;; tape_y t') = Ok [lit (-51)].
Proof.
  split; [cbn; auto|]. split; [vm_compute; reflexivity|]. eexists _, _. split; vm_compute; reflexivity.
Qed.
