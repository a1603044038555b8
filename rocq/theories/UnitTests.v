(** Model of the functions in the library's unit tests (the [mod tests] of src/), so that what the
    tests check on a few inputs can be stated for all of them.  The functions of testfunc.rs are in
    Samples.v.  The bodies of [adv_fn!] functions are written as in Samples.v. *)
From Coq Require Import List Arith ZArith Bool.
From Verif Require Import Base Float Operation Tape AContext Methods Function Build Checkpoint.
Import ListNotations.

Section UnitTests.
Context {F : Type} (Fo : Fops F).

(** function.rs:148-157 [vector_10_max], for any dimension instead of 10.  Register [acc] holds
    [result[0]], [i] is the loop variable, [k] the remaining iterations, [cur] registers are in use. *)
Fixpoint max_loop (i k acc cur : nat) : prog F :=
  match k with
  | O => Ret [acc]
  | S k' => Let2 BMax acc i (max_loop (i + 1) k' cur (cur + 1))
  end.
Definition vector_max (n : nat) : func F := AdvFn n 1 (max_loop 1 (n - 1) 0 n).

(** function.rs:173-181 [ten_to_five] *)
Definition ten_to_five : func F :=
  AdvFn 10 5 (Let2 BAdd 0 1 (Let2 BAdd 2 3 (Let2 BAdd 4 5 (Let2 BAdd 6 7 (Let2 BAdd 8 9
    (Ret [10; 11; 12; 13; 14])))))).
(** function.rs:183-190 [five_to_two] *)
Definition five_to_two : func F :=
  AdvFn 5 2 (Let2 BAdd 0 1 (Let2 BAdd 5 2 (Let2 BAdd 3 4 (Ret [6; 7])))).
(** function.rs:192-198 [two_to_one] *)
Definition two_to_one : func F := AdvFn 2 1 (Let2 BAdd 0 1 (Ret [2])).
(** function.rs:202-204 *)
Definition sum_chain : res (func F) :=
  c <- chain_append (chain_new ten_to_five) five_to_two ;; chain_append c two_to_one.

(** function.rs:228-236 [multiplicate], for any dimension instead of 10: [output[i] *= factor] *)
Fixpoint mul_loop (factor : F) (i k cur : nat) (output : list nat) : prog F :=
  match k with
  | O => Ret output
  | S k' => LetC factor (Let2 BMul i cur (mul_loop factor (i + 1) k' (cur + 2) (output ++ [cur + 1])))
  end.
Definition multiplicate (n : nat) (factor : F) : func F := AdvFn n n (mul_loop factor 0 n n []).
(** function.rs:246-250 [duplicate], 260-264 [duplicate2] *)
Definition duplicate (times : nat) : func F := AdvFn 1 times (Ret (repeat 0 times)).
Definition duplicate2 (times1 times2 : nat) : func F := duplicate (times1 * times2).

(** tape.rs:113-124 [all_arithmetic_test_func], and afloat.rs:398-407 [test_function] *)
Definition all_arithmetic : func F :=
  let two := f_of_Z Fo 2 in
  AdvFn 1 1 (b_body 1 (fun v =>
    x <b b_get v 0 ;;
    a <b b_bin BAdd x x ;; b <b b_bin BMul x x ;; c <b b_bin BDiv b x ;; v1 <b b_bin BSub a c ;;
    t1 <b b_const two ;; d <b b_bin BAdd v1 t1 ;; t2 <b b_const two ;; e <b b_bin BSub d t2 ;;
    t3 <b b_const two ;; g <b b_bin BMul e t3 ;; t4 <b b_const two ;; v2 <b b_bin BDiv g t4 ;;
    t5 <b b_const two ;; t6 <b b_const two ;; h <b b_bin BAdd t6 v2 ;; l <b b_bin BSub t5 h ;;
    v3 <b b_un UNeg l ;;
    t7 <b b_const two ;; t8 <b b_const two ;; q <b b_bin BMul t8 v3 ;; v4 <b b_bin BDiv t7 q ;;
    t9 <b b_const (f_one Fo) ;; v5 <b b_bin BDiv t9 v4 ;; b_ret [v5])).

(** tape.rs:167-174: a function of one variable that applies one method *)
Definition unary (u : un) : func F := AdvFn 1 1 (Let1 u 0 (Ret [1])).

(** jacobian.rs:82-90 [test_function] *)
Definition polar : func F :=
  AdvFn 2 2 (Let1 UCos 1 (Let2 BMul 0 2 (Let1 USin 1 (Let2 BMul 0 4 (Ret [3; 5]))))).

(** abs_normal.rs:387-394 [consistency_test_func] *)
Definition abs_plus : func F := AdvFn 2 1 (Let1 UAbs 0 (Let2 BAdd 2 1 (Ret [3]))).

(** abs_normal.rs:431-442: the tape of ||sin a| + cos b|, recorded at any point instead of 0 *)
Definition decompose : func F :=
  Simple 2 1 (Let1 USin 0 (Let1 UAbs 2 (Let1 UCos 1 (Let2 BAdd 3 4 (Let1 UAbs 5 (Ret [6])))))).

(** acontext.rs:266-272, 288-293, 314-319: records [a + b] where [a], [b] or both are independent
    variables of a new context, and takes its tape *)
Definition record_sum (ia ib : bool) (va vb : F) : M (world F) (tape F) :=
  ctx <~ ctx_new ;;
  let a := af_new va (f_zero Fo) in
  let b := af_new vb (f_zero Fo) in
  a <~ (if ia then set_indep Some ctx a else mret a) ;;
  b <~ (if ib then set_indep Some ctx b else mret b) ;;
  c <~ from_op Fo Some Add a (Some b) ;;
  _ <~ set_dep Some ctx c ;;
  t <~ ctx_tape ctx ;;
  _ <~ ctx_drop ctx ;;
  mret t.

End UnitTests.

(** checkpointing.rs:200-205 [sequence_reverse_gauss_sum], for any length and number of checkpoints *)
Definition gauss_sum (est : Z -> Z -> Z) (r c : nat) : res (nat * unit) :=
  reverse_sequence est (fun x s => Ok (x + 1, s)) (fun x y s => Ok (x + y, s)) (fun x s => Ok (x, s)) 0 r c tt.
