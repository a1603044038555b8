(** Model of the functions the benchmarks measure: benches/abs_normal.rs and
    benches/generalized_jacobian.rs, for any number of inputs. *)
From Coq Require Import List Arith ZArith NArith Bool.
From Verif Require Import Base Float Operation Tape AContext Methods Function Matrix AbsNormal GenJac Build.
Import ListNotations.

Section Benches.
Context {F : Type} (Fo : Fops F).

(** [|x| x.max(T::zero())] and [|x| x.min(T::one())] *)
Definition at_least_zero (x : nat) : builder F nat := z <b b_const (f_zero Fo) ;; b_bin BMax x z.
Definition at_most_one (x : nat) : builder F nat := o <b b_const (f_one Fo) ;; b_bin BMin x o.

(** [DVector::map]: all elements, in order *)
Definition b_map (f : nat -> builder F nat) (x : list nat) : builder F (list nat) :=
  b_for (fun out a => b <b f a ;; b_ret (out ++ [b])) x [].

(** abs_normal.rs:10-16 [test_function]: iterators are lazy, every element passes through both
    closures and the fold before the next one; the number of inputs is 2^15 there
    (abs_normal.rs:18-24, recorded at zeros) *)
Definition bench_lazy (n : nat) : func F :=
  Simple n 1 (b_body n (fun x =>
    z <b b_const (f_zero Fo) ;;
    r <b b_for (fun a e => l <b at_least_zero e ;; b <b at_most_one l ;; b_bin BMax a b) x z ;;
    b_ret [r])).

(** generalized_jacobian.rs:9-20 [test_function], 128 inputs there: [DVector::map] is not lazy *)
Definition bench_eager (n : nat) : func F :=
  AdvFn n 1 (b_body n (fun x =>
    l <b b_map at_least_zero x ;; b <b b_map at_most_one l ;;
    z <b b_const (f_zero Fo) ;;
    r <b b_for (fun a e => b_bin BMax a e) b z ;;
    b_ret [r])).

(** generalized_jacobian.rs:22-26 [propagate] *)
Definition bench_propagate (n : nat) : func F := AdvFn n n (b_body n (b_map at_least_zero)).

(** generalized_jacobian.rs:44-47: the chain *)
Definition bench_chain (n : nat) : res (func F) :=
  (c <- chain_append (chain_new (bench_propagate n)) (bench_propagate n) ;;
   c <- chain_append c (bench_propagate n) ;; chain_append c (bench_eager n))%res.

(** abs_normal.rs:18-24, 28-36: the tape is recorded at zeros and replayed at ones; the products of L
    with a row and a column of ones *)
Definition bench_products (red : list (list (nat * list F)) -> list (nat * list F)) (n : nat)
  : M (world F) (matrix F * matrix F) :=
  t <~ fn_tape Fo (bench_lazy n) (repeat (f_zero Fo) n) ;;
  t' <~ mlift (tape_zero_order Fo t (repeat (f_one Fo) (num_indeps t))) ;;
  a <~ mlift (an_new t') ;;
  let s := num_abs t' in
  l <~ mlift (mul_left Fo red (l_tape a) (m_const 1 s (f_one Fo))) ;;
  r <~ mlift (mul_right Fo red (l_tape a) (m_const s 1 (f_one Fo))) ;;
  mret (l, r).
End Benches.
