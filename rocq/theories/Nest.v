(** AFloats nested to any depth: [AFloat<AFloat<...AFloat<F>...>>].

    [AFloat<S>] implements [Float] for every [S: Float] (afloat.rs:295-391), so AFloats can be
    nested as often as one likes.  Nested.v has two levels; here are [k] of them.
    Simplification: as there, contexts are left out (tapeless mode). *)
From Coq Require Import List Arith ZArith Bool Lia.
From Verif Require Import Base Float Operation Tape AContext Methods Function Spec Param Instances Nested.
Import ListNotations.

(** afloat.rs:7-13, [k] times: the pair of the value and the derivative, both with one level less. *)
Fixpoint nest (F : Type) (k : nat) : Type :=
  match k with 0 => F | S k' => (nest F k' * nest F k')%type end.

Section Nest.
Context {F : Type} (Fo : Fops F).

(** afloat.rs:115-168, 202-246, 295-391 with [S] = the AFloats of one level less ([Dops] of Nested.v) *)
Fixpoint nops (k : nat) : Fops (nest F k) :=
  match k with 0 => Fo | S k' => Dops (nops k') end.

(** afloat.rs:210-217 [NumCast::from], through all levels *)
Fixpoint ncst (k : nat) (c : F) : nest F k :=
  match k with 0 => c | S k' => d_cst (nops k') (ncst k' c) end.

(** afloat.rs:25-27 [value], through all levels *)
Fixpoint nval (k : nat) : nest F k -> F :=
  match k with 0 => fun x => x | S k' => fun x => nval k' (fst x) end.

(** A generic user function ([fn f<S: Float>(..)]) used at the scalar with [k] levels ([lift_f] of
    Nested.v, [k] times). *)
Fixpoint lift_n (k : nat) (f : func F) : func (nest F k) :=
  match k with 0 => f | S k' => lift_f (nops k') (lift_n k' f) end.

(** The function evaluated on variables with [k + 1] levels: [AFloat::new(v, dv)] whose value and
    derivative have [k] levels. *)
Definition nest_eval (k : nat) (f : func F) : list (nest F (S k)) -> res (list (nest F (S k))) :=
  d_eval (nops k) (lift_n k f).

(** ** The same evaluation as an instance of the methods over [F] *)
Lemma lift_run {V St : Type} (op : OpCode -> V -> option V -> M St V) (cst : F * F -> V) (val : V -> F * F) p :
  forall env s,
  run (Dops Fo) op cst val (lift Fo p) env s
  = run Fo op (fun c => cst (d_cst Fo c)) (fun x => fst (val x)) p env s.
Proof.
  induction p as [outs|c p IH|u a p IH|b a1 a2 p IH|a1 a2 a3 p IH|a k IH| ];
    intros env s; cbn [run lift]; auto.
  - unfold mbind. destruct (mlift (get env a) s) as [[x s1]|]; auto.
    change (meth1 (Dops Fo) op cst u x s1)
      with (meth1 Fo op (fun c => cst (d_cst Fo c)) u x s1).
    destruct (meth1 Fo op (fun c => cst (d_cst Fo c)) u x s1) as [[r s2]|]; auto.
  - unfold mbind. destruct (mlift (get env a1) s) as [[x s1]|]; auto.
    destruct (mlift (get env a2) s1) as [[y s2]|]; auto.
    change (meth2 (Dops Fo) op cst b x y s2)
      with (meth2 Fo op (fun c => cst (d_cst Fo c)) b x y s2).
    destruct (meth2 Fo op (fun c => cst (d_cst Fo c)) b x y s2) as [[r s3]|]; auto.
  - unfold mbind. destruct (mlift (get env a1) s) as [[x s1]|]; auto.
    destruct (mlift (get env a2) s1) as [[y s2]|]; auto.
    destruct (mlift (get env a3) s2) as [[z s3]|]; auto.
    destruct (m_mul_add op x y z s3) as [[r s4]|]; auto.
  - unfold mbind. destruct (mlift (get env a) s) as [[x s1]|]; auto.
Qed.

Lemma lift_feval {V St : Type} (op : OpCode -> V -> option V -> M St V) (cst : F * F -> V) (val : V -> F * F) f :
  forall env s,
  feval (Dops Fo) op cst val (lift_f Fo f) env s
  = feval Fo op (fun c => cst (d_cst Fo c)) (fun x => fst (val x)) f env s.
Proof.
  induction f as [n m p|n m p|fs IH] using func_ind'; intros env s; cbn [feval lift_f].
  - apply lift_run.
  - unfold mbind. destruct (mlift (assert (length env =? n)) s) as [[x s1]|]; auto.
    rewrite lift_run. auto.
  - revert env s. induction fs as [|g fs IHf]; intros env s; auto.
    inversion IH; subst. unfold mbind. rewrite H1.
    destruct (feval Fo op (fun c => cst (d_cst Fo c)) (fun x => fst (val x)) g env s) as [[r s']|]; auto.
Qed.
End Nest.

Lemma lift_n_feval {F : Type} (Fo : Fops F) k {V St : Type} (op : OpCode -> V -> option V -> M St V)
  (cst : nest F k -> V) (val : V -> nest F k) f env s :
  feval (nops Fo k) op cst val (lift_n Fo k f) env s
  = feval Fo op (fun c => cst (ncst Fo k c)) (fun x => nval k (val x)) f env s.
Proof.
  revert cst val. induction k as [|k IH]; intros cst val; [reflexivity|].
  cbn [nops lift_n]. rewrite (lift_feval (nops Fo k)). rewrite IH. reflexivity.
Qed.

Lemma nest_eval_eq {F : Type} (Fo : Fops F) k f X :
  nest_eval Fo k f X
  = (r <- feval Fo (d_fop (nops Fo k)) (ncst Fo (S k)) (nval (S k)) f X tt ;; Ok (fst r)).
Proof. unfold nest_eval, d_eval. rewrite (lift_n_feval Fo k). reflexivity. Qed.

(** One level is [d_eval], two levels are [nested_eval] of Nested.v. *)
Lemma nest_eval_1 {F : Type} (Fo : Fops F) f : nest_eval Fo 0 f = d_eval Fo f.
Proof. reflexivity. Qed.
Lemma nest_eval_2 {F : Type} (Fo : Fops F) f : nest_eval Fo 1 f = nested_eval Fo f.
Proof. reflexivity. Qed.
