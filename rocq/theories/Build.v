(** Writing larger function bodies: a function body [prog] numbers its registers by position; here
    the numbers are handed out.  This is notation for the programs of Programs.v, it models no code
    of the library.  A builder gets what to do with its result and the number of registers in
    use. *)
From Coq Require Import List Arith ZArith Bool.
From Verif Require Import Base Float Methods.
Import ListNotations.

Definition builder (F A : Type) : Type := (A -> nat -> prog F) -> nat -> prog F.

Section Build.
Context {F : Type}.
Definition b_ret {A} (a : A) : builder F A := fun k r => k a r.
Definition b_bind {A B} (m : builder F A) (f : A -> builder F B) : builder F B :=
  fun k r => m (fun a r' => f a k r') r.
(** a constant, a unary and a binary method: the result is a new register *)
Definition b_const (c : F) : builder F nat := fun k r => LetC c (k r (r + 1)).
Definition b_un (u : un) (a : nat) : builder F nat := fun k r => Let1 u a (k r (r + 1)).
Definition b_bin (b : bin) (x y : nat) : builder F nat := fun k r => Let2 b x y (k r (r + 1)).
(** panic *)
Definition b_abort {A} : builder F A := fun _ _ => Abort.
(** [v[i]] and [v[i] = a] on a slice of variables *)
Definition b_get (v : list nat) (i : nat) : builder F nat :=
  match nth_error v i with Some a => b_ret a | None => b_abort end.
Definition b_set (v : list nat) (i a : nat) : builder F (list nat) :=
  match nth_error v i with Some _ => b_ret (update v i a) | None => b_abort end.
(** [for a in l { s = f(s, a) }] *)
Fixpoint b_for {A B} (f : B -> A -> builder F B) (l : list A) (s : B) : builder F B :=
  match l with
  | [] => b_ret s
  | a :: l' => b_bind (f s a) (b_for f l')
  end.
(** the body of a function of n inputs (registers 0..n-1) *)
Definition b_body (n : nat) (m : list nat -> builder F (list nat)) : prog F :=
  m (seq 0 n) (fun outs _ => Ret outs) n.
End Build.

Notation "x <b m ;; k" := (b_bind m (fun x => k)) (at level 61, m at next level, right associativity).
