(** Specification vocabulary for checkpointing: what reversing a sequence means, what a
    checkpointing strategy is and what it costs, and the real number the schedule estimates. *)
From Coq Require Import Reals List Arith ZArith Bool.
From Verif Require Import Base AContext Checkpoint.
Import ListNotations.

(** reverse(x0, reverse(x1, ... identity(xn))) with x_(i+1) = forward(x_i); the calls are made in
    the order forward .. forward, identity, reverse .. reverse, the first panic ends everything. *)
Fixpoint reverse_fold {T R : Type} (fw : T -> res T) (rv : T -> R -> res R) (id : T -> res R)
  (n : nat) (x : T) : res R :=
  match n with
  | O => id x
  | S n' => y <- fw x ;; r <- reverse_fold fw rv id n' y ;; rv x r
  end.

(** A closure with effects on a state whose result depends on its argument only; [I] is an
    invariant of the state. *)
Definition acts {St A B : Type} (I : St -> Prop) (f : A -> M St B) (g : A -> res B) : Prop :=
  forall a s, I s ->
    match g a with
    | Ok b => exists s', f a s = Ok (b, s') /\ I s'
    | Panic p => f a s = Panic p
    end.
Definition acts2 {St A B C : Type} (I : St -> Prop) (f : A -> B -> M St C) (g : A -> B -> res C) : Prop :=
  acts I (fun p => f (fst p) (snd p)) (fun p => g (fst p) (snd p)).

(** [strategy c r n]: with the first of r consecutive states stored and room for c more, all r
    states can be visited from last to first with n forward steps: go k steps forward, store the
    state there, deal with the r - k states from there on with the remaining room, give the stored
    state up and deal with the k states before it. *)
Inductive strategy : nat -> nat -> nat -> Prop :=
| visit c : strategy c 1 0
| split c r k a b : 1 <= k < r -> strategy c (r - k) a -> strategy (S c) k b ->
    strategy (S c) r (k + a + b).

(** The same question without presupposing any strategy: a machine that holds at most c states in
    memory and has visited all but the first r states.  It may copy a state, forget one, replace
    one by its successor (a forward call) and visit the last state not yet visited when it holds
    it, in any order.  [reverses c (held, r) a]: from holding the states with the indices [held],
    everything can be visited with a forward calls. *)
Inductive reverses (c : nat) : list nat * nat -> nat -> Prop :=
| r_done held : reverses c (held, 0) 0
| r_copy l1 i l2 r a : length (i :: l1 ++ i :: l2) <= c ->
    reverses c (i :: l1 ++ i :: l2, r) a -> reverses c (l1 ++ i :: l2, r) a
| r_forget l1 i l2 r a : reverses c (l1 ++ l2, r) a -> reverses c (l1 ++ i :: l2, r) a
| r_forward l1 i l2 r a : reverses c (l1 ++ S i :: l2, r) a ->
    reverses c (l1 ++ i :: l2, r) (S a)
| r_visit held r a : In r held -> reverses c (held, r) a -> reverses c (held, S r) a.

(** Closures that count their calls: forward, reverse, identity. *)
Definition calls : Type := nat * nat * nat.
Definition count_fw {T} (f : T -> T) (x : T) : M calls T :=
  fun '(a, b, c) => Ok (f x, (S a, b, c)).
Definition count_rv {T R} (f : T -> R -> R) (x : T) (y : R) : M calls R :=
  fun '(a, b, c) => Ok (f x y, (a, S b, c)).
Definition count_id {T R} (f : T -> R) (x : T) : M calls R :=
  fun '(a, b, c) => Ok (f x, (a, b, S c)).

(** checkpointing.rs:31-35 in exact arithmetic, before [ceil] *)
Definition estimate (c r : Z) : R :=
  (exp (-1) * IZR c * Rpower (sqrt (2 * PI * IZR c) * IZR r) (1 / IZR c) - IZR c)%R.

(** The floating point evaluation of the estimate is off by less than one half (before rounding
    up). *)
Definition accurate (est : Z -> Z -> Z) (bound : Z) : Prop :=
  forall c r : Z, (2 <= c)%Z -> (c + 1 < r)%Z -> (r <= bound)%Z ->
    exists v : R, (Rabs (v - estimate c r) < 1 / 2)%R /\ (IZR (est c r) - 1 < v <= IZR (est c r))%R.

(** The estimate never exceeds a number of repetitions that suffices. *)
Definition under (est : Z -> Z -> Z) (bound : Z) : Prop :=
  forall c r : Z, (2 <= c)%Z -> (c + 1 < r)%Z -> (r <= bound)%Z ->
    forall t : nat, (r <= binom (Z.to_nat c + t) (Z.to_nat c))%Z -> (est c r <= Z.of_nat t)%Z.

(** No state is stored twice: strictly increasing positions. *)
Fixpoint increasing (l : list nat) : Prop :=
  match l with
  | a :: l' => match l' with b :: _ => a < b | [] => True end /\ increasing l'
  | [] => True
  end.
