(** Specification of C99. *)
From Coq Require Import Reals List Arith ZArith Bool String SpecFloat.
From Verif Require Import Base Float FloatInst AContext Traits F64Facts.
Local Open Scope R_scope.

(** The number at the bottom of a tower of AFloats: [x.value().value() ... .value()] *)
Fixpoint bottom {F : Type} (k : nat) : tower F k -> F :=
  match k with 0%nat => fun x => x | S k' => fun x => bottom k' (af_v x) end.

(** A number that depends on nothing: value [c], every derivative of every level [z], no context. *)
Fixpoint constant {F : Type} (z : F) (k : nat) : F -> tower F k -> Prop :=
  match k with
  | 0%nat => fun c x => x = c
  | S k' => fun c x => constant z k' c (af_v x) /\ constant z k' z (af_dv x) /\ af_ctx x = None
  end.

(** [x] is a binary64 number, the infinities and NaN included. *)
Definition double (x : spec_float) : Prop := valid_binary prec64 emax64 x = true.

(** what the categories mean *)
Definition in_category (x : spec_float) (c : category) : Prop :=
  match c with
  | CNan => x = S754_nan
  | CInfinite => exists s, x = S754_infinity s
  | CZero => f64 x 0
  | CSubnormal => exists a, f64 x a /\ 0 < Rabs a < / 2 ^ 1022
  | CNormal => exists a, f64 x a /\ / 2 ^ 1022 <= Rabs a
  end.
