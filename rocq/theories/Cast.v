(** Conversions of [AFloat]: afloat.rs:97-104, 200-217 and the default methods of num-traits they
    rely on. *)
From Coq Require Import List Arith ZArith Bool SpecFloat.
From Verif Require Import Base Float Operation Tape AContext FloatInst.
Import ListNotations.
Open Scope Z_scope.

(** afloat.rs:97-104 [AFloat::cast]; [from] is [S::from : T -> Option<S>] *)
Definition af_cast {T S : Type} (from : T -> option S) (x : AF T) : res (AF S) :=
  v <- unwrap (from (af_v x)) ;;
  dv <- unwrap (from (af_dv x)) ;;
  Ok (mkAF v dv (af_ctx x)).

(** [x as i64] for finite x: rounding toward zero. *)
Definition sf_trunc (x : spec_float) : option Z :=
  match x with
  | S754_zero _ => Some 0
  | S754_finite s m e =>
      let a := if 0 <=? e then Zpos m * 2 ^ e else Zpos m / 2 ^ (- e) in
      Some (if s then - a else a)
  | _ => None
  end.

(** num-traits 0.2 [ToPrimitive for f64]: [to_i64], [to_u64] *)
Definition f64_to_i64 (x : spec_float) : option Z :=
  match sf_trunc x with
  | Some z => if (- 2 ^ 63 <=? z) && (z <? 2 ^ 63) then Some z else None
  | None => None
  end.
Definition f64_to_u64 (x : spec_float) : option Z :=
  match sf_trunc x with
  | Some z => if (0 <=? z) && (z <? 2 ^ 64) then Some z else None
  | None => None
  end.

(** afloat.rs:200-208 [ToPrimitive for AFloat<f64>]: only these two are given *)
Definition af_to_i64 (x : AF spec_float) : option Z := f64_to_i64 (af_v x).
Definition af_to_u64 (x : AF spec_float) : option Z := f64_to_u64 (af_v x).

(** num-traits 0.2, default body of [ToPrimitive::to_f64] *)
Definition af_to_f64 (x : AF spec_float) : option spec_float :=
  match af_to_i64 x with
  | Some i => Some (sf_of_Z i)
  | None => option_map sf_of_Z (af_to_u64 x)
  end.

(** [<f64 as NumCast>::from(x)] for an [ADouble] x: num-traits calls [x.to_f64()] *)
Definition f64_from_af (x : AF spec_float) : option spec_float := af_to_f64 x.

(** afloat.rs:210-217 [<ADouble as NumCast>::from(x)] for an [ADouble] x *)
Definition af_from_af (x : AF spec_float) : option (AF spec_float) :=
  option_map (fun n => af_new n (S754_zero false)) (f64_from_af x).

Lemma numcast_integral x y : f64_from_af x = Some y -> exists z, y = sf_of_Z z.
Proof.
  unfold f64_from_af, af_to_f64. destruct (af_to_i64 x) as [i|].
  - intros [= <-]. eauto.
  - destruct (af_to_u64 x) as [i|]; cbn; intros [= <-]. eauto.
Qed.

Lemma cast_keeps {T S : Type} (from : T -> option S) (x : AF T) :
  match from (af_v x), from (af_dv x) with
  | Some v, Some dv => af_cast from x = Ok (mkAF v dv (af_ctx x))
  | _, _ => af_cast from x = Panic PUnwrap
  end.
Proof. unfold af_cast. destruct (from (af_v x)), (from (af_dv x)); reflexivity. Qed.

Lemma cast_same {S : Type} (x : AF S) : af_cast Some x = Ok x.
Proof. destruct x; reflexivity. Qed.
