(** The constants, the parser and the queries of the num-traits interface of AFloat. *)
From Coq Require Import List Arith ZArith Bool String SpecFloat.
From Verif Require Import Base Float FloatInst AContext.
Import ListNotations.

(** [std::num::FpCategory] *)
Inductive category : Type := CNan | CInfinite | CZero | CSubnormal | CNormal.

(** What [Zero], [One], [Num] and [Float] of num-traits demand of a scalar besides arithmetic. *)
Record Traits (S : Type) : Type := mkTraits {
  t_zero : S; t_one : S;
  t_nan : S; t_infinity : S; t_neg_infinity : S; t_neg_zero : S;
  t_min_value : S; t_min_positive_value : S; t_max_value : S;
  t_is_zero : S -> bool; t_is_one : S -> bool;
  t_is_nan : S -> bool; t_is_infinite : S -> bool; t_is_finite : S -> bool; t_is_normal : S -> bool;
  t_is_sign_positive : S -> bool; t_is_sign_negative : S -> bool;
  t_classify : S -> category;
  t_integer_decode : S -> Z * Z * Z;         (* mantissa, exponent, sign *)
  t_from_str_radix : string -> Z -> option S (* None: Err *)
}.
Arguments t_zero {S}. Arguments t_one {S}. Arguments t_nan {S}. Arguments t_infinity {S}.
Arguments t_neg_infinity {S}. Arguments t_neg_zero {S}. Arguments t_min_value {S}.
Arguments t_min_positive_value {S}. Arguments t_max_value {S}. Arguments t_is_zero {S}.
Arguments t_is_one {S}. Arguments t_is_nan {S}. Arguments t_is_infinite {S}. Arguments t_is_finite {S}.
Arguments t_is_normal {S}. Arguments t_is_sign_positive {S}. Arguments t_is_sign_negative {S}.
Arguments t_classify {S}. Arguments t_integer_decode {S}. Arguments t_from_str_radix {S}.

(** afloat.rs:219-245 ([Zero], [One], [Num]), 247-253 with 288-294 ([float_constant!]), 255-261 with
    296-303 ([float_passthrough!]) and 388-390 ([integer_decode]) *)
Definition af_traits {S : Type} (T : Traits S) : Traits (AF S) := {|
  t_zero := af_new (t_zero T) (t_zero T);
  t_one := af_new (t_one T) (t_zero T);
  t_nan := af_new (t_nan T) (t_zero T);
  t_infinity := af_new (t_infinity T) (t_zero T);
  t_neg_infinity := af_new (t_neg_infinity T) (t_zero T);
  t_neg_zero := af_new (t_neg_zero T) (t_zero T);
  t_min_value := af_new (t_min_value T) (t_zero T);
  t_min_positive_value := af_new (t_min_positive_value T) (t_zero T);
  t_max_value := af_new (t_max_value T) (t_zero T);
  t_is_zero := fun x => t_is_zero T (af_v x);
  t_is_one := fun x => t_is_one T (af_v x);
  t_is_nan := fun x => t_is_nan T (af_v x);
  t_is_infinite := fun x => t_is_infinite T (af_v x);
  t_is_finite := fun x => t_is_finite T (af_v x);
  t_is_normal := fun x => t_is_normal T (af_v x);
  t_is_sign_positive := fun x => t_is_sign_positive T (af_v x);
  t_is_sign_negative := fun x => t_is_sign_negative T (af_v x);
  t_classify := fun x => t_classify T (af_v x);
  t_integer_decode := fun x => t_integer_decode T (af_v x);
  t_from_str_radix := fun s r => match t_from_str_radix T s r with
                                 | Some v => Some (af_new v (t_zero T)) | None => None end
|}.

(** [AFloat<AFloat<...<F>>>] with [k] levels, with contexts (Nest.v leaves them out) *)
Fixpoint tower (F : Type) (k : nat) : Type := match k with 0 => F | S k' => AF (tower F k') end.
Fixpoint tower_traits {F : Type} (T : Traits F) (k : nat) : Traits (tower F k) :=
  match k with 0 => T | S k' => af_traits (tower_traits T k') end.

(** ** binary64: the [f64] of the Rust standard library and of num-traits (not part of /repo) *)
Section F64.
Local Open Scope Z_scope.
(** sign and payload of the NaN ([spec_float] has only one NaN) *)
Context (nan_neg : bool) (nan_bits : Z).

(** The fields of the interchange format: sign, biased exponent, fraction ([f64::to_bits]). *)
Definition fields (x : spec_float) : bool * Z * Z :=
  match x with
  | S754_zero s => (s, 0, 0)
  | S754_infinity s => (s, 2047, 0)
  | S754_nan => (nan_neg, 2047, nan_bits)
  | S754_finite s m e => if 2 ^ 52 <=? Zpos m then (s, e + 1075, Zpos m - 2 ^ 52) else (s, 0, Zpos m)
  end.
(** num-traits [integer_decode_f64] *)
Definition decode64 (x : spec_float) : Z * Z * Z :=
  let '(s, E, f) := fields x in
  (if E =? 0 then 2 * f else f + 2 ^ 52, E - 1075, if s then -1 else 1).
(** [f64::classify] *)
Definition classify64 (x : spec_float) : category :=
  let '(_, E, f) := fields x in
  if E =? 2047 then if f =? 0 then CInfinite else CNan
  else if E =? 0 then if f =? 0 then CZero else CSubnormal
  else CNormal.
Definition sign64 (x : spec_float) : bool := let '(s, _, _) := fields x in s.

Definition traits64 (parse : string -> Z -> option spec_float) : Traits spec_float := {|
  t_zero := S754_zero false;
  t_one := S754_finite false 4503599627370496 (-52);
  t_nan := S754_nan;
  t_infinity := S754_infinity false;
  t_neg_infinity := S754_infinity true;
  t_neg_zero := S754_zero true;
  t_min_value := S754_finite true 9007199254740991 971;
  t_min_positive_value := S754_finite false 4503599627370496 (-1074);
  t_max_value := S754_finite false 9007199254740991 971;
  t_is_zero := fun x => SFeqb x (S754_zero false);
  t_is_one := fun x => SFeqb x (S754_finite false 4503599627370496 (-52));
  t_is_nan := fun x => negb (SFeqb x x);
  t_is_infinite := fun x => SFeqb x (S754_infinity false) || SFeqb x (S754_infinity true);
  t_is_finite := fun x => SFltb (SFabs x) (S754_infinity false);
  t_is_normal := fun x => match classify64 x with CNormal => true | _ => false end;
  t_is_sign_positive := fun x => negb (sign64 x);
  t_is_sign_negative := sign64;
  t_classify := classify64;
  t_integer_decode := decode64;
  t_from_str_radix := parse
|}.
End F64.
