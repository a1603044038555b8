(** The primitive floating point operations the crate calls.

    [num::traits::Float] (crate num 0.4) is the interface all of src/ is generic over; the tape
    code uses it at [f64].  The model is parametric in an arbitrary implementation: nothing is
    assumed about rounding, NaN or the transcendental functions unless a theorem says so. *)
From Coq Require Import ZArith Bool.

Record Fops (S : Type) : Type := mkFops {
  f_zero : S;                (* S::zero(), 0.0 *)
  f_one : S;                 (* S::one(), 1.0 *)
  f_half : S;                (* NumCast::from(0.5) *)
  f_of_Z : Z -> S;           (* NumCast::from(n) for integers n, also the literals 2.0, 3.0, 10.0 *)
  f_add : S -> S -> S;
  f_sub : S -> S -> S;
  f_mul : S -> S -> S;
  f_div : S -> S -> S;
  f_neg : S -> S;
  f_abs : S -> S;
  f_sin : S -> S;
  f_cos : S -> S;
  f_tan : S -> S;
  f_exp : S -> S;
  f_ln : S -> S;
  f_asin : S -> S;
  f_acos : S -> S;
  f_atan : S -> S;
  f_sqrt : S -> S;
  f_powf : S -> S -> S;
  f_powi : S -> Z -> S;
  f_eqb : S -> S -> bool;    (* == *)
  f_ltb : S -> S -> bool     (* < *)
}.
Arguments f_zero {S}. Arguments f_one {S}. Arguments f_half {S}. Arguments f_of_Z {S}.
Arguments f_add {S}. Arguments f_sub {S}. Arguments f_mul {S}. Arguments f_div {S}.
Arguments f_neg {S}. Arguments f_abs {S}. Arguments f_sin {S}. Arguments f_cos {S}.
Arguments f_tan {S}. Arguments f_exp {S}. Arguments f_ln {S}. Arguments f_asin {S}.
Arguments f_acos {S}. Arguments f_atan {S}. Arguments f_sqrt {S}. Arguments f_powf {S}.
Arguments f_powi {S}. Arguments f_eqb {S}. Arguments f_ltb {S}.
