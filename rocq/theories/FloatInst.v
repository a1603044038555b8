(** Concrete float arithmetics: IEEE 754 binary64 ([f64]) with computable, correctly rounded
    basic operations. *)
From Coq Require Import ZArith Bool List SpecFloat.
From Verif Require Import Base Float.
Import ListNotations.

(** The functions IEEE 754 does not determine bit for bit (they come from libm).  Everything
    proved about [f64ops T] holds for every [T]. *)
Record libm : Type := mkLibm {
  l_sin : spec_float -> spec_float;
  l_cos : spec_float -> spec_float;
  l_tan : spec_float -> spec_float;
  l_exp : spec_float -> spec_float;
  l_ln : spec_float -> spec_float;
  l_asin : spec_float -> spec_float;
  l_acos : spec_float -> spec_float;
  l_atan : spec_float -> spec_float;
  l_powf : spec_float -> spec_float -> spec_float
}.

Definition prec64 : Z := 53.
Definition emax64 : Z := 1024.

Definition sf_of_Z (n : Z) : spec_float :=
  match n with
  | Z0 => S754_zero false
  | _ => binary_normalize prec64 emax64 n 0 false
  end.

Definition sf_add := SFadd prec64 emax64.
Definition sf_sub := SFsub prec64 emax64.
Definition sf_mul := SFmul prec64 emax64.
Definition sf_div := SFdiv prec64 emax64.
Definition sf_sqrt := SFsqrt prec64 emax64.

(** [f64::powi] is the compiler intrinsic [__powidf2]: square and multiply, reciprocal at the
    end for negative exponents. *)
Fixpoint powi_pos (a r : spec_float) (n : positive) : spec_float :=
  match n with
  | xH => sf_mul r a
  | xO n' => powi_pos (sf_mul a a) r n'
  | xI n' => powi_pos (sf_mul a a) (sf_mul r a) n'
  end.
Definition sf_powi (a : spec_float) (n : Z) : spec_float :=
  match n with
  | Z0 => sf_of_Z 1
  | Zpos p => powi_pos a (sf_of_Z 1) p
  | Zneg p => sf_div (sf_of_Z 1) (powi_pos a (sf_of_Z 1) p)
  end.

Definition f64ops (T : libm) : Fops spec_float := {|
  f_zero := S754_zero false;
  f_one := sf_of_Z 1;
  f_half := sf_div (sf_of_Z 1) (sf_of_Z 2);
  f_of_Z := sf_of_Z;
  f_add := sf_add;
  f_sub := sf_sub;
  f_mul := sf_mul;
  f_div := sf_div;
  f_neg := SFopp;
  f_abs := SFabs;
  f_sin := l_sin T;
  f_cos := l_cos T;
  f_tan := l_tan T;
  f_exp := l_exp T;
  f_ln := l_ln T;
  f_asin := l_asin T;
  f_acos := l_acos T;
  f_atan := l_atan T;
  f_sqrt := sf_sqrt;
  f_powf := l_powf T;
  f_powi := sf_powi;
  f_eqb := SFeqb;
  f_ltb := SFltb
|}.

(** Some [libm], for examples. *)
Definition libm0 : libm :=
  mkLibm (fun x => x) (fun x => x) (fun x => x) (fun x => x) (fun x => x) (fun x => x)
         (fun x => x) (fun x => x) (fun x _ => x).
Definition d64 : Fops spec_float := f64ops libm0.

(** Decimal-free notation for example inputs. *)
Definition lit (n : Z) : spec_float := sf_of_Z n.
Definition half64 : spec_float := sf_div (sf_of_Z 1) (sf_of_Z 2).
