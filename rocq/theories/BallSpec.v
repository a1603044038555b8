(** Running error bounds: what a sweep in binary64 can differ from the exact sweep. *)
From Coq Require Import Reals ZArith Bool List SpecFloat.
From Flocq Require Import Core BinarySingleNaN.
From Verif Require Import Base Float FloatInst Tape RealInst F64Facts F64Ops.
Import ListNotations.
Local Open Scope R_scope.

(** [Some (c, r)]: the double differs from the exact number [c] by at most [r].  [None]: nothing is
    said (possible overflow, an argument too close to the edge of its domain, not a finite double). *)
Definition ball : Type := option (R * R).
Definition inside (x : spec_float) (b : ball) : Prop :=
  match b with Some (c, r) => exists v, f64 x v /\ Rabs (v - c) <= r | None => True end.
(** The ball is about the exact number [z]. *)
Definition about (b : ball) (z : R) : Prop := match b with Some (c, _) => c = z | None => True end.

Definition huge : R := 2 ^ 1000.
Definition lib_err : R := / 2 ^ 50.
Definition rleb (x y : R) : bool := if Rle_dec x y then true else false.

(** A correctly rounded operation whose exact result is within [e] of [c].  (Exact operands give
    the error of this one rounding, so numbers that need no rounding stay exact.) *)
Definition rounded (c e : R) : ball :=
  if rleb (Rabs c + e) huge
  then Some (c, if Reqb e 0 then Rabs (rnd c - c) else e + (ulp1 * (Rabs c + e) + tiny)) else None.
(** A libm function whose exact result is within [e] of [c]. *)
Definition lib (c e : R) : ball :=
  if rleb (Rabs c + e) huge then Some (c, e + (lib_err * (Rabs c + e) + tiny)) else None.

Definition b1 (f : R -> R -> ball) (a : ball) : ball := match a with Some (c, e) => f c e | None => None end.
Definition b2 (f : R -> R -> R -> R -> ball) (a b : ball) : ball :=
  match a, b with Some (c, e), Some (c', e') => f c e c' e' | _, _ => None end.

Definition b_add := b2 (fun c e c' e' => rounded (c + c') (e + e')).
Definition b_sub := b2 (fun c e c' e' => rounded (c - c') (e + e')).
Definition b_mul := b2 (fun c e c' e' => rounded (c * c') (e * Rabs c' + Rabs c * e' + e * e')).
Definition b_div := b2 (fun c e c' e' =>
  if Rltb e' (Rabs c') then rounded (c / c') ((e * Rabs c' + Rabs c * e') / (Rabs c' * (Rabs c' - e'))) else None).
Definition b_neg := b1 (fun c e => Some (- c, e)).
Definition b_abs := b1 (fun c e => Some (Rabs c, e)).
Definition b_sqrt := b1 (fun c e => if Rltb e c then rounded (sqrt c) (e / sqrt c) else None).
Definition b_sin := b1 (fun c e => lib (sin c) e).
Definition b_cos := b1 (fun c e => lib (cos c) e).
Definition b_atan := b1 (fun c e => lib (atan c) e).
Definition b_tan := b1 (fun c e =>
  if Rltb e (Rabs (cos c)) then lib (tan c) (e / ((Rabs (cos c) - e) * Rabs (cos c))) else None).
Definition b_exp := b1 (fun c e => lib (exp c) (exp (c + e) - exp c)).
Definition b_ln := b1 (fun c e => if Rltb e c then lib (ln c) (e / (c - e)) else None).
Definition b_asin := b1 (fun c e =>
  if Rltb (Rabs c + e) 1 then lib (asin c) (e / sqrt (1 - Rsqr (Rabs c + e))) else None).
Definition b_acos := b1 (fun c e =>
  if Rltb (Rabs c + e) 1 then lib (acos c) (e / sqrt (1 - Rsqr (Rabs c + e))) else None).
(** pow: exact non-negative integer exponents, and positive bases. *)
Definition natural (y : R) : option nat :=
  if Reqb (IZR (Int_part y)) y && (0 <=? Int_part y)%Z then Some (Z.to_nat (Int_part y)) else None.
Definition pow_nat (n : nat) (c e : R) : ball := lib (c ^ n) ((Rabs c + e) ^ n - Rabs c ^ n).
Definition pow_pos_base (c e c' e' : R) : ball :=
  if Rltb 0 c && Rltb e c
  then let l := e / (c - e) in
       lib (Rpower c c') (exp (c' * ln c + (e' * Rabs (ln c) + Rabs c' * l + e' * l)) - exp (c' * ln c))
  else None.
Definition b_powf := b2 (fun c e c' e' =>
  match natural c' with
  | Some n => if Reqb e' 0 then pow_nat n c e else pow_pos_base c e c' e'
  | None => pow_pos_base c e c' e'
  end).
Definition b_one : ball := Some (1, 0).

Definition Bops : Fops ball := {|
  f_zero := Some (0, 0);
  f_one := b_one;
  f_half := Some (/ 2, 0);
  f_of_Z := fun n => rounded (IZR n) 0;
  f_add := b_add; f_sub := b_sub; f_mul := b_mul; f_div := b_div; f_neg := b_neg; f_abs := b_abs;
  f_sin := b_sin; f_cos := b_cos; f_tan := b_tan; f_exp := b_exp; f_ln := b_ln;
  f_asin := b_asin; f_acos := b_acos; f_atan := b_atan; f_sqrt := b_sqrt; f_powf := b_powf;
  f_powi := fun b n => if (n =? 2)%Z then b_mul b_one (b_mul b b) else None;   (* the only exponent sweeps use *)
  f_eqb := fun _ _ => false;
  f_ltb := fun a b => match a, b with Some (c, _), Some (c', _) => Rltb c c' | _, _ => false end   (* of the centres *)
|}.

(** The libm is accurate to a few ulps wherever the exact result is far from overflow. *)
Definition near (x : spec_float) (z : R) : Prop := exists v, f64 x v /\ Rabs (v - z) <= lib_err * Rabs z + tiny.
Definition accurate_on (dom : R -> Prop) (f : spec_float -> spec_float) (g : R -> R) : Prop :=
  forall x a, f64 x a -> dom a -> Rabs (g a) <= huge -> near (f x) (g a).
Record libm_accurate (T : libm) : Prop := {
  la_sin : accurate_on (fun _ => True) (l_sin T) sin;
  la_cos : accurate_on (fun _ => True) (l_cos T) cos;
  la_tan : accurate_on (fun a => cos a <> 0) (l_tan T) tan;
  la_exp : accurate_on (fun _ => True) (l_exp T) exp;
  la_ln : accurate_on (fun a => 0 < a) (l_ln T) ln;
  la_asin : accurate_on (fun a => -1 < a < 1) (l_asin T) asin;
  la_acos : accurate_on (fun a => -1 < a < 1) (l_acos T) acos;
  la_atan : accurate_on (fun _ => True) (l_atan T) atan;
  la_powf : forall x y a b, f64 x a -> f64 y b -> 0 < a \/ (exists n : nat, b = INR n) ->
            Rabs (Rpowf a b) <= huge -> near (l_powf T x y) (Rpowf a b)
}.

(** A double, exactly, and its value. *)
Definition real_of (x : spec_float) : R := SF2R radix2 x.
Definition point (x : spec_float) : ball :=
  if valid_binary prec64 emax64 x && is_finite_SF x then Some (real_of x, 0) else None.
Definition map_tape {F G : Type} (f : F -> G) (t : tape F) : tape G :=
  mkTape (t_indeps t) (t_deps t) (t_ops t) (map f (t_vals t)).
