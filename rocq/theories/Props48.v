(** Property theorems C99: constants, parsing and queries. *)
From Coq Require Import Reals List Arith Bool ZArith String SpecFloat.
From Verif Require Import Base Float FloatInst Operation AContext Methods F64Facts Traits TraitsSpec TraitsFacts TraitsMin.
Import ListNotations.
Open Scope R_scope.

(** *** C99 Every query of a variable, nested to any depth, on any tape and with any derivatives, answers
    for the number at its bottom. *)
Theorem C99_queries :
  forall (F : Type) (T : Traits F) (k : nat) (x : tower F k),
  let v := bottom k x in let TT := tower_traits T in
  t_is_zero (TT k) x = t_is_zero T v /\ t_is_one (TT k) x = t_is_one T v /\
  t_is_nan (TT k) x = t_is_nan T v /\ t_is_infinite (TT k) x = t_is_infinite T v /\
  t_is_finite (TT k) x = t_is_finite T v /\ t_is_normal (TT k) x = t_is_normal T v /\
  t_is_sign_positive (TT k) x = t_is_sign_positive T v /\ t_is_sign_negative (TT k) x = t_is_sign_negative T v /\
  t_classify (TT k) x = t_classify T v /\ t_integer_decode (TT k) x = t_integer_decode T v.
Proof. exact @tower_queries. Qed.
Print Assumptions C99_queries.

(** The constants are constants: no derivative, no context, the scalar's value. *)
Theorem C99_constants :
  forall (F : Type) (T : Traits F) (k : nat),
  let cst := constant (t_zero T) k in let TT := tower_traits T in
  cst (t_zero T) (t_zero (TT k)) /\ cst (t_one T) (t_one (TT k)) /\ cst (t_nan T) (t_nan (TT k)) /\
  cst (t_infinity T) (t_infinity (TT k)) /\ cst (t_neg_infinity T) (t_neg_infinity (TT k)) /\
  cst (t_neg_zero T) (t_neg_zero (TT k)) /\ cst (t_min_value T) (t_min_value (TT k)) /\
  cst (t_min_positive_value T) (t_min_positive_value (TT k)) /\ cst (t_max_value T) (t_max_value (TT k)).
Proof. exact @tower_constants. Qed.
Print Assumptions C99_constants.

(** Parsing succeeds exactly when it does for the scalar, with the constant of the scalar's value. *)
Theorem C99_parse :
  forall (F : Type) (T : Traits F) (k : nat) (s : string) (radix : Z),
  match t_from_str_radix T s radix with
  | Some v => exists x, t_from_str_radix (tower_traits T k) s radix = Some x /\ constant (t_zero T) k v x
  | None => t_from_str_radix (tower_traits T k) s radix = None
  end.
Proof. exact @tower_parse. Qed.
Print Assumptions C99_parse.

(** In binary64 (for every sign and payload of NaN, every parser) the decoded triple is exact and
    determines the number, *)
Theorem C99_decode_exact :
  forall (neg : bool) (bits : Z) (parse : string -> Z -> option spec_float) (x : spec_float) (a : R),
  f64 x a ->
  let '(m, e, s) := t_integer_decode (traits64 neg bits parse) x in
  a = IZR s * IZR m * powerRZ 2 e /\ (0 <= m < 2 ^ 53)%Z /\ (-1075 <= e <= 971)%Z /\ (s = 1 \/ s = -1)%Z.
Proof. exact decode_exact. Qed.
Print Assumptions C99_decode_exact.

Theorem C99_decode_injective :
  forall (neg : bool) (bits : Z) (parse : string -> Z -> option spec_float),
  (0 < bits < 2 ^ 52)%Z ->
  forall x y : spec_float, double x -> double y ->
  t_integer_decode (traits64 neg bits parse) x = t_integer_decode (traits64 neg bits parse) y -> x = y.
Proof. exact decode_injective. Qed.
Print Assumptions C99_decode_injective.

(** the categories are what they are called, *)
Theorem C99_classify :
  forall (neg : bool) (bits : Z) (parse : string -> Z -> option spec_float),
  (0 < bits < 2 ^ 52)%Z ->
  forall (x : spec_float) (c : category), double x ->
  t_classify (traits64 neg bits parse) x = c <-> in_category x c.
Proof. exact classify_right. Qed.
Print Assumptions C99_classify.

Theorem C99_predicates :
  forall (neg : bool) (bits : Z) (parse : string -> Z -> option spec_float),
  (0 < bits < 2 ^ 52)%Z ->
  forall x : spec_float, let T64 := traits64 neg bits parse in double x ->
  (t_is_nan T64 x = true <-> t_classify T64 x = CNan) /\
  (t_is_infinite T64 x = true <-> t_classify T64 x = CInfinite) /\
  (t_is_zero T64 x = true <-> t_classify T64 x = CZero) /\
  (t_is_normal T64 x = true <-> t_classify T64 x = CNormal) /\
  (t_is_finite T64 x = true <-> exists a, f64 x a) /\
  (t_is_one T64 x = true <-> f64 x 1) /\
  t_is_sign_positive T64 x = negb (t_is_sign_negative T64 x) /\
  (forall a, f64 x a -> (a < 0 -> t_is_sign_negative T64 x = true) /\ (0 < a -> t_is_sign_negative T64 x = false)).
Proof. exact queries_right. Qed.
Print Assumptions C99_predicates.

(** and the constants bound what they are named after. *)
Theorem C99_extreme_values :
  forall (neg : bool) (bits : Z) (parse : string -> Z -> option spec_float),
  (0 < bits < 2 ^ 52)%Z ->
  let T64 := traits64 neg bits parse in let largest := (2 - / 2 ^ 52) * 2 ^ 1023 in
  f64 (t_zero T64) 0 /\ f64 (t_one T64) 1 /\ f64 (t_neg_zero T64) 0 /\ t_neg_zero T64 <> t_zero T64 /\
  t_is_sign_negative T64 (t_neg_zero T64) = true /\
  t_is_nan T64 (t_nan T64) = true /\
  f64 (t_max_value T64) largest /\ f64 (t_min_value T64) (- largest) /\
  (forall x a, f64 x a -> - largest <= a <= largest) /\
  (forall x a, f64 x a -> SFltb x (t_infinity T64) = true /\ SFltb (t_neg_infinity T64) x = true) /\
  f64 (t_min_positive_value T64) (/ 2 ^ 1022) /\ t_is_normal T64 (t_min_positive_value T64) = true /\
  (forall x a, f64 x a -> 0 < a -> t_is_normal T64 x = true -> / 2 ^ 1022 <= a).
Proof. exact constants_right. Qed.
Print Assumptions C99_extreme_values.

(** But they are no neutral elements of AFloat's min and max: searches that start with them return
    0 or NaN, whatever the libm. *)
Theorem C99_search_from_extreme_refuted :
  forall (F : Type) (T : libm) (tof : spec_float -> option F)
    (neg : bool) (bits : Z) (parse : string -> Z -> option spec_float)
    (x y r : AF spec_float) (w w' : world F) (a : R),
  let T64 := traits64 neg bits parse in
  let op2 o := meth2 (f64ops T) (from_op (f64ops T) tof) (af_const (f64ops T)) o in
  f64 (af_v x) a -> Rabs a <= 2 ^ 969 ->
  (op2 BMin x y w = Ok (r, w') -> af_v y = t_max_value T64 -> f64 (af_v r) 0) /\
  (op2 BMin y x w = Ok (r, w') -> af_v y = t_max_value T64 -> f64 (af_v r) 0) /\
  (op2 BMax x y w = Ok (r, w') -> af_v y = t_min_value T64 -> f64 (af_v r) 0) /\
  (op2 BMax y x w = Ok (r, w') -> af_v y = t_min_value T64 -> f64 (af_v r) 0).
Proof. exact @min_with_max_value. Qed.
Print Assumptions C99_search_from_extreme_refuted.

Theorem C99_search_from_infinity_refuted :
  forall (F : Type) (T : libm) (tof : spec_float -> option F)
    (neg : bool) (bits : Z) (parse : string -> Z -> option spec_float)
    (x y r : AF spec_float) (w w' : world F) (a : R),
  let T64 := traits64 neg bits parse in
  let op2 o := meth2 (f64ops T) (from_op (f64ops T) tof) (af_const (f64ops T)) o in
  f64 (af_v x) a ->
  (op2 BMin x y w = Ok (r, w') -> af_v y = t_infinity T64 -> af_v r = t_nan T64) /\
  (op2 BMin y x w = Ok (r, w') -> af_v y = t_infinity T64 -> af_v r = t_nan T64) /\
  (op2 BMax x y w = Ok (r, w') -> af_v y = t_neg_infinity T64 -> af_v r = t_nan T64) /\
  (op2 BMax y x w = Ok (r, w') -> af_v y = t_neg_infinity T64 -> af_v r = t_nan T64).
Proof. exact @min_with_infinity. Qed.
Print Assumptions C99_search_from_infinity_refuted.

(** min(1, MAX) = 0 and min(inf, 1) = NaN; -3/2 is (6755399441055744, -52, -1), a variable of a context
    with derivatives two levels deep; the smallest double is subnormal. *)
Definition ex_parse : string -> Z -> option spec_float := fun s _ => if String.eqb s "1" then Some (lit 1) else None.
Definition ex_t : Traits spec_float := traits64 false (2 ^ 51) ex_parse.
Definition ex_deep : tower spec_float 2 :=
  mkAF (mkAF (S754_finite true 6755399441055744 (-52)) (lit 7) (Some (0%nat, 3%nat))) (mkAF (lit 1) (lit 2) None) (Some (4%nat, 1%nat)).
Example C99_example :
  (0 < 2 ^ 51 < 2 ^ 52)%Z /\ f64 (lit 1) 1 /\ Rabs 1 <= 2 ^ 969 /\
  (exists r, meth2 d64 (from_op d64 Some) (af_const d64) BMin (af_const d64 (lit 1)) (t_max_value (af_traits ex_t))
     (world0 (F := spec_float)) = Ok (r, world0) /\ af_v r = S754_zero false) /\
  (exists r, meth2 d64 (from_op d64 Some) (af_const d64) BMin (t_infinity (af_traits ex_t)) (af_const d64 (lit 1))
     (world0 (F := spec_float)) = Ok (r, world0) /\ af_v r = S754_nan) /\
  t_integer_decode (tower_traits ex_t 2) ex_deep = (6755399441055744, -52, -1)%Z /\
  t_classify (tower_traits ex_t 2) ex_deep = CNormal /\
  t_classify ex_t (S754_finite false 1 (-1074)) = CSubnormal /\
  double (S754_finite true 6755399441055744 (-52)) /\
  t_from_str_radix (tower_traits ex_t 1) "1" 10 = Some (af_const d64 (lit 1)) /\
  t_from_str_radix (tower_traits ex_t 1) "x" 10 = None.
Proof.
  split; [split; reflexivity|]. split; [exact (proj1 (proj2 (constants_right false (2 ^ 51) ex_parse (conj eq_refl eq_refl))))|].
  split; [rewrite Rabs_R1; apply pow_R1_Rle; apply (IZR_le 1 2); discriminate|].
  split; [eexists; split; vm_compute; reflexivity|]. split; [eexists; split; vm_compute; reflexivity|].
  repeat split; vm_compute; reflexivity.
Qed.
