(** User functions called with plain floating point numbers.

    `adv_fn!` generates a function that is generic over the scalar (macros.rs:46-64, scalar.rs:48-64);
    it can be called with a vector of `f64`, as in the example in its documentation (macros.rs:32-42),
    in which case the methods are those of `f64`, not those of src/afloat.rs. *)
From Coq Require Import Reals List Arith ZArith Bool SpecFloat.
From Flocq Require Import Core BinarySingleNaN.
From Verif Require Import Base Float FloatInst Methods MethodSpec Function F64Facts.
Import ListNotations.

(** The methods of a scalar type *)
Record native (S : Type) : Type := mkNative {
  n1 : un -> S -> S;
  n2 : bin -> S -> S -> S;
  n_mul_add : S -> S -> S -> S
}.
Arguments mkNative {S}. Arguments n1 {S}. Arguments n2 {S}. Arguments n_mul_add {S}.

Section Plain.
Context {S : Type} (N : native S).

(** The body of a function on numbers. *)
Fixpoint plain_run (p : prog S) (env : list S) {struct p} : res (list S) :=
  match p with
  | Ret outs => mapM (get env) outs
  | LetC c p' => plain_run p' (env ++ [c])
  | Let1 u a p' => x <- get env a ;; plain_run p' (env ++ [n1 N u x])
  | Let2 b a1 a2 p' => x <- get env a1 ;; y <- get env a2 ;; plain_run p' (env ++ [n2 N b x y])
  | LetMulAdd a1 a2 a3 p' =>
      x <- get env a1 ;; y <- get env a2 ;; z <- get env a3 ;; plain_run p' (env ++ [n_mul_add N x y z])
  | Inspect a k => x <- get env a ;; plain_run (k x) env
  | Abort => Panic PUser
  end.

(** macros.rs:46-64: the generated function with its checks of both lengths; functions of a chain
    are called one after the other. *)
Fixpoint plain (f : func S) (x : list S) {struct f} : res (list S) :=
  match f with
  | Simple _ _ p => plain_run p x
  | AdvFn n m p =>
      _ <- assert (length x =? n) ;; r <- plain_run p x ;; _ <- assert (length r =? m) ;; Ok r
  | Chain fs =>
      (fix go (l : list (func S)) (cur : list S) {struct l} : res (list S) :=
         match l with
         | [] => Ok cur
         | g :: l' => nxt <- plain g cur ;; go l' nxt
         end) fs x
  end.

(** The arguments of all method calls a function makes at [x] are in the given sets. *)
Context (ok1 : un -> S -> Prop) (ok2 : bin -> S -> S -> Prop).

Fixpoint calls_in (p : prog S) (env : list S) {struct p} : Prop :=
  match p with
  | Ret _ | Abort => True
  | LetC c p' => calls_in p' (env ++ [c])
  | Let1 u a p' => forall x, get env a = Ok x -> ok1 u x /\ calls_in p' (env ++ [n1 N u x])
  | Let2 b a1 a2 p' => forall x y, get env a1 = Ok x -> get env a2 = Ok y ->
      ok2 b x y /\ calls_in p' (env ++ [n2 N b x y])
  | LetMulAdd a1 a2 a3 p' => forall x y z, get env a1 = Ok x -> get env a2 = Ok y -> get env a3 = Ok z ->
      calls_in p' (env ++ [n_mul_add N x y z])
  | Inspect a k => forall x, get env a = Ok x -> calls_in (k x) env
  end.

Fixpoint calls_in_f (f : func S) (x : list S) {struct f} : Prop :=
  match f with
  | Simple _ _ p => calls_in p x
  | AdvFn _ _ p => calls_in p x
  | Chain fs =>
      (fix go (l : list (func S)) (cur : list S) {struct l} : Prop :=
         match l with
         | [] => True
         | g :: l' => calls_in_f g cur /\ forall nxt, plain g cur = Ok nxt -> go l' nxt
         end) fs x
  end.

End Plain.

(** Exact arithmetic: the methods as documented. *)
Definition exact_methods : native R := mkNative sem1 sem2 (fun x y z => x * y + z)%R.

(** The methods of `f64`: Rust's standard library.  [T]: the functions that AFloat uses as well;
    [L1], [L2], [fma]: further functions of the platform.  `f64::log` is defined as the quotient of
    the logarithms; `f64::max` and `min` ignore a NaN operand; `f64::abs_sub` is C's fdim. *)
Definition native64 (T : libm) (L1 : un -> spec_float -> spec_float)
  (L2 : bin -> spec_float -> spec_float -> spec_float)
  (fma : spec_float -> spec_float -> spec_float -> spec_float) : native spec_float :=
  mkNative
    (fun u x => match u with
     | UNeg => SFopp x | UAbs => SFabs x | UExp => l_exp T x | ULn => l_ln T x | USin => l_sin T x
     | UCos => l_cos T x | UTan => l_tan T x | UAsin => l_asin T x | UAcos => l_acos T x
     | UAtan => l_atan T x | URecip => sf_div (sf_of_Z 1) x | UPowi n => sf_powi x n | USqrt => sf_sqrt x
     | UExp2 | ULog2 | ULog10 | UCbrt | UUnsupported => L1 u x
     end)
    (fun b x y => match b with
     | BAdd => sf_add x y | BSub => sf_sub x y | BMul => sf_mul x y | BDiv => sf_div x y
     | BPowf => l_powf T x y
     | BLog => sf_div (l_ln T x) (l_ln T y)
     | BMax => if SFeqb x x then if SFeqb y y then if SFltb x y then y else x else x else y
     | BMin => if SFeqb x x then if SFeqb y y then if SFltb y x then y else x else x else y
     | BAbsSub => if SFleb x y then S754_zero false else sf_sub x y
     | BHypot | BUnsupported => L2 b x y
     end)
    fma.

(** A binary64 number: finite, infinite or NaN. *)
Definition double (x : spec_float) : Prop := exists b : b64, B2SF b = x.
Definition libm_doubles (T : libm) : Prop :=
  (forall x, double x -> double (l_sin T x) /\ double (l_cos T x) /\ double (l_tan T x) /\
     double (l_exp T x) /\ double (l_ln T x) /\ double (l_asin T x) /\ double (l_acos T x) /\
     double (l_atan T x)) /\
  (forall x y, double x -> double y -> double (l_powf T x y)).

(** Methods that are one operation of the processor or of libm. *)
Definition basic1 (u : un) : bool :=
  match u with
  | UPowi _ | USqrt | UExp2 | ULog2 | ULog10 | UCbrt | UUnsupported => false
  | _ => true
  end.
Definition basic2 (b : bin) : bool :=
  match b with BMax | BMin | BAbsSub | BHypot | BUnsupported => false | _ => true end.

(** The function only uses these; its constants are doubles. *)
Fixpoint basic (p : prog spec_float) : Prop :=
  match p with
  | Ret _ | Abort => True
  | LetC c p' => double c /\ basic p'
  | Let1 u _ p' => basic1 u = true /\ basic p'
  | Let2 b _ _ p' => basic2 b = true /\ basic p'
  | LetMulAdd _ _ _ _ => False
  | Inspect _ k => forall v, basic (k v)
  end.
Fixpoint basic_f (f : func spec_float) : Prop :=
  match f with
  | Simple _ _ p | AdvFn _ _ p => basic p
  | Chain fs => (fix go (l : list (func spec_float)) : Prop :=
                   match l with [] => True | g :: l' => basic_f g /\ go l' end) fs
  end.
