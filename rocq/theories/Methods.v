(** Model of the arithmetic and [Float] methods of src/afloat.rs and of user functions.

    In Rust a user function is generic code over these methods.  The methods are therefore
    defined here over an abstract variable type [V] with one effectful primitive [fop]
    ([AFloat::from_op]) and constants [cst] ([AFloat::new(c, 0)]); instantiating
    [V := AF S], [fop := from_op] gives the code of afloat.rs. *)
From Coq Require Import List Arith ZArith Bool Lia.
From Verif Require Import Base Float Operation Tape AContext.
Import ListNotations.

(** Unary methods: afloat.rs:133-138 (neg), 321-329, 336-350, 356-362, 376-378.
    [UUnsupported] stands for the panicking ones, afloat.rs:305-318. *)
Inductive un : Type :=
| UNeg | UAbs | UExp | ULn | USin | UCos | UTan | UAsin | UAcos | UAtan
| URecip | UPowi (n : Z) | USqrt | UExp2 | ULog2 | ULog10 | UCbrt | UUnsupported.

(** Binary methods: afloat.rs:140-168, 330, 352-354, 364-374, 380-382.
    [BUnsupported] stands for [%] (afloat.rs:193-198) and [atan2] (afloat.rs:319). *)
Inductive bin : Type :=
| BAdd | BSub | BMul | BDiv | BPowf | BLog | BMax | BMin | BAbsSub | BHypot | BUnsupported.

(** A user function body: registers hold variables, the inputs are registers 0..n-1 and every
    [Let] appends one register.  [Inspect a k] reads the value of register [a]
    ([value()], comparisons, [is_nan()], ...) and continues in any way depending on it. *)
Inductive prog (S : Type) : Type :=
| Ret (outs : list nat)
| LetC (c : S) (p : prog S)
| Let1 (u : un) (a : nat) (p : prog S)
| Let2 (b : bin) (a1 a2 : nat) (p : prog S)
| LetMulAdd (a1 a2 a3 : nat) (p : prog S)
| Inspect (a : nat) (k : S -> prog S)
| Abort.
Arguments Ret {S}. Arguments LetC {S}. Arguments Let1 {S}. Arguments Let2 {S}.
Arguments LetMulAdd {S}. Arguments Inspect {S}. Arguments Abort {S}.

Section Methods.
Context {S V St : Type} (So : Fops S).
Context (fop : OpCode -> V -> option V -> M St V) (cst : S -> V) (val : V -> S).

(** afloat.rs:140-168 [binary_op!]; the variants with an [f64] operand convert it with
    [NumCast::from], i.e. [cst]; the assigning variants (afloat.rs:170-191) store the result
    back. *)
Definition m_add (a b : V) : M St V := fop Add a (Some b).
Definition m_sub (a b : V) : M St V := fop Sub a (Some b).
Definition m_mul (a b : V) : M St V := fop Mul a (Some b).
Definition m_div (a b : V) : M St V := fop Div a (Some b).

(** afloat.rs:321-330 [float_elemental!], [float_elemental2!] *)
Definition m_abs (a : V) : M St V := fop Abs a None.
Definition m_exp (a : V) : M St V := fop Exp a None.
Definition m_ln (a : V) : M St V := fop Ln a None.
Definition m_sin (a : V) : M St V := fop Sin a None.
Definition m_cos (a : V) : M St V := fop Cos a None.
Definition m_tan (a : V) : M St V := fop Tan a None.
Definition m_asin (a : V) : M St V := fop Asin a None.
Definition m_acos (a : V) : M St V := fop Acos a None.
Definition m_atan (a : V) : M St V := fop Atan a None.
Definition m_powf (a b : V) : M St V := fop Powf a (Some b).

(** afloat.rs:219-221, 229-232 *)
Definition c_zero : V := cst (f_zero So).
Definition c_one : V := cst (f_one So).

(** afloat.rs:133-138 *)
Definition m_neg (a : V) : M St V := t <~ m_sub c_zero c_one ;; m_mul t a.

(** afloat.rs:332-334 *)
Definition m_mul_add (a b c : V) : M St V := t <~ m_mul a b ;; m_add t c.

(** afloat.rs:336-338 *)
Definition m_recip (a : V) : M St V := m_div c_one a.

(** afloat.rs:340-342 *)
Definition m_powi (a : V) (n : Z) : M St V := m_powf a (cst (f_of_Z So n)).

(** afloat.rs:344-346 *)
Definition m_sqrt (a : V) : M St V := m_powf a (cst (f_half So)).

(** afloat.rs:348-350 *)
Definition m_exp2 (a : V) : M St V := m_powf (cst (f_of_Z So 2)) a.

(** afloat.rs:352-354 *)
Definition m_log (a base : V) : M St V := t <~ m_ln a ;; u <~ m_ln base ;; m_div t u.

(** afloat.rs:356-358, 360-362 *)
Definition m_log2 (a : V) : M St V := m_log a (cst (f_of_Z So 2)).
Definition m_log10 (a : V) : M St V := m_log a (cst (f_of_Z So 10)).

(** afloat.rs:364-366 *)
Definition m_max (a b : V) : M St V :=
  s <~ m_add a b ;; d <~ m_sub a b ;; d <~ m_abs d ;; s <~ m_add s d ;;
  m_mul (cst (f_half So)) s.

(** afloat.rs:368-370 *)
Definition m_min (a b : V) : M St V :=
  s <~ m_add a b ;; d <~ m_sub a b ;; d <~ m_abs d ;; s <~ m_sub s d ;;
  m_mul (cst (f_half So)) s.

(** afloat.rs:372-374 *)
Definition m_abs_sub (a b : V) : M St V := d <~ m_sub a b ;; m_abs d.

(** afloat.rs:376-378 *)
Definition m_cbrt (a : V) : M St V :=
  e <~ m_div c_one (cst (f_of_Z So 3)) ;; m_powf a e.

(** afloat.rs:380-382 *)
Definition m_hypot (a b : V) : M St V :=
  x <~ m_powi a 2 ;; y <~ m_powi b 2 ;; s <~ m_add x y ;; m_sqrt s.

(** afloat.rs:384-386 *)
Definition m_sin_cos (a : V) : M St (V * V) :=
  s <~ m_sin a ;; c <~ m_cos a ;; mret (s, c).

Definition meth1 (u : un) (a : V) : M St V :=
  match u with
  | UNeg => m_neg a | UAbs => m_abs a | UExp => m_exp a | ULn => m_ln a | USin => m_sin a
  | UCos => m_cos a | UTan => m_tan a | UAsin => m_asin a | UAcos => m_acos a
  | UAtan => m_atan a | URecip => m_recip a | UPowi n => m_powi a n | USqrt => m_sqrt a
  | UExp2 => m_exp2 a | ULog2 => m_log2 a | ULog10 => m_log10 a | UCbrt => m_cbrt a
  | UUnsupported => mlift (Panic PUnsupported)
  end.

Definition meth2 (b : bin) (x y : V) : M St V :=
  match b with
  | BAdd => m_add x y | BSub => m_sub x y | BMul => m_mul x y | BDiv => m_div x y
  | BPowf => m_powf x y | BLog => m_log x y | BMax => m_max x y | BMin => m_min x y
  | BAbsSub => m_abs_sub x y | BHypot => m_hypot x y
  | BUnsupported => mlift (Panic PUnsupported)
  end.

(** Executing a user function on a vector of variables. *)
Fixpoint run (p : prog S) (env : list V) {struct p} : M St (list V) :=
  match p with
  | Ret outs => mlift (mapM (get env) outs)
  | LetC c p' => run p' (env ++ [cst c])
  | Let1 u a p' => x <~ mlift (get env a) ;; r <~ meth1 u x ;; run p' (env ++ [r])
  | Let2 b a1 a2 p' =>
      x <~ mlift (get env a1) ;; y <~ mlift (get env a2) ;;
      r <~ meth2 b x y ;; run p' (env ++ [r])
  | LetMulAdd a1 a2 a3 p' =>
      x <~ mlift (get env a1) ;; y <~ mlift (get env a2) ;; z <~ mlift (get env a3) ;;
      r <~ m_mul_add x y z ;; run p' (env ++ [r])
  | Inspect a k => x <~ mlift (get env a) ;; run (k (val x)) env
  | Abort => mlift (Panic PUser)
  end.

End Methods.

(** The AFloat instance: evaluating a user function on [ADouble]s. *)
Definition run_af {S F : Type} (So : Fops S) (tof : S -> option F) (p : prog S)
  : list (AF S) -> M (world F) (list (AF S)) :=
  run So (from_op So tof) (af_const So) af_v p.

(** A program that never inspects values: its control flow is the same for all inputs. *)
Fixpoint straight {S : Type} (p : prog S) : Prop :=
  match p with
  | Ret _ => True
  | LetC _ p' | Let1 _ _ p' | Let2 _ _ _ p' | LetMulAdd _ _ _ p' => straight p'
  | Inspect _ _ => False
  | Abort => True
  end.
