(** Model of src/operation.rs. *)
From Coq Require Import List Arith ZArith Bool Lia.
From Verif Require Import Base Float.
Import ListNotations.

(** operation.rs:5-22 [enum OpCode] *)
Inductive OpCode : Type :=
| Nop | Const | Add | Sub | Mul | Div | Sin | Cos | Tan | Abs | Exp | Ln | Asin | Acos | Atan
| Powf.

(** [#[derive(PartialEq)]], operation.rs:4 *)
Definition opcode_eqb (a b : OpCode) : bool :=
  match a, b with
  | Nop, Nop | Const, Const | Add, Add | Sub, Sub | Mul, Mul | Div, Div | Sin, Sin | Cos, Cos
  | Tan, Tan | Abs, Abs | Exp, Exp | Ln, Ln | Asin, Asin | Acos, Acos | Atan, Atan
  | Powf, Powf => true
  | _, _ => false
  end.

(** operation.rs:87-98 [struct Operation] *)
Record operation : Type := mkOp {
  opcode : OpCode;
  vid : nat;
  arg1 : option nat;
  arg2 : option nat
}.

(** operation.rs:101-108 [Operation::nop] *)
Definition op_nop : operation := mkOp Nop 0 None None.

(** operation.rs:110-117 [Operation::constant] *)
Definition op_constant (v : nat) : operation := mkOp Const v None None.

(** operation.rs:119-153 and 236-243: binary constructors [add sub mul div powf] *)
Definition op_add (v lhs rhs : nat) : operation := mkOp Add v (Some lhs) (Some rhs).
Definition op_sub (v lhs rhs : nat) : operation := mkOp Sub v (Some lhs) (Some rhs).
Definition op_mul (v lhs rhs : nat) : operation := mkOp Mul v (Some lhs) (Some rhs).
Definition op_div (v lhs rhs : nat) : operation := mkOp Div v (Some lhs) (Some rhs).
Definition op_powf (v base expo : nat) : operation := mkOp Powf v (Some base) (Some expo).

(** operation.rs:155-234: unary constructors [sin cos tan abs exp ln asin acos atan] *)
Definition op_sin (v i : nat) : operation := mkOp Sin v (Some i) None.
Definition op_cos (v i : nat) : operation := mkOp Cos v (Some i) None.
Definition op_tan (v i : nat) : operation := mkOp Tan v (Some i) None.
Definition op_abs (v i : nat) : operation := mkOp Abs v (Some i) None.
Definition op_exp (v i : nat) : operation := mkOp Exp v (Some i) None.
Definition op_ln (v i : nat) : operation := mkOp Ln v (Some i) None.
Definition op_asin (v i : nat) : operation := mkOp Asin v (Some i) None.
Definition op_acos (v i : nat) : operation := mkOp Acos v (Some i) None.
Definition op_atan (v i : nat) : operation := mkOp Atan v (Some i) None.

Section Operation.
Context {F : Type} (Fo : Fops F).

Local Notation zero := (f_zero Fo).
Local Notation one := (f_one Fo).
Local Notation "a +! b" := (f_add Fo a b) (at level 50, left associativity).
Local Notation "a -! b" := (f_sub Fo a b) (at level 50, left associativity).
Local Notation "a *! b" := (f_mul Fo a b) (at level 40, left associativity).
Local Notation "a /! b" := (f_div Fo a b) (at level 40, left associativity).

(** operation.rs:24-42 [zero_order_value] *)
Definition zero_order_value (oc : OpCode) (a1 : F) (a2 : option F) : res F :=
  match oc with
  | Add => y <- unwrap a2 ;; Ok (a1 +! y)
  | Sub => y <- unwrap a2 ;; Ok (a1 -! y)
  | Mul => y <- unwrap a2 ;; Ok (a1 *! y)
  | Div => y <- unwrap a2 ;; Ok (a1 /! y)
  | Sin => Ok (f_sin Fo a1)
  | Cos => Ok (f_cos Fo a1)
  | Tan => Ok (f_tan Fo a1)
  | Abs => Ok (f_abs Fo a1)
  | Exp => Ok (f_exp Fo a1)
  | Ln => Ok (f_ln Fo a1)
  | Asin => Ok (f_asin Fo a1)
  | Acos => Ok (f_acos Fo a1)
  | Atan => Ok (f_atan Fo a1)
  | Powf => y <- unwrap a2 ;; Ok (f_powf Fo a1 y)
  | Nop | Const => Panic POpcode
  end.

(** operation.rs:44-85 [first_order_value] *)
Definition first_order_value (oc : OpCode) (a1 : F) (a2 : option F) (d1 : F) (d2 : option F)
  : res F :=
  match oc with
  | Add => dy <- unwrap d2 ;; Ok (d1 +! dy)
  | Sub => dy <- unwrap d2 ;; Ok (d1 -! dy)
  | Mul => y <- unwrap a2 ;; dy <- unwrap d2 ;; Ok (d1 *! y +! a1 *! dy)
  | Div => y <- unwrap a2 ;; dy <- unwrap d2 ;;
           Ok ((d1 *! y -! a1 *! dy) /! f_powi Fo y 2)
  | Sin => Ok (d1 *! f_cos Fo a1)
  | Cos => Ok (f_neg Fo d1 *! f_sin Fo a1)
  | Tan => Ok (d1 *! (one /! f_powi Fo (f_cos Fo a1) 2))
  | Abs => Ok (f_abs Fo (a1 +! d1) -! f_abs Fo a1)
  | Exp => Ok (d1 *! f_exp Fo a1)
  | Ln => Ok (d1 *! (one /! a1))
  | Asin => Ok (d1 /! f_sqrt Fo (one -! f_powi Fo a1 2))
  | Acos => Ok (f_neg Fo d1 /! f_sqrt Fo (one -! f_powi Fo a1 2))
  | Atan => Ok (d1 /! (one +! f_powi Fo a1 2))
  | Powf =>
      y <- unwrap a2 ;; dy <- unwrap d2 ;;
      let rv1 := if negb (f_eqb Fo d1 zero) then y *! f_powf Fo a1 (y -! one) *! d1 else zero in
      let rv2 := if negb (f_eqb Fo dy zero) then f_ln Fo a1 *! f_powf Fo a1 y *! dy else zero in
      Ok (rv1 +! rv2)
  | Nop | Const => Panic POpcode
  end.

(** operation.rs:245-254 [Operation::zero_order]; [v] is the mutable slice. *)
Definition op_zero_order (o : operation) (v : list F) : res (list F) :=
  match opcode o with
  | Nop => Ok v
  | Const => Ok v
  | oc =>
      i1 <- unwrap (arg1 o) ;; x1 <- get v i1 ;;
      x2 <- optM (get v) (arg2 o) ;;
      r <- zero_order_value oc x1 x2 ;;
      set v (vid o) r
  end.

(** operation.rs:256-272 [Operation::first_order] *)
Definition op_first_order (o : operation) (v dv : list F) : res (list F) :=
  match opcode o with
  | Nop => Ok dv
  | Const => set dv (vid o) zero
  | oc =>
      i1 <- unwrap (arg1 o) ;; x1 <- get v i1 ;;
      x2 <- optM (get v) (arg2 o) ;;
      d1 <- get dv i1 ;;
      d2 <- optM (get dv) (arg2 o) ;;
      r <- first_order_value oc x1 x2 d1 d2 ;;
      set dv (vid o) r
  end.

(** [vbar[i] += d] *)
Definition add_at (vbar : list F) (i : nat) (d : F) : res (list F) :=
  old <- get vbar i ;; set vbar i (old +! d).

(** operation.rs:274-334 [Operation::first_order_reverse] *)
Definition op_first_order_reverse (o : operation) (v vbar : list F) : res (list F) :=
  match opcode o with
  | Nop => Ok vbar
  | Const => Ok vbar
  | Add =>
      i <- unwrap (arg1 o) ;; b <- get vbar (vid o) ;;
      vbar <- add_at vbar i b ;;
      j <- unwrap (arg2 o) ;; b <- get vbar (vid o) ;;
      add_at vbar j b
  | Sub =>
      i <- unwrap (arg1 o) ;; b <- get vbar (vid o) ;;
      vbar <- add_at vbar i b ;;
      j <- unwrap (arg2 o) ;; b <- get vbar (vid o) ;;
      add_at vbar j (f_neg Fo b)
  | Mul =>
      i <- unwrap (arg1 o) ;; j <- unwrap (arg2 o) ;;
      x <- get v i ;; y <- get v j ;;
      b <- get vbar (vid o) ;;
      vbar <- add_at vbar i (b *! y) ;;
      b <- get vbar (vid o) ;;
      add_at vbar j (b *! x)
  | Div =>
      i <- unwrap (arg1 o) ;; j <- unwrap (arg2 o) ;;
      x <- get v i ;; y <- get v j ;;
      b <- get vbar (vid o) ;;
      vbar <- add_at vbar i (b *! one /! y) ;;
      b <- get vbar (vid o) ;;
      add_at vbar j (b *! (f_neg Fo x /! f_powi Fo y 2))
  | Powf =>
      i <- unwrap (arg1 o) ;; j <- unwrap (arg2 o) ;;
      x <- get v i ;; y <- get v j ;;
      b <- get vbar (vid o) ;;
      vbar <- add_at vbar i (b *! y *! f_powf Fo x (y -! one)) ;;
      b <- get vbar (vid o) ;;
      add_at vbar j (b *! f_ln Fo x *! f_powf Fo x y)
  | Abs => Panic PAbsReverse
  | oc =>
      i <- unwrap (arg1 o) ;; x <- get v i ;;
      b <- get vbar (vid o) ;;
      d <- first_order_value oc x None one None ;;
      add_at vbar i (b *! d)
  end.

End Operation.
