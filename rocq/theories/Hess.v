(** Recording the inner level of nested AFloats: [AFloat<ADouble>] without outer context, whose values and
    derivatives are ADoubles attached to a context.  Every operation on such a variable performs the
    operations of its rules on ADoubles, and these are recorded (afloat.rs:47-95). *)
From Coq Require Import List Arith ZArith Bool Lia.
From Verif Require Import Base Float Operation Tape AContext Methods Function Spec Param Instances Nested.
Import ListNotations.

Section Hess.
Context {F V St : Type} (Fo : Fops F).
(** The inner type: [fop] its [from_op], [cst] its constants, [val] what comparisons read. *)
Context (fop : OpCode -> V -> option V -> M St V) (cst : F -> V) (val : V -> F).

(** operation.rs:24-42 [zero_order_value] with S = the inner AFloat *)
Definition z_rule (oc : OpCode) (a1 : V) (a2 : option V) : M St V :=
  match oc with
  | Add => y <~ mlift (unwrap a2) ;; m_add fop a1 y
  | Sub => y <~ mlift (unwrap a2) ;; m_sub fop a1 y
  | Mul => y <~ mlift (unwrap a2) ;; m_mul fop a1 y
  | Div => y <~ mlift (unwrap a2) ;; m_div fop a1 y
  | Sin => m_sin fop a1
  | Cos => m_cos fop a1
  | Tan => m_tan fop a1
  | Abs => m_abs fop a1
  | Exp => m_exp fop a1
  | Ln => m_ln fop a1
  | Asin => m_asin fop a1
  | Acos => m_acos fop a1
  | Atan => m_atan fop a1
  | Powf => y <~ mlift (unwrap a2) ;; m_powf fop a1 y
  | Nop | Const => mlift (Panic POpcode)
  end.

(** operation.rs:44-85 [first_order_value] with S = the inner AFloat; operands are evaluated from left to
    right, [!=] compares values (afloat.rs:115-119) *)
Definition f_rule (oc : OpCode) (a1 : V) (a2 : option V) (d1 : V) (d2 : option V) : M St V :=
  let one := c_one Fo cst in let zero := c_zero Fo cst in
  let neg := m_neg Fo fop cst in let powi := m_powi Fo fop cst in let sqrt := m_sqrt Fo fop cst in
  match oc with
  | Add => dy <~ mlift (unwrap d2) ;; m_add fop d1 dy
  | Sub => dy <~ mlift (unwrap d2) ;; m_sub fop d1 dy
  | Mul => y <~ mlift (unwrap a2) ;; dy <~ mlift (unwrap d2) ;;
           p <~ m_mul fop d1 y ;; q <~ m_mul fop a1 dy ;; m_add fop p q
  | Div => y <~ mlift (unwrap a2) ;; dy <~ mlift (unwrap d2) ;;
           p <~ m_mul fop d1 y ;; q <~ m_mul fop a1 dy ;; r <~ m_sub fop p q ;;
           s <~ powi y 2%Z ;; m_div fop r s
  | Sin => c <~ m_cos fop a1 ;; m_mul fop d1 c
  | Cos => n <~ neg d1 ;; s <~ m_sin fop a1 ;; m_mul fop n s
  | Tan => c <~ m_cos fop a1 ;; s <~ powi c 2%Z ;; q <~ m_div fop one s ;; m_mul fop d1 q
  | Abs => p <~ m_add fop a1 d1 ;; p <~ m_abs fop p ;; q <~ m_abs fop a1 ;; m_sub fop p q
  | Exp => e <~ m_exp fop a1 ;; m_mul fop d1 e
  | Ln => q <~ m_div fop one a1 ;; m_mul fop d1 q
  | Asin => s <~ powi a1 2%Z ;; r <~ m_sub fop one s ;; r <~ sqrt r ;; m_div fop d1 r
  | Acos => n <~ neg d1 ;; s <~ powi a1 2%Z ;; r <~ m_sub fop one s ;; r <~ sqrt r ;; m_div fop n r
  | Atan => s <~ powi a1 2%Z ;; r <~ m_add fop one s ;; m_div fop d1 r
  | Powf =>
      y <~ mlift (unwrap a2) ;; dy <~ mlift (unwrap d2) ;;
      rv1 <~ (if negb (f_eqb Fo (val d1) (f_zero Fo))
              then e <~ m_sub fop y one ;; p <~ m_powf fop a1 e ;; q <~ m_mul fop y p ;; m_mul fop q d1
              else mret zero) ;;
      rv2 <~ (if negb (f_eqb Fo (val dy) (f_zero Fo))
              then l <~ m_ln fop a1 ;; p <~ m_powf fop a1 y ;; q <~ m_mul fop l p ;; m_mul fop q dy
              else mret zero) ;;
      m_add fop rv1 rv2
  | Nop | Const => mlift (Panic POpcode)
  end.

(** afloat.rs:47-56 [from_op] without outer context; the pair is (v, dv) *)
Definition o_fop (oc : OpCode) (x : V * V) (y : option (V * V)) : M St (V * V) :=
  v <~ z_rule oc (fst x) (option_map fst y) ;;
  d <~ f_rule oc (fst x) (option_map fst y) (snd x) (option_map snd y) ;;
  mret (v, d).
(** afloat.rs:127-131, 210-232 *)
Definition o_cst (c : F) : V * V := (cst c, cst (f_zero Fo)).
(** afloat.rs:115-125 *)
Definition o_val (x : V * V) : F := val (fst x).

(** A generic function evaluated on such variables. *)
Definition o_eval (f : func F) : list (V * V) -> M St (list (V * V)) := feval Fo o_fop o_cst o_val f.
End Hess.

(** ** The function a user would write to record it:
    [|z| { let y = f(&zip(z[..n], z[n..]).map(AFloat::new)); y.map(value) ++ y.map(dvalue) }],
    as a program on ADoubles.  It is compiled in continuation passing style: [C A] emits code and passes
    the registers holding the result, and the next free register, on. *)
Section Compile.
Context {F : Type} (Fo : Fops F).

Definition C (A : Type) : Type := (A -> nat -> prog F) -> nat -> prog F.
Definition cret {A} (a : A) : C A := fun k n => k a n.
Definition cbind {A B} (m : C A) (g : A -> C B) : C B := fun k n => m (fun a n' => g a k n') n.
Definition cfail {A} : C A := fun _ _ => Abort.
Definition cget {A} (o : option A) : C A := match o with Some a => cret a | None => cfail end.
Local Notation "x <# m ;; k" := (cbind m (fun x => k)) (at level 80, m at next level, right associativity).

Definition c_const (c : F) : C nat := fun k n => LetC c (k n (S n)).
Definition c_un (u : un) (a : nat) : C nat := fun k n => Let1 u a (k n (S n)).
Definition c_bin (b : bin) (a1 a2 : nat) : C nat := fun k n => Let2 b a1 a2 (k n (S n)).
Definition c_nonzero {A} (a : nat) (m1 m2 : C A) : C A :=
  fun k n => Inspect a (fun s => if negb (f_eqb Fo s (f_zero Fo)) then m1 k n else m2 k n).

Definition cz_rule (oc : OpCode) (a1 : nat) (a2 : option nat) : C nat :=
  match oc with
  | Add => y <# cget a2 ;; c_bin BAdd a1 y
  | Sub => y <# cget a2 ;; c_bin BSub a1 y
  | Mul => y <# cget a2 ;; c_bin BMul a1 y
  | Div => y <# cget a2 ;; c_bin BDiv a1 y
  | Sin => c_un USin a1
  | Cos => c_un UCos a1
  | Tan => c_un UTan a1
  | Abs => c_un UAbs a1
  | Exp => c_un UExp a1
  | Ln => c_un ULn a1
  | Asin => c_un UAsin a1
  | Acos => c_un UAcos a1
  | Atan => c_un UAtan a1
  | Powf => y <# cget a2 ;; c_bin BPowf a1 y
  | Nop | Const => cfail
  end.

Definition cf_rule (oc : OpCode) (a1 : nat) (a2 : option nat) (d1 : nat) (d2 : option nat) : C nat :=
  let one := c_const (f_one Fo) in let zero := c_const (f_zero Fo) in
  match oc with
  | Add => dy <# cget d2 ;; c_bin BAdd d1 dy
  | Sub => dy <# cget d2 ;; c_bin BSub d1 dy
  | Mul => y <# cget a2 ;; dy <# cget d2 ;;
           p <# c_bin BMul d1 y ;; q <# c_bin BMul a1 dy ;; c_bin BAdd p q
  | Div => y <# cget a2 ;; dy <# cget d2 ;;
           p <# c_bin BMul d1 y ;; q <# c_bin BMul a1 dy ;; r <# c_bin BSub p q ;;
           s <# c_un (UPowi 2) y ;; c_bin BDiv r s
  | Sin => c <# c_un UCos a1 ;; c_bin BMul d1 c
  | Cos => n <# c_un UNeg d1 ;; s <# c_un USin a1 ;; c_bin BMul n s
  | Tan => o <# one ;; c <# c_un UCos a1 ;; s <# c_un (UPowi 2) c ;; q <# c_bin BDiv o s ;; c_bin BMul d1 q
  | Abs => p <# c_bin BAdd a1 d1 ;; p <# c_un UAbs p ;; q <# c_un UAbs a1 ;; c_bin BSub p q
  | Exp => e <# c_un UExp a1 ;; c_bin BMul d1 e
  | Ln => o <# one ;; q <# c_bin BDiv o a1 ;; c_bin BMul d1 q
  | Asin => o <# one ;; s <# c_un (UPowi 2) a1 ;; r <# c_bin BSub o s ;; r <# c_un USqrt r ;; c_bin BDiv d1 r
  | Acos => o <# one ;; n <# c_un UNeg d1 ;; s <# c_un (UPowi 2) a1 ;; r <# c_bin BSub o s ;; r <# c_un USqrt r ;;
            c_bin BDiv n r
  | Atan => o <# one ;; s <# c_un (UPowi 2) a1 ;; r <# c_bin BAdd o s ;; c_bin BDiv d1 r
  | Powf =>
      y <# cget a2 ;; dy <# cget d2 ;;
      rv1 <# c_nonzero d1
               (o <# one ;; e <# c_bin BSub y o ;; p <# c_bin BPowf a1 e ;; q <# c_bin BMul y p ;; c_bin BMul q d1)
               zero ;;
      rv2 <# c_nonzero dy
               (l <# c_un ULn a1 ;; p <# c_bin BPowf a1 y ;; q <# c_bin BMul l p ;; c_bin BMul q dy)
               zero ;;
      c_bin BAdd rv1 rv2
  | Nop | Const => cfail
  end.

Definition reg : Type := nat * nat.
Definition c_op (oc : OpCode) (x : reg) (y : option reg) : C reg :=
  v <# cz_rule oc (fst x) (option_map fst y) ;;
  d <# cf_rule oc (fst x) (option_map fst y) (snd x) (option_map snd y) ;;
  cret (v, d).
Definition c_cst (c : F) : C reg :=
  v <# c_const c ;; d <# c_const (f_zero Fo) ;; cret (v, d).

(** The methods of afloat.rs:133-138, 321-382 of the outer type, see Methods.v. *)
Definition c_log (a b : reg) : C reg := t <# c_op Ln a None ;; u <# c_op Ln b None ;; c_op Div t (Some u).
Definition c_meth1 (u : un) (a : reg) : C reg :=
  match u with
  | UNeg => z <# c_cst (f_zero Fo) ;; o <# c_cst (f_one Fo) ;; t <# c_op Sub z (Some o) ;; c_op Mul t (Some a)
  | UAbs => c_op Abs a None
  | UExp => c_op Exp a None
  | ULn => c_op Ln a None
  | USin => c_op Sin a None
  | UCos => c_op Cos a None
  | UTan => c_op Tan a None
  | UAsin => c_op Asin a None
  | UAcos => c_op Acos a None
  | UAtan => c_op Atan a None
  | URecip => o <# c_cst (f_one Fo) ;; c_op Div o (Some a)
  | UPowi n => e <# c_cst (f_of_Z Fo n) ;; c_op Powf a (Some e)
  | USqrt => e <# c_cst (f_half Fo) ;; c_op Powf a (Some e)
  | UExp2 => e <# c_cst (f_of_Z Fo 2) ;; c_op Powf e (Some a)
  | ULog2 => e <# c_cst (f_of_Z Fo 2) ;; c_log a e
  | ULog10 => e <# c_cst (f_of_Z Fo 10) ;; c_log a e
  | UCbrt => o <# c_cst (f_one Fo) ;; t <# c_cst (f_of_Z Fo 3) ;; e <# c_op Div o (Some t) ;; c_op Powf a (Some e)
  | UUnsupported => cfail
  end.
Definition c_meth2 (b : bin) (x y : reg) : C reg :=
  match b with
  | BAdd => c_op Add x (Some y)
  | BSub => c_op Sub x (Some y)
  | BMul => c_op Mul x (Some y)
  | BDiv => c_op Div x (Some y)
  | BPowf => c_op Powf x (Some y)
  | BLog => c_log x y
  | BMax => h <# c_cst (f_half Fo) ;; s <# c_op Add x (Some y) ;; d <# c_op Sub x (Some y) ;; d <# c_op Abs d None ;;
            s <# c_op Add s (Some d) ;; c_op Mul h (Some s)
  | BMin => h <# c_cst (f_half Fo) ;; s <# c_op Add x (Some y) ;; d <# c_op Sub x (Some y) ;; d <# c_op Abs d None ;;
            s <# c_op Sub s (Some d) ;; c_op Mul h (Some s)
  | BAbsSub => d <# c_op Sub x (Some y) ;; c_op Abs d None
  | BHypot => e1 <# c_cst (f_of_Z Fo 2) ;; e2 <# c_cst (f_of_Z Fo 2) ;; h <# c_cst (f_half Fo) ;;
              a <# c_op Powf x (Some e1) ;; b <# c_op Powf y (Some e2) ;; s <# c_op Add a (Some b) ;; c_op Powf s (Some h)
  | BUnsupported => cfail
  end.

Fixpoint c_all (env : list reg) (l : list nat) : option (list reg) :=
  match l with
  | [] => Some []
  | i :: l' => match nth_error env i, c_all env l' with Some a, Some r => Some (a :: r) | _, _ => None end
  end.
Fixpoint c_run (p : prog F) (env : list reg) : C (list reg) :=
  match p with
  | Ret outs => cget (c_all env outs)
  | LetC c p' => x <# c_cst c ;; c_run p' (env ++ [x])
  | Let1 u a p' => x <# cget (nth_error env a) ;; r <# c_meth1 u x ;; c_run p' (env ++ [r])
  | Let2 b a1 a2 p' =>
      x <# cget (nth_error env a1) ;; y <# cget (nth_error env a2) ;; r <# c_meth2 b x y ;; c_run p' (env ++ [r])
  | LetMulAdd a1 a2 a3 p' =>
      x <# cget (nth_error env a1) ;; y <# cget (nth_error env a2) ;; z <# cget (nth_error env a3) ;;
      t <# c_op Mul x (Some y) ;; r <# c_op Add t (Some z) ;; c_run p' (env ++ [r])
  | Inspect a k => x <# cget (nth_error env a) ;; fun kk n => Inspect (fst x) (fun s => c_run (k s) env kk n)
  | Abort => cfail
  end.

Fixpoint c_fun (f : func F) (env : list reg) : C (list reg) :=
  match f with
  | Simple _ _ p => c_run p env
  | AdvFn n m p =>
      if length env =? n then r <# c_run p env ;; (if length r =? m then cret r else cfail) else cfail
  | Chain fs =>
      (fix all (l : list (func F)) (env : list reg) : C (list reg) :=
         match l with [] => cret env | g :: l' => r <# c_fun g env ;; all l' r end) fs env
  end.

(** The recorded function: n values and n derivatives in, m values and m derivatives out. *)
Definition tangent (n m : nat) (f : func F) : func F :=
  Simple (n + n) (m + m)
    (c_fun f (map (fun i => (i, n + i)) (seq 0 n))
       (fun r _ => Ret (map fst r ++ map snd r)) (n + n)).
End Compile.
