(** User functions as they are written: mutable variables, compound assignments, operators with plain
    numbers on one side, nested expressions, branches and loops.

    Methods.v describes user functions as programs in which every operation has a register of its own.
    Here is the source language, its meaning when executed with the methods of afloat.rs, and the
    translation into the programs of Methods.v.  Expressions are evaluated from left to right, as Rust
    does.  Simplifications: the variables in scope are counted from the first one on (arrays are runs of
    variables); [conv] is [NumCast::from] for [f64], which succeeds for [f64] and [f32];
    a [while] loop has a bound on the number of its rounds, at which it panics. *)
From Coq Require Import List Arith Bool.
From Verif Require Import Base Float Operation Tape AContext Methods Function.
Import ListNotations.

(** [+], [-], [*], [/] (afloat.rs:165-168, 188-191) *)
Inductive aop : Type := OAdd | OSub | OMul | ODiv.
Definition a_bin (o : aop) : bin := match o with OAdd => BAdd | OSub => BSub | OMul => BMul | ODiv => BDiv end.

Section Source.
Context {S D : Type}.

(** [x], [S::from(c)], methods, [e o c] with [c: f64] (afloat.rs:149-154), [c o e] (afloat.rs:156-161), [mul_add] *)
Inductive sexpr : Type :=
| XVar (x : nat)
| XNum (c : S)
| XUn (u : un) (e : sexpr)
| XBin (b : bin) (e1 e2 : sexpr)
| XRight (o : aop) (e : sexpr) (c : D)
| XLeft (o : aop) (c : D) (e : sexpr)
| XMulAdd (e1 e2 e3 : sexpr).
(** [let mut v = e;], [x = e;], [x o= e;] (afloat.rs:172-177), [x o= c;] with [c: f64] (afloat.rs:179-184),
    sequences, [if] on the values of some variables, [for i in 0..n], [while], [panic!] *)
Inductive sstmt : Type :=
| XSkip
| XLet (e : sexpr)
| XAssign (x : nat) (e : sexpr)
| XOp (o : aop) (x : nat) (e : sexpr)
| XOpNum (o : aop) (x : nat) (c : D)
| XSeq (s1 s2 : sstmt)
| XIf (xs : list nat) (test : list S -> bool) (s1 s2 : sstmt)
| XFor (n : nat) (body : nat -> sstmt)
| XWhile (bound : nat) (xs : list nat) (test : list S -> bool) (body : sstmt)
| XPanic.
(** the body and the variables returned *)
Definition source : Type := (sstmt * list nat)%type.

(** *** Meaning *)
Section Meaning.
Context {V St : Type} (So : Fops S) (conv : D -> S).
Context (fop : OpCode -> V -> option V -> M St V) (cst : S -> V) (val : V -> S).
Definition var (vs : list V) (x : nat) : M St V :=
  match nth_error vs x with Some v => mret v | None => mlift (Panic PUser) end.
Fixpoint x_expr (vs : list V) (e : sexpr) : M St V :=
  match e with
  | XVar x => var vs x
  | XNum c => mret (cst c)
  | XUn u e => a <~ x_expr vs e ;; meth1 So fop cst u a
  | XBin b e1 e2 => a1 <~ x_expr vs e1 ;; a2 <~ x_expr vs e2 ;; meth2 So fop cst b a1 a2
  | XRight o e c => a <~ x_expr vs e ;; meth2 So fop cst (a_bin o) a (cst (conv c))
  | XLeft o c e => a <~ x_expr vs e ;; meth2 So fop cst (a_bin o) (cst (conv c)) a
  | XMulAdd e1 e2 e3 => a1 <~ x_expr vs e1 ;; a2 <~ x_expr vs e2 ;; a3 <~ x_expr vs e3 ;; m_mul_add fop a1 a2 a3
  end.
(** writing an existing variable *)
Definition store (vs : list V) (x : nat) (v : V) : M St (list V) :=
  if x <? length vs then mret (update vs x v) else mlift (Panic PUser).
Fixpoint values (vs : list V) (xs : list nat) : M St (list S) :=
  match xs with [] => mret [] | x :: xs => v <~ var vs x ;; r <~ values vs xs ;; mret (val v :: r) end.
(** the variables declared inside end with the block *)
Definition leave (vs : list V) (m : M St (list V)) : M St (list V) := vs' <~ m ;; mret (firstn (length vs) vs').
(** [for i in 0..n { body }] and [while test { body }] *)
Fixpoint x_times (body : nat -> list V -> M St (list V)) (k i : nat) (vs : list V) : M St (list V) :=
  match k with 0 => mret vs | Datatypes.S k => vs1 <~ leave vs (body i vs) ;; x_times body k (i + 1) vs1 end.
Fixpoint x_while (xs : list nat) (test : list S -> bool) (body : list V -> M St (list V)) (k : nat) (vs : list V) : M St (list V) :=
  r <~ values vs xs ;;
  if test r then match k with
                 | 0 => mlift (Panic PUser)
                 | Datatypes.S k => vs1 <~ leave vs (body vs) ;; x_while xs test body k vs1
                 end
  else mret vs.
Fixpoint x_stmt (s : sstmt) (vs : list V) : M St (list V) :=
  match s with
  | XSkip => mret vs
  | XLet e => v <~ x_expr vs e ;; mret (vs ++ [v])
  | XAssign x e => v <~ x_expr vs e ;; store vs x v
  | XOp o x e => b <~ x_expr vs e ;; a <~ var vs x ;; r <~ meth2 So fop cst (a_bin o) a b ;; store vs x r
  | XOpNum o x c => a <~ var vs x ;; r <~ meth2 So fop cst (a_bin o) a (cst (conv c)) ;; store vs x r
  | XSeq s1 s2 => vs1 <~ x_stmt s1 vs ;; x_stmt s2 vs1
  | XIf xs test s1 s2 => r <~ values vs xs ;; leave vs (if test r then x_stmt s1 vs else x_stmt s2 vs)
  | XFor n body => x_times (fun i => x_stmt (body i)) n 0 vs
  | XWhile bound xs test body => x_while xs test (x_stmt body) bound vs
  | XPanic => mlift (Panic PUser)
  end.
Fixpoint x_outs (vs : list V) (l : list nat) : M St (list V) :=
  match l with [] => mret [] | x :: l => v <~ var vs x ;; r <~ x_outs vs l ;; mret (v :: r) end.
Definition x_run (f : source) (xs : list V) : M St (list V) :=
  vs <~ x_stmt (fst f) xs ;; x_outs vs (snd f).
End Meaning.

(** *** Translation: [regs] are the registers of the variables, [n] registers are in use *)
Section Translation.
Context (conv : D -> S).
Fixpoint t_expr (e : sexpr) (regs : list nat) (n : nat) (k : nat -> nat -> prog S) : prog S :=
  match e with
  | XVar x => match nth_error regs x with Some r => k r n | None => Abort end
  | XNum c => LetC c (k n (n + 1))
  | XUn u e => t_expr e regs n (fun r n => Let1 u r (k n (n + 1)))
  | XBin b e1 e2 => t_expr e1 regs n (fun r1 n => t_expr e2 regs n (fun r2 n => Let2 b r1 r2 (k n (n + 1))))
  | XRight o e c => t_expr e regs n (fun r n => LetC (conv c) (Let2 (a_bin o) r n (k (n + 1) (n + 2))))
  | XLeft o c e => t_expr e regs n (fun r n => LetC (conv c) (Let2 (a_bin o) n r (k (n + 1) (n + 2))))
  | XMulAdd e1 e2 e3 => t_expr e1 regs n (fun r1 n => t_expr e2 regs n (fun r2 n => t_expr e3 regs n (fun r3 n =>
      LetMulAdd r1 r2 r3 (k n (n + 1)))))
  end.
Fixpoint t_values (xs regs : list nat) (k : list S -> prog S) : prog S :=
  match xs with
  | [] => k []
  | x :: xs => match nth_error regs x with Some r => Inspect r (fun v => t_values xs regs (fun l => k (v :: l))) | None => Abort end
  end.
Definition t_store (regs : list nat) (x r n : nat) (k : list nat -> nat -> prog S) : prog S :=
  if x <? length regs then k (update regs x r) n else Abort.
Definition tail_code : Type := list nat -> nat -> prog S.
Fixpoint t_times (body : nat -> list nat -> nat -> tail_code -> prog S) (j i : nat) (regs : list nat) (n : nat) (k : tail_code) : prog S :=
  match j with
  | 0 => k regs n
  | Datatypes.S j => body i regs n (fun regs' n => t_times body j (i + 1) (firstn (length regs) regs') n k)
  end.
Fixpoint t_while (xs : list nat) (test : list S -> bool) (body : list nat -> nat -> tail_code -> prog S) (j : nat) (regs : list nat) (n : nat)
  (k : tail_code) : prog S :=
  t_values xs regs (fun l =>
    if test l then match j with
                   | 0 => Abort
                   | Datatypes.S j => body regs n (fun regs' n => t_while xs test body j (firstn (length regs) regs') n k)
                   end
    else k regs n).
Fixpoint t_stmt (s : sstmt) (regs : list nat) (n : nat) (k : list nat -> nat -> prog S) : prog S :=
  match s with
  | XSkip => k regs n
  | XLet e => t_expr e regs n (fun r n => k (regs ++ [r]) n)
  | XAssign x e => t_expr e regs n (fun r n => t_store regs x r n k)
  | XOp o x e => t_expr e regs n (fun r n =>
      match nth_error regs x with Some a => Let2 (a_bin o) a r (t_store regs x n (n + 1) k) | None => Abort end)
  | XOpNum o x c =>
      match nth_error regs x with Some a => LetC (conv c) (Let2 (a_bin o) a n (t_store regs x (n + 1) (n + 2) k)) | None => Abort end
  | XSeq s1 s2 => t_stmt s1 regs n (fun regs n => t_stmt s2 regs n k)
  | XIf xs test s1 s2 => t_values xs regs (fun l =>
      if test l then t_stmt s1 regs n (fun regs' n => k (firstn (length regs) regs') n)
      else t_stmt s2 regs n (fun regs' n => k (firstn (length regs) regs') n))
  | XFor m body => t_times (fun i => t_stmt (body i)) m 0 regs n k
  | XWhile bound xs test body => t_while xs test (t_stmt body) bound regs n k
  | XPanic => Abort
  end.
Fixpoint t_outs (l regs acc : list nat) : prog S :=
  match l with
  | [] => Ret acc
  | x :: l => match nth_error regs x with Some r => t_outs l regs (acc ++ [r]) | None => Abort end
  end.
(** A function of [n] variables, written between [adv_fn!]'s braces *)
Definition translate (n : nat) (f : source) : prog S :=
  t_stmt (fst f) (seq 0 n) n (fun regs _ => t_outs (snd f) regs []).
End Translation.
End Source.
Arguments sexpr : clear implicits. Arguments sstmt : clear implicits. Arguments source : clear implicits.

(** No branches or loops that look at values *)
Fixpoint unconditional {S D : Type} (s : sstmt S D) : Prop :=
  match s with
  | XSeq s1 s2 => unconditional s1 /\ unconditional s2
  | XFor _ body => forall i, unconditional (body i)
  | XIf _ _ _ _ | XWhile _ _ _ _ => False
  | _ => True
  end.
