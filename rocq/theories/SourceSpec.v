(** What a source function computes on plain numbers, and the decisions it takes on the way. *)
From Coq Require Import List Arith Bool.
From Verif Require Import Base Float Operation Tape AContext Methods Function Instances Source.
Import ListNotations.

Section Plain.
Context {F D : Type} (Fo : Fops F) (conv : D -> F).

(** the numbers of the methods; [None] where they panic *)
Definition num1 (u : un) (a : F) : option F :=
  match meth1 Fo (v_fop Fo) (fun c => c) u a tt with Ok (r, _) => Some r | Panic _ => None end.
Definition num2 (b : bin) (a1 a2 : F) : option F :=
  match meth2 Fo (v_fop Fo) (fun c => c) b a1 a2 tt with Ok (r, _) => Some r | Panic _ => None end.
Definition arith (o : aop) : F -> F -> F :=
  match o with OAdd => f_add Fo | OSub => f_sub Fo | OMul => f_mul Fo | ODiv => f_div Fo end.

Notation "x <== m ; k" := (match m with Some x => k | None => None end) (at level 61, m at next level, right associativity).

Fixpoint p_expr (vs : list F) (e : sexpr F D) : option F :=
  match e with
  | XVar x => nth_error vs x
  | XNum c => Some c
  | XUn u e => a <== p_expr vs e ; num1 u a
  | XBin b e1 e2 => a1 <== p_expr vs e1 ; a2 <== p_expr vs e2 ; num2 b a1 a2
  | XRight o e c => a <== p_expr vs e ; Some (arith o a (conv c))
  | XLeft o c e => a <== p_expr vs e ; Some (arith o (conv c) a)
  | XMulAdd e1 e2 e3 =>
      a1 <== p_expr vs e1 ; a2 <== p_expr vs e2 ; a3 <== p_expr vs e3 ; Some (f_add Fo (f_mul Fo a1 a2) a3)
  end.
Definition p_put (vs : list F) (x : nat) (v : F) : option (list F) :=
  if x <? length vs then Some (firstn x vs ++ v :: skipn (x + 1) vs) else None.
Fixpoint p_vars (vs : list F) (xs : list nat) : option (list F) :=
  match xs with [] => Some [] | x :: xs => v <== nth_error vs x ; r <== p_vars vs xs ; Some (v :: r) end.
(** the variables afterwards and the outcomes of the tests *)
Definition outcome : Type := option (list F * list bool).
Definition p_then (a : outcome) (k : list F -> outcome) : outcome :=
  match a with
  | Some (vs, d) => match k vs with Some (vs', d') => Some (vs', d ++ d') | None => None end
  | None => None
  end.
Definition p_block (vs : list F) (a : outcome) : outcome := p_then a (fun vs' => Some (firstn (length vs) vs', [])).
Fixpoint p_times (body : nat -> list F -> outcome) (k i : nat) (vs : list F) : outcome :=
  match k with 0 => Some (vs, []) | S k => p_then (p_block vs (body i vs)) (p_times body k (i + 1)) end.
Fixpoint p_while (xs : list nat) (test : list F -> bool) (body : list F -> outcome) (k : nat) (vs : list F) : outcome :=
  l <== p_vars vs xs ;
  if test l then match k with
                 | 0 => None
                 | S k => p_then (Some (vs, [true])) (fun _ => p_then (p_block vs (body vs)) (p_while xs test body k))
                 end
  else Some (vs, [false]).
Fixpoint p_stmt (s : sstmt F D) (vs : list F) : outcome :=
  match s with
  | XSkip => Some (vs, [])
  | XLet e => v <== p_expr vs e ; Some (vs ++ [v], [])
  | XAssign x e => v <== p_expr vs e ; vs' <== p_put vs x v ; Some (vs', [])
  | XOp o x e => b <== p_expr vs e ; a <== nth_error vs x ; vs' <== p_put vs x (arith o a b) ; Some (vs', [])
  | XOpNum o x c => a <== nth_error vs x ; vs' <== p_put vs x (arith o a (conv c)) ; Some (vs', [])
  | XSeq s1 s2 => p_then (p_stmt s1 vs) (p_stmt s2)
  | XIf xs test s1 s2 =>
      l <== p_vars vs xs ;
      if test l then p_then (Some (vs, [true])) (fun _ => p_block vs (p_stmt s1 vs))
      else p_then (Some (vs, [false])) (fun _ => p_block vs (p_stmt s2 vs))
  | XFor n body => p_times (fun i => p_stmt (body i)) n 0 vs
  | XWhile bound xs test body => p_while xs test (p_stmt body) bound vs
  | XPanic => None
  end.
(** the returned values and the decisions *)
Definition plain (f : source F D) (xs : list F) : outcome :=
  match p_stmt (fst f) xs with
  | Some (vs, d) => match p_vars vs (snd f) with Some ys => Some (ys, d) | None => None end
  | None => None
  end.
End Plain.
