(** Model of src/function.rs and src/macros.rs. *)
From Coq Require Import List Arith ZArith Bool Lia.
From Verif Require Import Base Float Operation Tape AContext Methods.
Import ListNotations.

(** Implementations of [trait Function] (function.rs:4-38).
    [Simple n m p]: function.rs:42-75 [SimpleFunction::new(n, m, f)] with body [p].
    [AdvFn n m p]: the object macros.rs:70-74 builds for a function declared with [adv_fn!];
    the generated function checks both dimensions (macros.rs:58-63).
    [Chain fs]: function.rs:78-142 [FunctionChain]. *)
Inductive func (F : Type) : Type :=
| Simple (n m : nat) (p : prog F)
| AdvFn (n m : nat) (p : prog F)
| Chain (fs : list (func F)).
Arguments Simple {F}. Arguments AdvFn {F}. Arguments Chain {F}.

Section Function.
Context {F : Type} (Fo : Fops F).

(** function.rs:64-66, 123-125; [first().unwrap()] *)
Fixpoint fn_n (f : func F) : res nat :=
  match f with
  | Simple n _ _ => Ok n
  | AdvFn n _ _ => Ok n
  | Chain fs => match fs with
                | [] => Panic PUnwrap
                | g :: _ => fn_n g
                end
  end.

(** function.rs:68-70, 127-129; [last().unwrap()] *)
Fixpoint fn_m (f : func F) : res nat :=
  match f with
  | Simple _ m _ => Ok m
  | AdvFn _ m _ => Ok m
  | Chain fs =>
      (fix last_m (l : list (func F)) : res nat :=
         match l with
         | [] => Panic PUnwrap
         | [g] => fn_m g
         | _ :: l' => last_m l'
         end) fs
  end.

Section Eval.
Context {V St : Type} (fop : OpCode -> V -> option V -> M St V) (cst : F -> V) (val : V -> F).

(** function.rs:72-74, macros.rs:53-64, function.rs:135-141 [Function::eval] *)
Fixpoint feval (f : func F) (x : list V) {struct f} : M St (list V) :=
  match f with
  | Simple _ _ p => run Fo fop cst val p x
  | AdvFn n m p =>
      _ <~ mlift (assert (length x =? n)) ;;
      r <~ run Fo fop cst val p x ;;
      _ <~ mlift (assert (length r =? m)) ;;
      mret r
  | Chain fs =>
      (fix eval_all (l : list (func F)) (cur : list V) {struct l} : M St (list V) :=
         match l with
         | [] => mret cur
         | g :: l' => nxt <~ feval g cur ;; eval_all l' nxt
         end) fs x
  end.
End Eval.

(** [Function::eval] on [ADouble]s.  [AFloat<f64>] stores its values on the tape unchanged:
    [NumCast::from : f64 -> Option<f64>] is [Some]. *)
Definition eval (f : func F) : list (AF F) -> M (world F) (list (AF F)) :=
  feval (from_op Fo Some) (af_const Fo) af_v f.

(** function.rs:15-18 [Function::eval_float] *)
Definition eval_float (f : func F) (x : list F) : M (world F) (list F) :=
  y <~ eval f (map (fun e => af_new e (f_zero Fo)) x) ;;
  mret (map af_v y).

(** function.rs:26-37 [Function::tape]; the context is dropped on return *)
Definition fn_tape (f : func F) (x : list F) : M (world F) (tape F) :=
  ctx <~ ctx_new ;;
  input <~ set_indeps Some ctx (map (af_const Fo) x) ;;
  output <~ eval f input ;;
  _ <~ set_dep_slice Some ctx output ;;
  t <~ ctx_tape ctx ;;
  _ <~ ctx_drop ctx ;;
  mret t.

(** function.rs:21-23, 131-133 [Function::chain] and 103-111 [FunctionChain::iter]:
    the functions a chain is made of, nested chains expanded *)
Fixpoint fn_iter (f : func F) : list (func F) :=
  match f with
  | Chain fs =>
      (fix iter_all (l : list (func F)) : list (func F) :=
         match l with
         | [] => []
         | g :: l' => fn_iter g ++ iter_all l'
         end) fs
  | g => [g]
  end.

(** function.rs:113-115 *)
Definition chain_len (f : func F) : nat := length (fn_iter f).

(** function.rs:117-119 *)
Definition chain_nth (f : func F) (i : nat) : res (func F) := unwrap (nth_error (fn_iter f) i).

(** function.rs:84-92 [FunctionChain::from_boxed], [new] *)
Definition chain_new (f : func F) : func F := Chain [f].

(** function.rs:94-101 [append], [append_boxed] *)
Definition chain_append (c f : func F) : res (func F) :=
  match c with
  | Chain fs =>
      g <- unwrap (last (map Some fs) None) ;;
      m <- fn_m g ;; n <- fn_n f ;;
      _ <- assert (m =? n) ;;
      Ok (Chain (fs ++ [f]))
  | _ => Panic PUser (* not a chain: excluded by the type in Rust *)
  end.

End Function.
