(** Recording through the C++ interface: the Rust function that corresponds to a piece of C++ code.
    (Vocabulary of C83.) *)
From Coq Require Import List Arith ZArith Bool Lia.
From Verif Require Import Base Float Operation Tape AContext Methods Function Ffi.
Import ListNotations.

Section Rec.
Context {S : Type} (So : Fops S).

Fixpoint names (var : nat -> option nat) (l : list nat) : option (list nat) :=
  match l with
  | [] => Some []
  | x :: l' =>
      match var x, names var l' with Some i, Some is => Some (i :: is) | _, _ => None end
  end.

(** The Rust function body that performs the same operations on immutable variables, numbered in
    the order of their introduction.  [var x] is the variable whose value the C++ object [x] has,
    [n] the number of variables so far, [outs] the objects that become outputs.  Copies and moves
    do not compute anything; a moved-from object holds a new zero; `c o x` adds (C45).
    [None]: the code uses an object outside its lifetime, copies an object onto itself, or touches
    contexts. *)
Fixpoint rust_body (var : nat -> option nat) (n : nat) (outs : list nat) (p : list (stmt S))
  : option (prog S) :=
  match p with
  | [] => option_map Ret (names var outs)
  | s :: p' =>
      let alias x i := rust_body (upd var x (Some i)) n outs p' in
      let bind x := rust_body (upd var x (Some n)) (n + 1) outs p' in
      let moved x y i := rust_body (upd (upd var x (Some i)) y (Some n)) (n + 1) outs p' in
      match s with
      | SDefault x =>
          match var x with None => option_map (LetC (f_zero So)) (bind x) | _ => None end
      | SValue x c => match var x with None => option_map (LetC c) (bind x) | _ => None end
      | SCopy x y => match var x, var y with None, Some i => alias x i | _, _ => None end
      | SMove x y =>
          match var x, var y with
          | None, Some i => option_map (LetC (f_zero So)) (moved x y i)
          | _, _ => None
          end
      | SCopyAssign x y =>
          match var x, var y with
          | Some _, Some i => if x =? y then None else alias x i
          | _, _ => None
          end
      | SMoveAssign x y =>
          match var x, var y with
          | Some _, Some i => option_map (LetC (f_zero So)) (moved x y i)
          | _, _ => None
          end
      | SBin o x y z =>
          match var x, var y, var z with
          | None, Some i, Some j => option_map (Let2 (rust_op o) i j) (bind x)
          | _, _, _ => None
          end
      | SBinLeft _ x c y =>
          match var x, var y with
          | None, Some j =>
              option_map (fun q => LetC c (Let2 BAdd n j q))
                (rust_body (upd var x (Some (n + 1))) (n + 2) outs p')
          | _, _ => None
          end
      | SFn2 f x y z =>
          match var x, var y, var z with
          | None, Some i, Some j => option_map (Let2 (rust_fn2 f) i j) (bind x)
          | _, _, _ => None
          end
      | SFn1 f x y =>
          match var x, var y with
          | None, Some i => option_map (Let1 (rust_fn1 f) i) (bind x)
          | _, _ => None
          end
      | SDtor x =>
          match var x with Some _ => rust_body (upd var x None) n outs p' | None => None end
      | _ => None
      end
  end.

(** The objects 0 .. n-1 are the inputs. *)
Definition inputs (n : nat) (x : nat) : option nat := if x <? n then Some x else None.

(** The C++ program: a context, n independent objects 0 .. n-1, the code, the dependents. *)
Definition recording (n : nat) (code : list (stmt S)) (outs : list nat) : list (stmt S) :=
  KNew 0 :: map (fun x => KIndep x 0) (seq 0 n) ++ code ++ map (KDep 0) outs.

(** The Rust function with the same operations. *)
Definition rust_fn (n : nat) (code : list (stmt S)) (outs : list nat) : option (func S) :=
  option_map (AdvFn n (length outs)) (rust_body (inputs n) n outs code).

(** The statement does not mention contexts. *)
Definition no_context (s : stmt S) : Prop :=
  match s with
  | KNew _ | KMove _ _ | KMoveAssign _ _ | KDtor _ | KIndep _ _ | KDep _ _ => False
  | _ => True
  end.

End Rec.
