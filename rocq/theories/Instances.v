(** Other readings of a user function, used to state and prove properties:
    plain evaluation on numbers, and evaluation on (value, tangent) pairs. *)
From Coq Require Import List Arith ZArith Bool Lia.
From Verif Require Import Base Float Operation Tape AContext Methods Function Spec Param.
Import ListNotations.

Section Instances.
Context {F : Type} (Fo : Fops F).

(** *** Plain numbers: the function itself *)
Definition v_fop (oc : OpCode) (x : F) (y : option F) : M unit F :=
  mlift (zero_order_value Fo oc x y).

Definition v_run (p : prog F) (x : list F) : res (list F) :=
  r <- run Fo v_fop (fun c => c) (fun v => v) p x tt ;; Ok (fst r).

Definition v_eval (f : func F) (x : list F) : res (list F) :=
  r <- feval Fo v_fop (fun c => c) (fun v => v) f x tt ;; Ok (fst r).

(** *** Value and tangent *)
Definition d_fop (oc : OpCode) (x : F * F) (y : option (F * F)) : M unit (F * F) :=
  v <~ mlift (zero_order_value Fo oc (fst x) (option_map fst y)) ;;
  d <~ mlift (first_order_value Fo oc (fst x) (option_map fst y) (snd x) (option_map snd y)) ;;
  mret (v, d).

Definition d_cst (c : F) : F * F := (c, f_zero Fo).

Definition d_run (p : prog F) (x : list (F * F)) : res (list (F * F)) :=
  r <- run Fo d_fop d_cst fst p x tt ;; Ok (fst r).

Definition d_eval (f : func F) (x : list (F * F)) : res (list (F * F)) :=
  r <- feval Fo d_fop d_cst fst f x tt ;; Ok (fst r).

(** *** Value, tangent, and whether the value is a constant sub-expression (computed from
    constants only).  The state collects the demand that each such expression has tangent
    exactly zero. *)
Definition k_fop (oc : OpCode) (x : (F * F) * bool) (y : option ((F * F) * bool))
  : M Prop ((F * F) * bool) := fun P =>
  match d_fop oc (fst x) (option_map fst y) tt with
  | Ok (r, _) =>
      let const := snd x && match y with Some y' => snd y' | None => true end in
      Ok ((r, const), if const then P /\ snd r = f_zero Fo else P)
  | Panic p => Panic p
  end.

Definition k_cst (c : F) : (F * F) * bool := (d_cst c, true).

(** Every constant sub-expression met when evaluating [f] at [x] (tangent [dx]) has tangent
    zero. *)
Definition const_tangents_zero (f : func F) (x dx : list F) : Prop :=
  forall ys P,
    feval Fo k_fop k_cst (fun r => fst (fst r)) f (map (fun xd => (xd, false)) (combine x dx)) True
      = Ok (ys, P) -> P.

(** *** The path a function takes at a point *)
Fixpoint resolve (p : prog F) (env : list F) : prog F :=
  match p with
  | Ret outs => Ret outs
  | LetC c p' => LetC c (resolve p' (env ++ [c]))
  | Let1 u a p' =>
      Let1 u a (match (x <~ mlift (get env a) ;; meth1 Fo v_fop (fun c => c) u x) tt with
                | Ok (r, _) => resolve p' (env ++ [r])
                | Panic _ => Abort
                end)
  | Let2 b a1 a2 p' =>
      Let2 b a1 a2
        (match (x <~ mlift (get env a1) ;; y <~ mlift (get env a2) ;;
                meth2 Fo v_fop (fun c => c) b x y) tt with
         | Ok (r, _) => resolve p' (env ++ [r])
         | Panic _ => Abort
         end)
  | LetMulAdd a1 a2 a3 p' =>
      LetMulAdd a1 a2 a3
        (match (x <~ mlift (get env a1) ;; y <~ mlift (get env a2) ;; z <~ mlift (get env a3) ;;
                m_mul_add v_fop x y z) tt with
         | Ok (r, _) => resolve p' (env ++ [r])
         | Panic _ => Abort
         end)
  | Inspect a k =>
      match get env a with
      | Ok v => resolve (k v) env
      | Panic _ => Ret [a]
      end
  | Abort => Abort
  end.

(** The function that always takes the path [f] takes at [x]: no inspection of values left. *)
Fixpoint resolve_f (f : func F) (x : list F) : func F :=
  match f with
  | Simple n m p => Simple n m (resolve p x)
  | AdvFn n m p => AdvFn n m (resolve p x)
  | Chain fs =>
      Chain ((fix go (l : list (func F)) (x : list F) : list (func F) :=
                match l with
                | [] => []
                | g :: l' => resolve_f g x ::
                             match v_eval g x with
                             | Ok y => go l' y
                             | Panic _ => [Simple 0 0 Abort]
                             end
                end) fs x)
  end.

(** [f] takes the same branches at [x] and at [x']. *)
Definition same_path (f : func F) (x x' : list F) : Prop := resolve_f f x = resolve_f f x'.

End Instances.
