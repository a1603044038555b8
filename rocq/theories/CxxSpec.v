(** C++ programs as they are written: variables in nested scopes, expressions with temporaries.

    Ffi.v runs sequences of constructor, operator and destructor calls.  Here is the source they come
    from, the translation a C++ compiler performs (temporaries die at the end of the full
    expression, variables at the end of their scope, each in reverse order of construction; copies of
    results are elided), and what the source means if ADoubles are plain values.

    The API has no comparison of ADoubles, so control flow cannot depend on them: a run of a
    program with branches, loops and early returns is the run of the straight-line program obtained
    by unrolling it.  AContexts are not moved here (Ffi.v has that).

    The interface such programs use: include/adv/ADouble.hpp:9-83, include/adv/AContext.hpp:10-32
    (implemented in src/cxx/ADouble.cpp and src/cxx/AContext.cpp, modelled in Ffi.v). *)
From Coq Require Import List Arith Bool.
From Verif Require Import Base Float Operation Tape AContext Methods Ffi FfiSpec.
Import ListNotations.

Section Source.
Context {S : Type} (So : Fops S).

(** Variables are counted from the innermost declaration outwards.  [ENum c]: a double where an
    ADouble is expected (converted).  [rl]: the compiler evaluates the right operand first; C++ leaves
    that open for every operator and call. *)
Inductive expr : Type :=
| EVar (x : nat)
| ENum (c : S)
| EBin (o : cop) (rl : bool) (a b : expr)
| ELeft (o : cop) (c : S) (b : expr)
| EFn2 (f : cfn2) (rl : bool) (a b : expr)
| EFn1 (f : cfn1) (a : expr).
(** ADouble v; - ADouble v(e); - ADouble v(std::move(y)); - ADouble v(k.new_independent()); -
    AContext k; - x = e; - x = std::move(y); - k.set_dependent(e); - e; *)
Inductive simple : Type :=
| DDefault
| DInit (e : expr)
| DMove (y : nat)
| DIndep (k : nat)
| DCtx
| Assign (x : nat) (e : expr)
| AssignMove (x y : nat)
| SetDep (k : nat) (e : expr)
| Eval (e : expr).
(** The rest of a scope: empty, a statement first, or an inner scope first. *)
Inductive block : Type := Skip | Do (s : simple) (rest : block) | Sub (b rest : block).

(** *** Which programs a C++ compiler accepts, but for x = x (C44) *)
Fixpoint ok_expr (nv : nat) (e : expr) : bool :=
  match e with
  | EVar x => x <? nv
  | ENum _ => true
  | EBin _ _ a b | EFn2 _ _ a b => ok_expr nv a && ok_expr nv b
  | ELeft _ _ b | EFn1 _ b => ok_expr nv b
  end.
Definition ok_simple (nv nk : nat) (s : simple) : bool :=
  match s with
  | DDefault | DCtx => true
  | DInit e | Eval e => ok_expr nv e
  | DMove y => y <? nv
  | DIndep k => k <? nk
  | Assign x e => (x <? nv) && ok_expr nv e && match e with EVar y => negb (x =? y) | _ => true end
  | AssignMove x y => (x <? nv) && (y <? nv)
  | SetDep k e => (k <? nk) && ok_expr nv e
  end.
Definition new_v (s : simple) : nat := match s with DDefault | DInit _ | DMove _ | DIndep _ => 1 | _ => 0 end.
Definition new_k (s : simple) : nat := match s with DCtx => 1 | _ => 0 end.
Fixpoint ok_block (nv nk : nat) (b : block) : bool :=
  match b with
  | Skip => true
  | Do s r => ok_simple nv nk s && ok_block (new_v s + nv) (new_k s + nk) r
  | Sub b r => ok_block nv nk b && ok_block nv nk r
  end.
(** AContexts created in a run *)
Fixpoint contexts (b : block) : nat :=
  match b with Skip => 0 | Do s r => new_k s + contexts r | Sub b r => contexts b + contexts r end.

(** *** Translation *)
(** An expression: the next free name, the calls, the name of its value, the temporaries made
    (newest first). *)
Fixpoint c_expr (n : nat) (vars : list nat) (e : expr) : nat * list (stmt S) * nat * list nat :=
  match e with
  | EVar x => (n, [], nth x vars 0, [])
  | ENum c => (n + 1, [SValue n c], n, [n])
  | EBin o rl a b =>
      if rl
      then let '(n1, p1, r1, t1) := c_expr n vars b in
           let '(n2, p2, r2, t2) := c_expr n1 vars a in
           (n2 + 1, p1 ++ p2 ++ [SBin o n2 r2 r1], n2, n2 :: t2 ++ t1)
      else let '(n1, p1, r1, t1) := c_expr n vars a in
           let '(n2, p2, r2, t2) := c_expr n1 vars b in
           (n2 + 1, p1 ++ p2 ++ [SBin o n2 r1 r2], n2, n2 :: t2 ++ t1)
  | ELeft o c b =>
      let '(n1, p1, r1, t1) := c_expr n vars b in (n1 + 1, p1 ++ [SBinLeft o n1 c r1], n1, n1 :: t1)
  | EFn2 f rl a b =>
      if rl
      then let '(n1, p1, r1, t1) := c_expr n vars b in
           let '(n2, p2, r2, t2) := c_expr n1 vars a in
           (n2 + 1, p1 ++ p2 ++ [SFn2 f n2 r2 r1], n2, n2 :: t2 ++ t1)
      else let '(n1, p1, r1, t1) := c_expr n vars a in
           let '(n2, p2, r2, t2) := c_expr n1 vars b in
           (n2 + 1, p1 ++ p2 ++ [SFn2 f n2 r1 r2], n2, n2 :: t2 ++ t1)
  | EFn1 f a =>
      let '(n1, p1, r1, t1) := c_expr n vars a in (n1 + 1, p1 ++ [SFn1 f n1 r1], n1, n1 :: t1)
  end.
(** What a statement leaves in its scope *)
Inductive item : Type := IV | IK.
Definition c_simple (n : nat) (vars ctxs : list nat) (s : simple) : nat * list (stmt S) * list item * list nat * list nat :=
  match s with
  | DDefault => (n + 1, [SDefault n], [IV], n :: vars, ctxs)
  | DInit (EVar y) => (n + 1, [SCopy n (nth y vars 0)], [IV], n :: vars, ctxs)
  | DInit e => let '(n1, p, r, t) := c_expr n vars e in (n1, p ++ map SDtor (tl t), [IV], r :: vars, ctxs)
  | DMove y => (n + 1, [SMove n (nth y vars 0)], [IV], n :: vars, ctxs)
  | DIndep k => (n + 1, [KIndep n (nth k ctxs 0)], [IV], n :: vars, ctxs)
  | DCtx => (n + 1, [KNew n], [IK], vars, n :: ctxs)
  | Assign x (EVar y) => (n, [SCopyAssign (nth x vars 0) (nth y vars 0)], [], vars, ctxs)
  | Assign x e =>
      let '(n1, p, r, t) := c_expr n vars e in (n1, p ++ [SMoveAssign (nth x vars 0) r] ++ map SDtor t, [], vars, ctxs)
  | AssignMove x y => (n, [SMoveAssign (nth x vars 0) (nth y vars 0)], [], vars, ctxs)
  | SetDep k e => let '(n1, p, r, t) := c_expr n vars e in (n1, p ++ [KDep (nth k ctxs 0) r] ++ map SDtor t, [], vars, ctxs)
  | Eval e => let '(n1, p, r, t) := c_expr n vars e in (n1, p ++ map SDtor t, [], vars, ctxs)
  end.
(** The end of a scope: its objects, newest first *)
Fixpoint c_end (its : list item) (vars ctxs : list nat) : list (stmt S) :=
  match its with
  | [] => []
  | IV :: its => SDtor (hd 0 vars) :: c_end its (tl vars) ctxs
  | IK :: its => KDtor (hd 0 ctxs) :: c_end its vars (tl ctxs)
  end.
Fixpoint c_block (n : nat) (its : list item) (vars ctxs : list nat) (b : block) : nat * list (stmt S) :=
  match b with
  | Skip => (n, c_end its vars ctxs)
  | Do s r =>
      let '(n1, p1, it, vars', ctxs') := c_simple n vars ctxs s in
      let '(n2, p2) := c_block n1 (it ++ its) vars' ctxs' r in (n2, p1 ++ p2)
  | Sub b r =>
      let '(n1, p1) := c_block n [] vars ctxs b in
      let '(n2, p2) := c_block n1 its vars ctxs r in (n2, p1 ++ p2)
  end.
Definition program (b : block) : list (stmt S) := snd (c_block 0 [] [] [] b).

(** *** Meaning: ADoubles are values, AContexts are contexts that live as long as their scope.
    [left o] is what `double o ADouble` applies; it should be [o] (C45). *)
Context (left : cop -> cop).
Notation zero := (zero_val So).
Definition op2 (o : bin) := meth2 So (fop So) (const_val So) o.
Fixpoint m_expr (env : list (AF S)) (e : expr) : M (world S) (AF S) :=
  match e with
  | EVar x => mret (nth x env zero)
  | ENum c => mret (const_val So c)
  | EBin o rl a b =>
      if rl then y <~ m_expr env b ;; x <~ m_expr env a ;; op2 (rust_op o) x y
      else x <~ m_expr env a ;; y <~ m_expr env b ;; op2 (rust_op o) x y
  | ELeft o c b => y <~ m_expr env b ;; op2 (rust_op (left o)) (const_val So c) y
  | EFn2 f rl a b =>
      if rl then y <~ m_expr env b ;; x <~ m_expr env a ;; op2 (rust_fn2 f) x y
      else x <~ m_expr env a ;; y <~ m_expr env b ;; op2 (rust_fn2 f) x y
  | EFn1 f a => x <~ m_expr env a ;; meth1 So (fop So) (const_val So) (rust_fn1 f) x
  end.
Fixpoint set_nth (x : nat) (v : AF S) (env : list (AF S)) : list (AF S) :=
  match env, x with [], _ => [] | _ :: env, O => v :: env | u :: env, Datatypes.S x => u :: set_nth x v env end.
Definition m_simple (env : list (AF S)) (cenv : list nat) (s : simple) : M (world S) (list item * list (AF S) * list nat) :=
  match s with
  | DDefault => mret ([IV], zero :: env, cenv)
  | DInit e => v <~ m_expr env e ;; mret ([IV], v :: env, cenv)
  | DMove y => mret ([IV], nth y env zero :: set_nth y zero env, cenv)
  | DIndep k => v <~ new_indep So Some (nth k cenv 0) (f_zero So) ;; mret ([IV], v :: env, cenv)
  | DCtx => c <~ ctx_new ;; mret ([IK], env, c :: cenv)
  | Assign x e => v <~ m_expr env e ;; mret ([], set_nth x v env, cenv)
  | AssignMove x y => mret ([], set_nth y zero (set_nth x (nth y env zero) env), cenv)
  | SetDep k e => v <~ m_expr env e ;; _ <~ set_dep Some (nth k cenv 0) v ;; mret ([], env, cenv)
  | Eval e => _ <~ m_expr env e ;; mret ([], env, cenv)
  end.
Fixpoint m_end (its : list item) (env : list (AF S)) (cenv : list nat) : M (world S) (list (AF S) * list nat) :=
  match its with
  | [] => mret (env, cenv)
  | IV :: its => m_end its (tl env) cenv
  | IK :: its => _ <~ ctx_drop (hd 0 cenv) ;; m_end its env (tl cenv)
  end.
Fixpoint m_block (its : list item) (env : list (AF S)) (cenv : list nat) (b : block) : M (world S) (list (AF S) * list nat) :=
  match b with
  | Skip => m_end its env cenv
  | Do s r => a <~ m_simple env cenv s ;; m_block (fst (fst a) ++ its) (snd (fst a)) (snd a) r
  | Sub b r => a <~ m_block [] env cenv b ;; m_block its (fst a) (snd a) r
  end.
Definition meaning (b : block) : M (world S) unit := _ <~ m_block [] [] [] b ;; mret tt.
End Source.
Arguments expr : clear implicits. Arguments simple : clear implicits. Arguments block : clear implicits.

(** *** The programs of tests/cxx (C97); the destructors run where the test functions end *)
Section Tests.
Context {S : Type} (So : Fops S).
Fixpoint seq_of (l : list (simple S)) : block S := match l with [] => Skip | s :: l => Do s (seq_of l) end.
(** tests/cxx/AContextTests.cpp:4-7, 9-14, 16-22 *)
Definition test_init : block S := seq_of [DCtx].
Definition test_get_doubles : block S := seq_of [DCtx; DIndep 0; SetDep 0 (EVar 0)].
Definition test_record_simple_tape : block S :=
  seq_of [DCtx; DIndep 0; DInit (EBin CoMul false (EVar 0) (EVar 0)); SetDep 0 (EVar 0)].
(** tests/cxx/ADoubleTests.cpp:4-24; a is variable 1, b is variable 0 *)
Definition test_arithmetic_ops : block S :=
  seq_of ([DCtx; DIndep 0; DIndep 0] ++
    map (fun o => Eval (EBin o false (EVar 1) (EVar 0))) [CoAdd; CoSub; CoMul; CoDiv] ++
    map (fun o => Eval (EBin o false (EVar 1) (ENum (f_one So)))) [CoAdd; CoSub; CoMul; CoDiv] ++
    map (fun o => Eval (ELeft o (f_one So) (EVar 1))) [CoAdd; CoSub; CoMul; CoDiv]).
(** tests/cxx/ADoubleTests.cpp:26-37 *)
Definition test_unary_functions : block S :=
  seq_of ([DCtx; DIndep 0] ++ map (fun f => Eval (EFn1 f (EVar 0))) [CfSin; CfCos; CfTan; CfAbs; CfExp; CfLn]).
(** tests/cxx/ADoubleTests.cpp:39-55; its two assertions are about doubles, see C97_min_max *)
Definition test_binary_functions : block S :=
  seq_of ([DCtx; DIndep 0; DIndep 0] ++
    flat_map (fun f => [Eval (EFn2 f false (EVar 1) (EVar 0)); Eval (EFn2 f false (EVar 1) (ENum (f_one So)));
                        Eval (EFn2 f false (ENum (f_one So)) (EVar 1))]) [CfMin; CfMax]).
Definition cxx_tests : list (block S) :=
  [test_init; test_get_doubles; test_record_simple_tape; test_arithmetic_ops; test_unary_functions; test_binary_functions].
End Tests.

(** *** What is claimed (C97) *)
Section Claims.
Context {S : Type}.
(** Nothing of what the program made is left: no objects, no allocations on any heap, and exactly the
    contexts that were there before. *)
Definition all_freed (w : world S) (m : mach S) : Prop :=
  (forall x, m_obj m x = None) /\ (forall k, m_cobj m k = None) /\
  (forall a, h_at (m_box m) a = None) /\ (forall a, h_at (m_imp m) a = None) /\
  (forall a, h_at (m_cbox m) a = None) /\ (forall a, h_at (m_cimp m) a = None) /\
  (forall c, w_ctx (m_w m) c = None <-> w_ctx w c = None).
(** The program does not contain c - x, c * x or c / x with a double c (C45). *)
Fixpoint plain_expr (e : expr S) : bool :=
  match e with
  | EVar _ | ENum _ => true
  | EBin _ _ a b | EFn2 _ _ a b => plain_expr a && plain_expr b
  | ELeft o _ b => match o with CoAdd => plain_expr b | _ => false end
  | EFn1 _ a => plain_expr a
  end.
Definition plain_simple (s : simple S) : bool :=
  match s with DInit e | Assign _ e | SetDep _ e | Eval e => plain_expr e | _ => true end.
Fixpoint plain (b : block S) : bool :=
  match b with Skip => true | Do s r => plain_simple s && plain r | Sub b r => plain b && plain r end.
End Claims.
