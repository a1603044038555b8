# Formal model of `advantage` in Rocq (Coq 8.16.1)

## Approach

* **Scalars.** The crate is generic over `num::Float`, and so is the model: a record `Fops S`
  (Float.v) lists the primitives the crate calls.  Structural properties (recording, replay,
  forward sweep = tapeless mode, checkpointing, contexts, ...) are proved for *every* `Fops`, so
  they hold bit for bit for `f64` whatever its libm does.  Properties about derivatives and linear
  algebra are proved for the instance `Rops` (exact real arithmetic; only the standard library's
  Reals, `derivable_pt_lim`).  Violations that need rounding, infinities or NaN are witnessed in
  `f64ops T` (IEEE binary64 of `Coq.Floats.SpecFloat`, computable and axiom free; `T` supplies the
  transcendental functions, which no witness depends on).
* **Panics.** `panic!`, a failed `assert!`, `unwrap` on `None`, indexing out of bounds are the
  value `Panic p` of the result type `res`.  State (the registry `CONTEXT_MAP`, the contexts with
  their mutex poison flags) is threaded explicitly: `M St A := St -> res (A * St)`.
* **User functions** (`Function::eval` on `DVector<ADouble>`) are `func`/`prog` (Methods.v,
  Function.v): register programs over the API with arbitrary, infinitely branching inspection of
  values, i.e. every terminating deterministic function that uses AFloat through its API (it does
  not call `value_mut`, read `dvalue`, or create contexts of its own).  One relational theorem
  (Param.v, `sim_feval`) about two runs of a user function over two different scalar domains
  carries nearly all statements "for every function".
* **Histories.** Api.v defines every public call as a `step` on a world with any number of contexts
  and handles; `reachable` is the inductive closure, and invariants are proved by induction over
  call lists.
* **Concurrency.** Concurrent.v splits each call into its atomic actions (lock, unlock, atomic
  counter, Arc count); `play` over arbitrary schedules quantifies over every number of threads and every schedule.

## Files (rocq/theories)

The main ones; FILES.md lists all of them with a line each.

| file | content |
|---|---|
| Base.v | result type, state monad, indexing |
| Float.v | the `num::Float` primitives as a record |
| Operation.v | src/operation.rs |
| Tape.v | src/tape.rs (`Tape` trait default methods and `AContextTape`) |
| AContext.v | src/acontext.rs; struct `AFloat`, `from_op` of src/afloat.rs |
| Methods.v | operators and `impl Float` of src/afloat.rs; user programs `prog` |
| Cast.v | `ToPrimitive`, `NumCast`, `AFloat::cast` |
| Function.v | src/function.rs, src/macros.rs (`adv_fn!`, `adv_fn_obj!`) |
| Native.v | user functions called with plain numbers: the methods of `f64` |
| Mixed.v | recordings with other number types; evaluation in two precisions; the arithmetic of `f32` |
| Descent.v, FloydLoop.v | examples/perceptron.rs, examples/floyd_warshall.rs: `gradient` and the optimisation loops of `main` |
| Matrix.v | the fragment of nalgebra used |
| Jacobian.v, AbsNormal.v, GenJac.v, Checkpoint.v | src/drivers/*.rs |
| Samples.v | src/drivers/testfunc.rs: half pipe and references |
| Build.v, Programs.v | examples/floyd_warshall.rs, examples/perceptron.rs as user functions, written with combinators for loops over matrices |
| FloydSpec.v, FloydLoopSpec.v | walks, shortest walks, street maps; the method the loop follows |
| Nested.v | AFloat<AFloat<_>>: the scalar operations AFloat itself provides |
| Ffi.v | src/ffi.rs, include/adv/*.hpp |
| Concurrent.v | acontext.rs as a concurrent object |
| Api.v | call histories over the public API |
| Client.v, Trace.v | programs that choose their calls, alone and as one of many threads; the calls Function::tape makes |
| FloatInst.v, RealInst.v | the instances binary64 and R |
| Spec.v, DerivSpec.v, MethodSpec.v, AnfSpec.v, GenSpec.v, CheckSpec.v, FfiSpec.v, ConcSpec.v, NestedSpec.v, BallSpec.v, FfiPanicSpec.v, JointSpec.v, LimitSpec.v | small specifications the theorems are stated with |
| Param.v, Instances.v, *Facts*.v, Approx.v, RVec.v, Stirling.v, CheckRun/Loop/Gen/Main.v, GenMain.v, ConcInv.v, ConcMain.v, Replay2.v, Shape.v, SmoothPart.v, NestedMain.v, Iso*.v, TraceFacts.v, GenExplicit.v, FloydMain.v, TapeSize.v, TapeDeriv.v, FopsRel.v, BallMain.v, FfiPanics.v | proofs |
| EstReal.v, EstF64.v | the schedule's estimate in binary64 |
| F64Facts.v, F64Ops.v, F64Std.v | binary64 and R (Flocq); rounding errors of methods; what the standards say about pow |
| Examples*.v | concrete inputs that satisfy the hypotheses |
| Traits.v, CtxIds.v, CxxSpec.v, Source.v, SourceSpec.v | the rest of `impl Float` (C99), ids as machine words (C100), C++ programs with scopes (C97), user functions with mutable variables (C101) |
| ConcWrite.v, ConcHand.v | threads that use `value_mut` (C89) or `record` (C90) |
| OrderSpec.v, FmaSpec.v | dense products in any order (C87), with fused multiply-adds (C96) |
| Props*.v | the property theorems only, each with an `Example` instantiating its hypotheses and `Print Assumptions` |

## Properties: what is modelled, how it is proved

| id | model and proof |
|---|---|
| C01 | relational induction over user programs: replay array against plain evaluation; refutation by a branching function |
| C02 | the sweep writes every non-constant slot; the final array is the unique solution of the tape's equations |
| C03 | relational induction, replay at the recording point; frame properties of taping |
| C04, C06, C07, C08, C09, C10 | state machine of API calls, invariant by induction on the call list |
| C05 | totality of each sweep from well-formedness, with the exact panic conditions |
| C11 | relational induction, every `Fops`; proviso that constant subexpressions have tangent zero, refuted without |
| C12 | relational induction over a family of perturbed inputs in R (`approx`: first-order expansion), then `derivable_pt_lim` |
| C13, C14 | the same with o(\|h\|), and with exact equality |
| C15, C16 | forward array = unique solution of the tangent equations; adjoint invariant of the reverse loop |
| C17, C18, C19 | from C11, C12, C16; every rayon reduction tree |
| C20, C21 | real analysis method by method |
| C22, C23, C24, C29, C35, C45 | the claim is false of the code: refutation by witness, plus theorems for what does hold |
| C25, C26, C27, C28 | solution characterisation, strong induction on ids, linearity + adjointness |
| C30 - C34 | matrix algebra over lists, nilpotency of L*Sigma; the chain driver through C36 |
| C36 - C41 | loop invariants of the schedule; optimality by slope merging, and among arbitrary machines by an exchange argument (CheckGen.v); Stirling-type bound for the estimate, and error analysis of its evaluation in binary64 (EstReal.v, EstF64.v) |
| C42, C43 | induction over nested chains |
| C44, C45, C49 | heap state machine of the C++ classes, invariant and refinement of a value semantics |
| C46 - C48 | interleaving semantics, inductive invariant over all schedules |
| C50, C51, C53 | invariants over call histories; C51 also over all interleavings (ConcPoison.v) |
| C52 | relational theorem: two runs with different seeds |
| C54 | the abs-normal tape's own zero_order, every `Fops` |
| C55 | replay produces the tape that recording at the new point would produce |
| C56 | AFloat arithmetic on pairs as a scalar type (`Dops`); two-parameter family of perturbed inputs, relational induction; refuted without the proviso on powers |
| C57 | programs as trees of API calls (Client.v); invariant that the other threads know nothing of thread i's contexts; weakest precondition of micro-instructions over thread i's own view; simulation with Api.v up to renaming of ids and addresses |
| C58 | SpecFloat operations = Flocq's, whose correctness theorems give rounding to nearest; error bounds by interval reasoning |
| C59 | the sample functions of testfunc.rs as programs, symbolic execution over R to tape and abs-normal form; uniqueness of abs-normal forms and of the closed form |
| C60 | the example's stages as programs for every n and street map; Hoare-style rules for the combinators give the values of a replayed stage; walks through the first k nodes as the loop invariant. Gradient refuted by a one-street map |
| C61 | the example as a program; outputs by symbolic execution, regular everywhere, no Abs (C62), then C15/C17 |
| C62 | weight of the operations pushed by each method, induction over user functions |
| C63 | first order approximation of every entry of the value array by induction along the tape (TapeDeriv.v) |
| C64 | ball arithmetic as a third scalar type (BallSpec.v); the sweeps preserve every relation their operations preserve (FopsRel.v), applied to doubles/balls and balls/reals |
| C65 | invariant of the value semantics of C44 with the set of contexts a value can belong to; each method stays within one context or panics at its first operation (FfiPanics.v) |
| C66 | evaluation with the native methods (Native.v) against the value semantics of the AFloat methods, by induction over functions; (0-1)*x = -x bit for bit via Flocq |
| C67 | relational induction over user programs as for C01, with a conversion between the recording's and the tape's numbers and no proviso on constants (MixedFacts.v); binary32 instance, exactness of the conversion via Flocq |
| C68 | induction on the iterations with the replay and driver theorems of C14, C43 (DescentFacts.v); binary64 statements by case analysis of the IEEE operations; the refutation by evaluation |
| C69 | a partial-correctness logic of calls, stable under the other threads' steps (JointFacts.v: `wp`), gives what each completed call has left on the shared recording; then induction on the expression with the sweep theorems |
| C70 | the switching system with fixed signs is linear, solvable and bounded (LimitFacts.v: `sg_solve`, `sg_bound`); either its solution does not depend on the tied component's direction or a small step makes it strict; then C30's neighbourhood theorem |
| C71 | the functions of the tests modelled (UnitTests.v); induction over dimensions and schedules, symbolic evaluation of tapes over R and over any arithmetic |
| C72 | sizes of all intermediate matrices for every `Fops`; loops by induction on the rounds; the chain through the reverse fold (C36) |
| C73 | syntactic condition `once_f`; invariant of the recording over runs (distinct entries of variables, arguments of abs on the tape) |
| C74 | simulation between recording and a forward mode with prescribed slopes that builds the derivatives of all tape entries; the abs-normal equations solved from the left and from the right |
| C75 | forward mode with pairs through the builder programs (values, derivatives, register numbers); each stage's Jacobian by C74; half because the two directions of a street are one variable and the selected derivatives are symmetric; the derivative of V by comparison with the selected walks, which are as short as the shortest at the point and never shorter near it |
| C76 | FloydLoop.v: the loop with the printed values in the state; every register of the example's programs is in range (a logic over builders, BuildRange.v), so the checkpoint driver is total; induction on the iterations; parameters out of range: the derivative of the clamped share is 0, so is that entry of the gradient |
| C77 | tables of constructors and functions (OpSpec.v); case analysis; derivatives from the elementary lemmas of C12 on the line through the arguments |
| C78 | an evaluator carrying value, tangent and derivative and listing the switching values (SwitchSpec.v); simulation with recording gives both solutions of the tape's equations at once (SwitchFacts.v), the abs-normal equations identify the list with the switching vector (SwitchMain.v); induction over the chain, and a second simulation that forgets that intermediate results count as inputs (SwitchChain.v); the limiting statement from C70's region lemma |
| C79 | local Lipschitz continuity of the elementary derivatives by the mean value theorem (Smooth.v); a simulation carrying, for each triple of two base points and a target, both values and both increments, with the invariant `|b1+d1-b2-d2| = O(|x1-x2| (|v-x1|+|v-x2|))` (Stable.v); the quadratic bound is the case x2 = v (StableMain.v); the Lipschitz bound for derivatives by linearity and scaling (StableLin.v) |
| C80 | the functions as builder programs for any n (Benches.v); a program logic for builders in any scalar type (BuildSem.v); values and recorded counts (BenchFacts.v); the generalized Jacobian through the branch semantics of C78 with one derivative per input (BenchMain.v) |
| C81 | relations between two arithmetics carried through matrix products, the abs-normal form and the generalized Jacobian (RelDrivers.v, RelGen.v), for the pairs binary64/balls and balls/reals; `==` in binary64 identifies only zeros of different sign, which linear sweeps cannot tell apart, so the early exits are harmless (RelGen.v); signs from decided balls (GenBallFacts.v, GenBallMain.v); vocabulary in GenBallSpec.v |
| C82 | the family of NestedMain.v (nested value, values at the corners of the parallelogram) with the invariant that the nested value holds the differences of the corner values; one case per piecewise affine operation, constants stay constant; induction over user functions by `sim_feval` (NestedAffine.v) |
| C83 | a translation of C++ statements into a user function body (FfiRecSpec.v); by C45/C49 the heap machine agrees with a store of values, and the store agrees with the registers of the translated body by induction over the statements; translated bodies stay in range, so recording cannot panic (FfiRecord.v) |
| C84 | reachability `connected` in the recorded operations (SparseSpec.v); replays and tangents by well-founded induction on slots from the equations of a replay, adjoints by an invariant on the slots that reach no differing seed (SparseFacts.v); zeros of Jacobians by comparing the unit seed with the zero seed (SparseMain.v) |
| C85 | induction along the path, from the equations of a replay and a tangent sweep; for adjoints: NaN persists under `+=`, and the slot of a result is final when its operation is processed (SparseMain.v) |
| C86 | the chain driver is a fold over the tapes the functions record (ChainBall.v, from the checkpointing theorem of C33 and tapeless = taped tangents of C11), for every arithmetic; the relation of C81 between binary64, balls and reals is carried through this fold, link by link (`rel_along`); the exact result by induction from the one-tape theorem of C31 |
| C87 | orders of summation as trees over the products (OrderSpec.v), the drivers with the products as parameters; exact: a sum over a permutation; any arithmetic: products only feed the constant vectors (relational, `anf_with_same`, `gj_with_same`, `along_by_same`); binary64: the relation of C81 with the same tree in both arithmetics |
| C88 | the provided methods as compositions of acos, * and / (Angles.v); exact values by computation; rounding by relative errors of the three operations and Flocq (AnglesMain.v) |
| C89 | Concurrent.v with `value_mut` as a further move (ConcWrite.v); forgetting all numbers (scalars become `unit`) is a bisimulation with the process without it (ConcErase.v), so the invariants of C46-C48 carry over; growth of recordings, values included, by an invariant of its own (ConcWriteMain.v) |
| C90 | ConcWrite.v with `record` as a further move (ConcHand.v); forgetting numbers and recordings is a bisimulation with the process of Concurrent.v, in which `record` is `set_dep` of a constant (ConcShape.v), so the registry and lock theorems of C48 carry over; growth as in C89 (ConcHandMain.v) |
| C91 | nested AFloats of any depth (`nops`: `Dops` iterated, Nest.v); induction on the depth: each derivative rule, run on numbers one level below, gives the derivatives of the rule's result (NestFacts.v); then induction over the program (NestMain.v). Two refutations (NestExtra.v) |
| C92 | recording the inner level of AFloat<ADouble> (Hess.v): the rules as recorded operations on any inner type, and a compiler to straight-line code; equality by induction over the program (HessComp.v); with C11, C16 and C56 the sweeps (HessMain.v). One refutation (HessEx.v) |
| C93 | relation between the tape of a chain and the tapes of its functions (`links`, ChainRuleSpec.v); forward by C11 and C42, reverse by C16 and nondegeneracy of the scalar product, Jacobians as the matrices the sweeps represent (ChainRule.v) |
| C94 | the two directions exchanged: symmetric rule per operation, relational induction over the two runs (Symm.v); with C92 the products (SymmMain.v). One refutation |
| C95 | C56 with both directions equal, Taylor's theorem with Peano's remainder from the mean value theorem (Taylor2.v) |
| C96 | FmaSpec.v: `forder`, `sum_fby`, drivers with the products left open; relational lemmas as for C87, a ball operation for the fused step (Props45.v). |
| C97 | a source language with scopes, its translation to the calls of C44 (temporaries die at the end of the full expression, variables at the end of the scope) and its value semantics (CxxSpec.v); simulation by induction over expressions and blocks, with the live names of the store as association lists (CxxFacts.v); then the refinement of C44, C49 and C65 (CxxMain.v, Props46.v) |
| C98 | heaps carry the history of allocations and frees and an allocator, a function of it (Ffi.v); the invariant of C44 with `low`: live cells are live in the history (FfiFacts.v); two machines with different allocators represent the same store of values (FfiAlloc.v, Props47.v) |
| C99 | Traits.v: the trait members as a record, `af_traits` for AFloat, iterated to `tower_traits`; binary64 from the bit fields. Induction on the depth; binary64 facts from Flocq (TraitsFacts.v), absorption of small summands by rounding (TraitsMin.v). |
| C100 | CtxIds.v: ids as words below W, contexts as objects with addresses, the registry as a map from ids to addresses. Induction over histories (CtxIdFacts.v). |
| C101 | Source.v: source language with mutable variables, its execution with any variable type, translation to the programs of Methods.v by continuations; SourceSpec.v: evaluation on numbers with the list of test outcomes. The translation simulates the execution (SourceFacts.v, any instance); the same outcomes give the same resolved path (SourceMain.v, two runs side by side), then C01; SourceDeriv.v: derivatives by applying C12 to the resolved path, which is the function near the point. Chains: induction over the links (SourceChain.v), derivatives through C102 (ChainDeriv.v). |
| C102 | SamePath.v: specification same_tape / recorded_alike / alike_near over recorded tapes only. A well-formed tape determines the values of a replay from its operations and constants (values_at_unique), hence the equivalence; the other claims follow by replacing the function by the one that always takes the path taken at x, which records the same tape. SameStable.v transfers the error bounds of C79. SameNest.v transfers the derivatives of any order of C91, SameQuad.v second derivatives (C56), exact abs-normal forms (C25), second differences (C82), Hessian-vector products (C92) and quadratic models (C95). |
| C103 | DecideSpec.v: [stable], an execution on plain numbers in which every decision is locally constant. All variables of the program along the path taken at x are differentiable, hence continuous, functions of the inputs (the path with all variables as outputs, probe in DecideMain.v), so near x every decision comes out alike. One refutation. DecideChainSpec.v: [stable_f], the same for each function of a chain; by induction over the chain the outputs of each function are differentiable functions of the inputs of the chain |

Nothing in the list was left unexpressed.  Where the English claim is false of the code the theorem
with suffix `_refuted` gives the counterexample and the other theorems of the same property say what
does hold.

## Trusted base

* Coq's kernel (8.16.1), including its conversion by `vm_compute` in refutation witnesses.
* Flocq (definitions and theorems, no axioms of its own) for theorems that relate binary64 to R.
* The faithfulness of the model: every definition cites the lines of /repo it models and says where
  it simplifies.
* Axioms: AXIOMS.md lists what `Print Assumptions` prints for every theorem (generated from the
  build by tools/gen_axioms.py).  Only standard library axioms occur, and only in theorems about R:
  `ClassicalDedekindReals.sig_forall_dec`, `ClassicalDedekindReals.sig_not_dec`,
  `FunctionalExtensionality.functional_extensionality_dep`, `Classical_Prop.classic`.
  All other theorems are "Closed under the global context".
* `coqchk` on the library as a whole additionally lists the opaque module interface fields of the
  standard library that it loads (`Coq.Reals.*RbaseSymbolsImpl.*`, `RinvImpl.*`,
  `Coq.ssr.ssrunder.Under_rel.*`); they are artefacts of sealed stdlib modules with
  implementations.
* No axioms, parameters, module types or functors of our own.

## What is modelled, file by file

| repo file | modelled | not modelled |
|---|---|---|
| src/operation.rs | everything but `Debug`/`Display` | |
| src/tape.rs | everything | |
| src/acontext.rs | everything (sequentially in AContext.v, concurrently in Concurrent.v, with bounded ids in CtxIds.v) | `Debug`; allocation failure |
| src/afloat.rs | struct, constructors, `from_op`, all arithmetic operators, all of `impl Float` that is implemented, the methods that panic (`unimplemented!`), comparison, `cast`, NumCast/ToPrimitive | `Debug`; the methods and constants of Float outside arithmetic are in Traits.v (C99) with the scalar's own parser as a parameter |
| src/function.rs, src/macros.rs | everything; macros as the functions they expand to | macro syntax |
| src/drivers/jacobian.rs | everything | thread pool; only its reduction orders |
| src/drivers/abs_normal.rs | everything | |
| src/drivers/generalized_jacobian.rs | everything | |
| src/drivers/checkpointing.rs | everything, with an execution log | the estimate enters as a parameter `est`, assumed within 1/2 of the exact number where needed; EstF64.v defines its binary64 evaluation `est64` and proves the assumption, given that libm's exp and pow are accurate to 2^-42 |
| src/ffi.rs, include/adv | the whole surface: constructors, assignments, destructors, operators, functions | name mangling, `move_impl`, exceptions/unwinding across the boundary |
| src/scalar.rs | trait bounds only: nothing to model | |
| src/drivers/testfunc.rs | everything (C59) | |
| examples | the recorded functions, `zero_order`, `calculate_gradient`, `gradient`, the loops of the perceptron and of Floyd-Warshall's `main` with the values they print | the formatting of the printed lines |
| `mod tests` | the functions and their claims (UnitTests.v, C59, C71) | the 1e-5 tolerances |
| benches | Benches.v (C80) | running times are not modelled |
| tests/cxx | CxxSpec.v (the programs) | C97; gtest itself is not modelled |

Simplifications (also stated at the definitions):

* nalgebra's dense products are sums in one fixed order in Matrix.v; C87 proves what does and what
  does not depend on it, for every order, and C96 with fused multiply-adds anywhere.
* `usize` ids are unbounded naturals, which C100 justifies for the first 2^64 - 2 contexts; `VecDeque::with_capacity(huge)` does not abort.
* By default heap addresses are not reused in Ffi.v (`mach0`), so that every access to a freed box is an
  error; C98 removes this: any allocator gives the same run.
* Concurrent.v: interleaving of lock operations and atomics (sequential consistency; every shared
  access of the code is under a mutex or `SeqCst`); an Arc's count is the number of references;
  `CONTEXT_MAP`'s own mutex is never poisoned (no code panics while holding it); fairness of
  mutexes is not modelled; `value_mut` is added in ConcWrite.v (C89), the public `record` in ConcHand.v (C90).
* `tof` in Api.v: the conversion of a context's scalar to the stored `f64` is a parameter
  (identity for ADouble); for ASingle see C67, for nested AFloat C24.

## Findings

1. Reverse sweeps overwrite, rather than add, seeds of an output that is returned twice (C16, C18).
2. The same in `mul_left` of the abs-normal sub-tapes when a variable is passed to `abs` twice:
   wrong matrices in `abs_normal` and `generalized_jacobian` (C27, C30).
3. `column(i)` builds a 1 x n matrix and panics unless the matrix has one column (C29).
4. `generalized_jacobian_chain(.., None)` panics on one-function chains (C35).
5. `abs_sub` returns |a-b|, not the positive difference (C22).
6. `max`/`min` lose precision or return NaN in IEEE arithmetic (C23, C49).
7. `NumCast`/`ToPrimitive` truncate AFloats to integers (C24); nested AFloats are recorded truncated.
8. C++ `double op ADouble` always adds (C45).
9. C++ copy self-assignment is a use after free (C44); self-move resets to 0.
10. A constant subexpression can have tangent NaN in tapeless mode, 0 on the tape (C11).
11. The tangent rule of `abs` is not homogeneous: `jacobian_forward` of a function with `abs` is the
    increment along unit vectors (C15, C17); `jacobian_reverse` panics on such tapes (C05).
12. `value_mut` desynchronises a variable from its recording (C06); the public `record` can break
    well-formedness (C04).
13. `AContext::tape()` takes four locks in turn: a snapshot taken while others record can be torn
    (but is index safe) (C47).
14. `set_dep` with a foreign variable panics while holding the lock and poisons the context (C09, C51);
    so does a value that cannot be converted to `f64` inside `record`, which also leaves the operand
    constants recorded so far behind (Api.v `from_op_left`).
15. A tape recorded on one branch silently replays that branch elsewhere (C01, C55).
16. `powi(0)` has NaN tangent at 0; the chain driver's forward closure zips `x` and `dx` and thus
    silently truncates to the shorter one.
17. The power rule tests `dx != 0` and `dy != 0` to skip terms; on nested AFloats the test looks at
    values only and drops the second derivative when the base is stationary (C56).
18. `AContext::from_cid` hands any context to whoever guesses its number, so isolation between
    threads is by convention only (C57).
19. `cbrt` of a negative number is NaN, `hypot` overflows for arguments from 2^512 on (C20).
20. A tape recorded with `ASingle` does not reproduce its recorded outputs when replayed (C67).
21. The perceptron example's loop reports "Finished" with NaN parameters when an iteration no longer
    changes the parameters (C68).
22. With two or more ties the sign bits can select signs that no direction has: the "generalized
    Jacobian" of |x| - |-x| (which is 0) at 0 is then -2, also with the bits the chain driver uses (C70).
23. The chain driver's multiplicity counts every function's arguments as inputs: a constant 0 passed
    on to abs counts although the composed function has no tie (C78).
24. With nested AFloats the last component of a function with `abs` is a second difference over the
    seeds, not a second derivative, as soon as a kink lies within the step (C82).
25. `reverse_sequence` panics before its first call of a closure for sequences longer than the number
    of checkpoints when that number is 2^32 or more (a binomial coefficient does not fit a word, C36, C39).
26. examples/floyd_warshall.rs:118, 126, 134: the edges 5-8, 12-15 and 19-22 use the quota of another
    junction's traffic light; modelled as it is.
27. In binary64 both Jacobian drivers can return NaN where the output does not depend on the input:
    for (x0 + x0, x1 / x1) at (1, 2^-540) the seed of the other column is 0, and 0 times the
    overflowed factor of the division is NaN (C84).
28. `epsilon()` of an ADouble is inherited from num-traits and returns 2^-23, the epsilon of `f32`;
    `to_degrees` overflows for arguments whose result is a double (C88).
29. Third and higher derivatives by nested AFloats can be wrong although all operations are smooth: the
    rules of tan, division, asin, acos and atan square something, and the power rule drops the derivatives
    of a base whose first derivative is 0. The third derivative of tan at 0 comes out as 0 instead of 2 (C91).
30. In binary64 the third derivative of `x.powi(2)` at 0 is NaN: the rule of the rule multiplies 0 by
    pow(0, -1) (C91).
31. Recording AFloat<ADouble> records a constant where the power rule finds a derivative that is 0 in value:
    the Hessian of sqrt(x*x+1) at 0 comes out as 0 instead of 1 (C92).
32. The second derivative computed by nested variables depends on the order of the two directions where a base
    of a power is stationary in one of them: for (x*y + 1).powi(2) at (1, 0) it is 2 in one order, 0 in the other (C94).
33. `max_value()`/`infinity()` are not neutral for `min` (nor `min_value()`/`neg_infinity()` for `max`): folds that
    start with them return 0 or NaN (C99).
34. The overflow assertion of `AContext::new` fails only once; `fetch_add` has wrapped by then and ids of living
    contexts are handed out again (C100). On 32-bit machines 2^32 driver calls suffice.

## Tests of the theorems against wrong programs

seeded/LOG.jsonl: one line per seeded bug (definition, edit, broken claim, theorems that failed,
theorems tightened).  The mutated model is rebuilt in a scratch copy; the proofs of theorems that no
longer compile are recorded as failures.
