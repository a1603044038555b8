# Files of the development, in the order of _CoqProject

Generated by tools/gen_files.py from the header comments.

| file | content |
|---|---|
| Base.v | Results of Rust computations, panics, and slice indexing. |
| Float.v | The primitive floating point operations the crate calls. |
| Operation.v | Model of src/operation.rs. |
| Tape.v | Model of src/tape.rs. |
| AContext.v | Model of src/acontext.rs and of the [AFloat] type and [AFloat::from_op] of src/afloat.rs, for one thread. (Several threads: |
| Methods.v | Model of the arithmetic and [Float] methods of src/afloat.rs and of user functions. |
| Function.v | Model of src/function.rs and src/macros.rs. |
| Spec.v | Specifications used by the property theorems, stated without the algorithms of the model: what a well formed tape is and which equations a replay or a derivative sweep must solve. |
| Param.v | A relational ("logical relations") theorem for user functions: if the primitive operation of two instances of Methods.v is simulated, so is every user function and every chain. |
| TapeFacts.v | Facts about tapes: sweeps of a well formed tape never panic and compute the unique solution of the tape's equations. |
| AContextFacts.v | Facts about recording: what [from_op] does to the world, and invariants. |
| Instances.v | Other readings of a user function, used to state and prove properties: plain evaluation on numbers, and evaluation on (value, tangent) pairs. |
| FunctionFacts.v | Recording a function: relation between the recorded tape, plain evaluation and tapeless forward mode. |
| RecordFacts.v | The main simulation: the tape recorded by [fn_tape] computes, at any point and in any direction, what evaluating the function there computes. |
| ReplayFacts.v | Consequences of the main simulation for [Function::tape]: replay, stored values, forward sweeps, independence of the surrounding world. |
| SweepFacts.v | When sweeps panic. |
| Api.v | Histories of API calls, one thread: contexts are created, looked up, dropped; variables are created, copied, overwritten, marked and combined; panics may be caught and execution goes on. |
| ApiFacts.v | Invariants of API histories. |
| ApiFacts2.v | API histories, continued: stored values are consistent unless value_mut is used; user functions and [Function::tape] are histories. |
| FloatInst.v | Concrete float arithmetics: |
| RealInst.v | Exact real arithmetic. |
| ApiFacts3.v | Facts behind C04, C07-C10: permutation form of well-formedness, isolation, mixing contexts, outliving a context. |
| PanicSeq.v | Which calls freeze a context, one thread. |
| Replay2.v | Replay facts in the form the property theorems use. |
| Examples.v | Example functions used to show that the hypotheses of the theorems can be met. |
| Props1.v | Property theorems C01-C11: recording and replay. |
| Approx.v | First order approximation of functions of a small parameter: eps-delta arguments. |
| DerivSpec.v | Specification vocabulary for the theorems about derivatives, in exact real arithmetic. |
| DerivFacts.v | Derivatives: evaluation along a family of perturbed inputs. |
| LinearFacts.v | Linearity of the forward sweep and adjointness of the reverse sweep, exact arithmetic. |
| DerivFacts2.v | Piecewise affine functions (exactness) and the derivative theorem. |
| Matrix.v | The fragment of nalgebra the drivers use: dynamically sized matrices and vectors. |
| Jacobian.v | Model of src/drivers/jacobian.rs. |
| MatrixFacts.v | Facts about the matrix fragment and rayon's reduction. |
| JacobianFacts.v | Facts about the Jacobian drivers. |
| ExamplesR.v | Example functions over the reals, and small witnesses, for Props2. |
| Props2.v | Property theorems C12-C18: derivatives. |
| MethodSpec.v | Specification of the derived [Float] methods in exact real arithmetic: what num::Float's documentation says each method computes, and where. |
| MethodFacts.v | Values and derivatives of the derived [Float] methods. |
| Cast.v | Conversions of [AFloat]: afloat.rs:97-104, 200-217 and the default methods of num-traits they rely on. |
| CastFacts.v | Conversions to integers, exactly. |
| ChainFacts.v | Function chains: composition, indexing, dimensions. |
| AbsNormal.v | Model of src/drivers/abs_normal.rs. |
| AbsNormalFacts.v | Facts about abs-normal tapes: well-formedness of the sub-tapes, mul_left and mul_right. |
| Props3.v | Property theorems C19-C24, C42, C43: determinism of the parallel drivers, float methods, conversions, function objects. |
| AnfSpec.v | Specification vocabulary for the abs-normal form: vectors and matrices of real numbers, what it means that a matrix describes a tape, and the abs-normal equations. |
| RVec.v | Linear algebra on lists of reals. |
| AnfFacts.v | Facts about the abs-normal form in exact real arithmetic. |
| AnfFacts2.v | The abs-normal form of a function. |
| ExamplesAnf.v | Example functions and tapes for the abs-normal form. |
| Props4.v | Property theorems C25-C29: the abs-normal form (vocabulary in AnfSpec.v). |
| Checkpoint.v | Model of src/drivers/checkpointing.rs. usize and isize are 64 bits wide. |
| CheckSpec.v | Specification vocabulary for checkpointing: what reversing a sequence means, what a checkpointing strategy is and what it costs, and the real number the schedule estimates. |
| CheckFacts.v | Binomial coefficients, the schedule, and the cost of checkpointing. |
| CheckRun.v | The schedule and [reverse_sequence]. |
| CheckLoop.v | [reverse_sequence]: result, memory and number of calls, by one invariant. |
| Stirling.v | Wallis' product, the lower Stirling bound, and the estimate of checkpointing.rs:31-35. |
| CheckGen.v | Optimality of the checkpointing strategies among all ways to visit the states with limited memory (machine [reverses] of CheckSpec.v). |
| CheckMain.v | The statements about checkpointing that the property theorems use. |
| CheckLimit.v | Sequences too long for checkpointing: with 2^32 checkpoints or more and more than that many states, the binomial coefficients the schedule compares with do not fit the machine words. |
| Props5.v | Property theorems C36-C41: checkpointing (vocabulary in CheckSpec.v). |
| GenJac.v | Model of src/drivers/generalized_jacobian.rs. |
| GenSpec.v | Specification vocabulary for the generalized Jacobian. |
| GenFacts.v | The generalized Jacobian of one tape: the two fixed point iterations, signs and the result. |
| GenMain.v | The generalized Jacobian drivers: functions, sign selection and chains. |
| ExamplesGen.v | Example functions for the generalized Jacobian. |
| Props6.v | Property theorems C30-C35: generalized Jacobians (vocabulary in AnfSpec.v and GenSpec.v). |
| Ffi.v | Model of the C++ interface: src/ffi.rs, src/cxx/ADouble.cpp, src/cxx/AContext.cpp (declarations: src/cxx/ffi.hpp, include/adv/ADouble.hpp, include/adv/AContext.hpp). |
| FfiSpec.v | What a C++ program with [ADouble] and [AContext] objects should do: objects are values. |
| FfiFacts.v | The C++ objects refine the value semantics of FfiSpec.v: proofs. |
| Props7.v | Property theorems C44, C45, C49: the C++ interface (vocabulary in FfiSpec.v). |
| Concurrent.v | Several threads: model of src/acontext.rs and of AFloat::from_op (src/afloat.rs:47-95) at the granularity of lock operations and atomic instructions. |
| ConcSpec.v | Vocabulary of C46-C48. |
| ConcFacts.v | Concurrency: a small program logic for API calls and the invariant of the whole process. |
| ConcInv.v | Concurrency: the invariant of the whole process. |
| ConcMain.v | Concurrency: consequences of the invariant. |
| ConcBound.v | No call takes more than 15 steps of its thread, so calls cannot keep each other busy for ever. |
| Props8.v | Property theorems C46-C48: several threads (vocabulary in ConcSpec.v). |
| Shape.v | Two recordings that take the same path differ only in the stored values: replaying one at the point of the other produces the other. |
| SmoothPart.v | The abs-normal tape as a function: replaying it evaluates the smooth part G of the decomposition F(x) = y iff (z, y) = G(x, \|z\|). |
| SmallFacts.v | Facts about ids, poisoned contexts, derivative seeds and the convenience methods of AContext. |
| Props9.v | Property theorems C50-C55 (vocabulary in Spec.v and Api.v). |
| Nested.v | Nested AFloats: |
| NestedSpec.v | Specification vocabulary for second derivatives by nested AFloats, in exact real arithmetic. |
| NestedFacts.v | Second derivatives by nested AFloats. |
| NestedMain.v | Nested AFloats compute second derivatives: the induction over user functions. |
| Props10.v | Property theorems C56: second derivatives by nested AFloats. |
| Client.v | A thread that keeps its contexts and variables to itself: any terminating program that chooses its API calls from what it has seen so far, run alone (on Api.v) and run as one of the threads of Concurrent.v. |
| Trace.v | The API calls that [Function::tape] (function.rs:26-37) makes for a user function. |
| IsoFacts.v | Isolation of threads: other threads never touch what one thread keeps to itself. |
| IsoOthers.v | What the threads outside a set [mi] can do to the contexts [I] (ids), [A] (addresses) they have never heard of: nothing. |
| IsoSelf.v | One thread's own steps, seen through what it keeps to itself. |
| IsoSeq.v | A program that keeps everything to itself does, micro-instruction by micro-instruction, what Api.v says it does alone, up to the names of its contexts. |
| IsoMain.v | Proof of C57: the simulation of whole programs, and the schedules. |
| TraceFacts.v | The calls of Trace.v have the effect of [fn_tape]. |
| Props11.v | Property theorems C57: threads that do not share contexts (vocabulary in Client.v, Trace.v). |
| EstReal.v | The estimate of checkpointing.rs:31-35 evaluated with rounding errors: if every operation is accurate to the relative error [eps], the result is off by less than one half. |
| F64Facts.v | The arithmetic of FloatInst.v (SpecFloat's binary64) and the real numbers: results are correctly rounded. |
| EstF64.v | The estimate of checkpointing.rs:31-35 in binary64, and its accuracy. |
| Props12.v | Property theorems C34, C36, C39, C41 with the estimate of the schedule evaluated in binary64 ([est64 T], EstF64.v), T being the platform's libm. |
| F64Ops.v | Rounding errors of the methods of variables in binary64. |
| F64Std.v | What the standards prescribe for [pow] in binary64, and consequences for cbrt and hypot. |
| Props13.v | Property theorems C58 (rounding of variables in binary64), and what C20 and C23 become in binary64. |
| GenExplicit.v | The generalized Jacobian in closed form. |
| Samples.v | Model of src/drivers/testfunc.rs, the functions with which the library's unit tests compare the abs-normal and generalized Jacobian drivers. |
| SampleFacts.v | The drivers on the half pipe, for every point and direction, in exact arithmetic. |
| Props14.v | Property theorems C59 (the library's sample functions and their hand-written references, src/drivers/testfunc.rs), and the closed form of the generalized Jacobian for C30. |
| Build.v | Writing larger function bodies: a function body [prog] numbers its registers by position; here the numbers are handed out. |
| BuildFacts.v | Reasoning about function bodies written with Build.v. |
| Programs.v | Model of the example programs examples/floyd_warshall.rs and examples/perceptron.rs. |
| FloydSpec.v | Specification for the shortest-path example: walks in a weighted graph with vertices 0..n-1. |
| FloydFacts.v | The shortest-path example computes shortest paths. |
| FloydMain.v | The shortest-path example as a whole: all its tapes, recorded at zero and replayed. |
| TapeSize.v | How much a function records. |
| PerceptronFacts.v | The perceptron example: its gradient is the gradient of the error of the network. |
| Props15.v | Property theorems C60 (examples/floyd_warshall.rs), C61 (examples/perceptron.rs) and C62 (what functions record). |
| TapeDeriv.v | Forward sweeps of arbitrary tapes are derivatives of the replay. |
| FopsRel.v | The sweeps preserve every relation between two arithmetics that the elementary operations preserve. |
| BallSpec.v | Running error bounds: what a sweep in binary64 can differ from the exact sweep. |
| BallFacts.v | The balls contain the doubles and are about the exact numbers. |
| BallMain.v | Rounding errors of replays and sweeps. |
| BallJac.v | Rounding errors of [jacobian_reverse]. |
| Props16.v | Property theorems, part 16: tapes as functions of their own. |
| FfiPanicSpec.v | When C++ statements mix contexts. (Vocabulary of C65.) |
| FfiPanics.v | When a C++ program is ended by a panic of the Rust library. |
| Native.v | User functions called with plain floating point numbers. `adv_fn!` generates a function that is generic over the scalar (macros.rs:46-64, scalar.rs:48-64); it can be called with a vector of `f64`, as in the example in its documentation (macros.rs:32-42), in which case the methods are those of `f64`, not those of src/afloat.rs. |
| NativeFacts.v | Functions on plain numbers and on AFloats. |
| Props17.v | Property theorems C65: the panics of the Rust library that end C++ programs (vocabulary in FfiSpec.v and FfiPanicSpec.v); C66: functions on plain numbers (vocabulary in Native.v). |
| Mixed.v | Recordings made with another number type than [f64], for instance with [ASingle] (= [AFloat<f32>], afloat.rs:5), and what their tapes compute. |
| MixedFacts.v | Proofs about Mixed.v: what a tape recorded with another number type computes. |
| SingleFacts.v | Proofs about the [f32] instance of Mixed.v. |
| SingleRound.v | The arithmetic of [f32ops] (Mixed.v) is correctly rounded; as F64Facts.v and F64Ops.v, for single precision. |
| DescentSpec.v | Specification of gradient descent with Barzilai-Borwein steps, over the reals. |
| Descent.v | The optimisation loop of examples/perceptron.rs. |
| DescentFacts.v | Proofs about the optimisation loop of the perceptron example. |
| Props18.v | Property theorems C67: recordings with other number types (vocabulary in Mixed.v); C68: the optimisation loop of the perceptron example (model in Descent.v, vocabulary in DescentSpec.v). |
| JointSpec.v | Vocabulary of C69: what threads compute jointly on one context. |
| JointFacts.v | Joint recordings: whatever the interleaving, a replay evaluates what every thread has computed. |
| JointExample.v | Two threads computing jointly: an example schedule for C69. |
| Props19.v | Property theorems C69 (vocabulary in JointSpec.v). |
| LimitSpec.v | Specification vocabulary: limiting Jacobians. |
| LimitFacts.v | The generalized Jacobian as a limiting Jacobian of the piecewise linearisation. |
| LimitExample.v | A function whose generalized Jacobian is not a limiting Jacobian. |
| Props20.v | Property theorems C70: the generalized Jacobian as a limiting Jacobian. |
| ConcPoison.v | Poisoned contexts under all interleavings. |
| PanicConc.v | Which calls freeze a context, several threads. |
| Props21.v | Property theorems C51 for several threads: a panic while a context is locked. |
| UnitTests.v | Model of the functions in the library's unit tests (the [mod tests] of src/), so that what the tests check on a few inputs can be stated for all of them. |
| UnitFacts.v | The library's unit tests, for all inputs. |
| UnitFacts2.v | The library's unit tests, for all inputs (continued). |
| UnitFacts3.v | The library's unit tests of the checkpointing schedule, for all inputs. |
| Props22.v | Property theorems C71: what the library's unit tests check on a few inputs holds for all of them. (The half pipe tests: |
| DriverSpec.v | Vocabulary for the panics of the drivers. |
| DriverPanics.v | When the drivers panic, in every arithmetic. |
| Props23.v | Property theorems C72 (when the drivers panic). |
| TapeShape.v | Which functions return no variable twice and pass none to abs twice. |
| StraightSpec.v | Differentiation with prescribed slopes of the absolute values, over the reals. |
| StraightFacts.v | Recording and differentiation with prescribed slopes. |
| StraightMain.v | The generalized Jacobian is the derivative with prescribed slopes. |
| OnceMain.v | Generalized Jacobians of functions that return no variable twice and pass none to abs twice. |
| Props24.v | Property theorems C73, C74: which functions the nonsmooth drivers are right for, and which derivative the generalized Jacobian is. |
| PairBuild.v | Function bodies written with Build.v: which variables they return, and what they compute together with derivatives along the selected branches. |
| FloydPair.v | The stages of the shortest-path example on pairs of numbers and derivatives. |
| FloydGraph.v | The first stage of the shortest-path example on pairs, and where its outputs repeat a variable. |
| FloydGrad.v | The gradient of the shortest-path example: what the stages compute one after the other. |
| FloydEnvelope.v | The gradient of the shortest-path example and the derivative of what it minimises. |
| Props25.v | Property theorems C75: the gradient of the shortest-path example (specification vocabulary in FloydSpec.v; [col g 0]: the column the example calls its gradient). |
| FloydLoop.v | The optimisation loop of examples/floyd_warshall.rs. |
| FloydLoopSpec.v | Specification of the shortest-path example's loop, in any arithmetic. |
| BuildRange.v | Builder programs whose registers are all in range run through in every arithmetic. |
| FloydTotal.v | The stages of the shortest-path example in every arithmetic: nothing panics. |
| FloydLoopFacts.v | Proofs about the shortest-path example's loop. |
| Props26.v | Property theorems C76: the loop of the shortest-path example (specification vocabulary in FloydLoopSpec.v; [fs_out]: the lines printed, [fin]: the loop has ended). |
| OpSpec.v | What the public constructors of operations stand for. |
| OpFacts.v | Proofs about single operations. |
| Props27.v | Property theorems C77: single operations (tables of constructors and functions in OpSpec.v). |
| SwitchSpec.v | Differentiation along the branches a direction selects, over the reals. |
| SwitchFacts.v | Recording and differentiation along the branches a direction selects. |
| SwitchMain.v | The generalized Jacobian is the derivative along the branches the direction selects. |
| SwitchChain.v | Chains of functions: differentiation along the branches a direction selects. |
| Props28.v | Property theorems C78: the generalized Jacobian in any direction, and of chains. |
| Smooth.v | Functions of one variable whose derivative is locally Lipschitz. |
| Stable.v | Piecewise linearisations at two neighbouring base points, compared at a third point. |
| StableSpec.v | Specification vocabulary: differences and distances of points. |
| StableMain.v | The piecewise linearisation: quadratic error, and stability in the base point. |
| StableLin.v | Without abs: derivatives at neighbouring points differ by at most a multiple of the distance. |
| StableEx.v | Increments of \|x\| at two points on different sides of the kink. |
| Props29.v | Property theorems C79: the error of the piecewise linearisation is quadratic. |
| BuildSem.v | Reasoning about function bodies written with Build.v: what a builder does when it is run on any kind of variables. |
| Benches.v | Model of the functions the benchmarks measure: benches/abs_normal.rs and benches/generalized_jacobian.rs, for any number of inputs. |
| BenchFacts.v | The benchmark functions: loops, values, what is recorded. |
| BenchMain.v | The benchmark functions: the products of L, the generalized Jacobian. |
| Props30.v | Property theorems C80: the functions the benchmarks measure. |
| RelDrivers.v | The drivers preserve every relation between two arithmetics that the elementary operations preserve: products with the matrices of the abs-normal form, the abs-normal form, the parts of the generalized Jacobian. |
| GenBallSpec.v | Vocabulary for rounding errors of the nonsmooth drivers. |
| RelGen.v | The generalized Jacobian in two arithmetics. |
| GenBallFacts.v | Rounding errors of the nonsmooth drivers: the three arithmetics. |
| GenBallMain.v | Rounding errors of the abs-normal form and of the generalized Jacobian. |
| Props31.v | Property theorems, part 31: rounding errors of the nonsmooth drivers. |
| NestedAffine.v | Nested AFloats on piecewise affine functions: exact second differences. |
| Props32.v | Property theorems C82: nested AFloats on piecewise affine functions. |
| FfiRecSpec.v | Recording through the C++ interface: the Rust function that corresponds to a piece of C++ code. (Vocabulary of C83.) |
| FfiRecord.v | A C++ program records the tape of the Rust function with the same operations. |
| Props33.v | Property theorems C83: recording through the C++ interface. |
| SparseSpec.v | Which inputs of a tape its outputs are connected with. (Vocabulary of C84 and C85.) |
| SparseFacts.v | Outputs depend only on the inputs they are connected with. |
| SparseMain.v | Zero entries of Jacobians; NaNs reach everything that is connected with them. |
| Props34.v | Property theorems C84 (what an output can depend on) and C85 (how NaNs spread). |
| ChainBallSpec.v | The chain driver as a computation on the tapes of the functions in the chain, in any arithmetic. |
| ChainBall.v | The chain driver in two arithmetics, and its rounding errors. |
| Props35.v | Property theorems C86: rounding errors of the chain driver. |
| OrderSpec.v | Dense matrix-vector products with the sums formed in any order. |
| OrderFacts.v | The order of summation in dense products does not matter in exact arithmetic and enters the inhomogeneous parts only. |
| OrderMain.v | Dense products with any order of summation: relations between arithmetics and rounding errors. |
| Props36.v | Property theorems C87: the order of summation in dense matrix-vector products. |
| Tapeless.v | Tapeless forward mode returns the values and the derivatives the tape returns. |
| Angles.v | num-traits' provided methods of [Float] that AFloat does not override (num-traits 0.2, not part of /repo; AFloat gets them by afloat.rs:295-391): to_degrees, to_radians, epsilon. |
| AnglesMain.v | Conversions between degrees and radians: |
| Props37.v | Property theorems C88: conversions between degrees and radians, and epsilon(). |
| ConcWrite.v | Vocabulary of C89: threads that also overwrite values through AFloat::value_mut (afloat.rs:32-34). |
| ConcErase.v | Overwritten values and the structure of recordings: forgetting all numbers turns a process with value_mut into one without (value_mut becomes dvalue_mut), so what holds there about ids, locks, the registry and the shape of tapes holds here. |
| ConcWriteMain.v | Proofs for C89. |
| Props38.v | Property theorems C89: threads that overwrite values (vocabulary in ConcWrite.v, ConcSpec.v). |
| ConcHand.v | Vocabulary of C90: threads that also record operations by hand, through the public method AContext::record (acontext.rs:147-164), besides assigning to value_mut() (ConcWrite.v). |
| ConcShape.v | Recording by hand and the registry: forgetting numbers and recordings turns a process with record and value_mut into one without (record becomes set_dep of a constant that nobody uses otherwise). |
| ConcHandMain.v | Proofs for C90. |
| Props39.v | Property theorems C90: threads that record by hand (vocabulary in ConcHand.v, ConcSpec.v). |
| Nest.v | AFloats nested to any depth: |
| NestSpec.v | Specification vocabulary for derivatives of any order by nested AFloats, in exact real arithmetic. |
| NestFacts.v | Derivatives of any order by nested AFloats: the operations. |
| NestMain.v | Derivatives of any order by nested AFloats: the induction over user functions. |
| NestExtra.v | Derivatives of any order by nested AFloats: functions without provisos, and the failing cases. |
| Props40.v | Property theorems C91: derivatives of any order by nested AFloats. |
| Hess.v | Recording the inner level of nested AFloats: |
| HessComp.v | The compiled program does what the nested evaluation does. |
| HessMain.v | Forward over reverse: sweeps on the tape of nested AFloats, and second derivatives. |
| HessEx.v | Recording nested AFloats: the power rule drops a derivative. |
| Props41.v | Property theorems C92: |
| ChainRuleSpec.v | Specification vocabulary for the chain rule. |
| ChainRule.v | The chain rule for tapes of chains. |
| Props42.v | Property theorems C93: the chain rule. |
| Symm.v | Second derivatives by nested AFloats are symmetric. |
| NestedResolve.v | Nested evaluation follows the path taken at the values of the variables. |
| SymmMain.v | Second derivatives by nested AFloats are symmetric: directions, reverse sweeps, a counterexample. |
| Props43.v | Property theorems C94: second derivatives by nested AFloats are symmetric. |
| Taylor2.v | Second order Taylor expansion along a line from nested AFloats. |
| Props44.v | Property theorems C95: quadratic models from nested AFloats. |
| FmaSpec.v | Dense matrix-vector products with fused multiply-adds. |
| FmaFacts.v | Fused multiply-adds: orders, exact arithmetic, the chain driver with the products left open. |
| FmaMain.v | Fused multiply-adds: relations between arithmetics and rounding errors. |
| Props45.v | Property theorems C96: fused multiply-adds in dense matrix-vector products. |
| CxxSpec.v | C++ programs as they are written: variables in nested scopes, expressions with temporaries. |
| CxxFacts.v | Scoped C++ programs mean what they say. |
| CxxMain.v | C++ programs as they are written (C97): the compiled calls on the C++ process. |
| Props46.v | Property theorems C97: |
| FfiAlloc.v | The C++ process does not depend on the allocator (C98). |
| Props47.v | Property theorems C98: the C++ interface and the allocator. |
| Traits.v | The constants, the parser and the queries of the num-traits interface of AFloat. |
| TraitsSpec.v | Specification of C99. |
| TraitsFacts.v | Facts about the constants and queries of AFloat (C99). |
| TraitsMin.v | The constants of AFloat as the start of a search for a minimum or maximum (C99). |
| Props48.v | Property theorems C99: constants, parsing and queries. |
| CtxIds.v | Context ids on a machine whose [usize] is bounded. |
| CtxIdFacts.v | Context ids on a machine whose [usize] is bounded: facts (C100). |
| Props49.v | Property theorems C100: context ids on machines with bounded words. |
| Source.v | User functions as they are written: mutable variables, compound assignments, operators with plain numbers on one side, nested expressions, branches and loops. |
| SourceSpec.v | What a source function computes on plain numbers, and the decisions it takes on the way. |
| SourceFacts.v | Source functions and their translation do the same. |
| SourceMain.v | Recording a source function and replaying it. |
| Props50.v | Property theorems C101: functions as they are written. |
| SourceDeriv.v | Derivatives of functions as they are written. |
| Props51.v | Property theorem C101, derivatives. |
| SamePath.v | Functions that are recorded alike at two points, whatever values they look at on the way. |
| Props52.v | Property theorems C102: functions that compare computed values with each other. |
| SourceChain.v | Chains of functions as they are written. |
| ChainDeriv.v | Derivatives of chains of functions as they are written. |
| Props53.v | Property theorems C101 for chains: functions as they are written, one after the other. |
| SameStable.v | Error bounds for functions that are recorded alike near a point. |
| Props54.v | Property theorems C102, error bounds. |
| SameNest.v | Derivatives of any order of functions that are recorded alike near a point. |
| Props55.v | Property theorems C102, derivatives of any order. |
| SameQuad.v | Second derivatives, quadratic models, Hessian-vector products and second differences of functions that are recorded alike. |
| Props56.v | Property theorems C102, second derivatives. |
| DecideSpec.v | Decisions that do not change when the values looked at change a little. |
| DecideMain.v | A function whose decisions at a point are stable is recorded alike near the point. |
| Props57.v | Property theorems C103: functions whose decisions are not on a boundary. |
| DecideChainSpec.v | Stable decisions of chains of functions. |
| DecideChain.v | A chain whose functions decide stably is recorded alike near the point. |
| Props58.v | Property theorems C103, chains of functions whose decisions are not on a boundary. |
