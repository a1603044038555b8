import json
P=[]
def p(title,statement,quantifier,why,anchors):
    P.append(dict(id="C%02d"%(len(P)+1),title=title,statement=statement,quantifier=quantifier,why_tests_cant=why,anchors=anchors))
# --- recording / tapes
p("Replay equals re-evaluation",
 "Record a function at x with Function::tape, then call zero_order(x') on the tape: y() is exactly (bit for bit, for any floating point arithmetic) the vector that eval_float(x') returns, as long as the function takes the same control-flow path at x' as at x; in particular for every function that does not inspect values.",
 "every function built from the AFloat API, every recording point x, every replay point x', every interpretation of the float primitives",
 "A test replays one function at a few points; the claim is about all functions, all points and all rounding behaviours.",
 ["src/function.rs: Function::tape, Function::eval_float","src/tape.rs: Tape::zero_order, Tape::y","src/afloat.rs: AFloat::from_op"])
p("Replays carry no history",
 "zero_order(x) on a tape leaves a state that depends only on the recording and x, never on earlier zero_order calls; afterwards x() returns x, and indeps, deps and operations are unchanged. A wrong-length x panics.",
 "every recorded tape, every finite sequence of zero_order calls",
 "Needs all call histories; a test fixes one.",
 ["src/tape.rs: Tape::zero_order, Tape::x","src/acontext.rs: AContextTape"])
p("A fresh tape stores the recorded run",
 "Immediately after Function::tape(x): x() = x, y() = eval_float(x), num_indeps = length of x, num_deps = length of the result, and replaying at x changes nothing.",
 "every function and every x",
 "All functions and all inputs.",
 ["src/function.rs: Function::tape","src/tape.rs: x, y, num_indeps, num_deps","src/acontext.rs: set_indep, set_dep, record, tape"])
p("Every recorded tape is well formed",
 "After any history of API calls (contexts created, looked up and dropped; variables created, marked, combined), every tape is in single-assignment form: the independents and the operation results are exactly the ids 0..len(values)-1, each once, operation results appear in increasing order, every operand precedes its result, arity matches the opcode, every dependent is in range. (Only AContext::record called directly with invented ids can break this.)",
 "every finite sequence of API calls over any number of contexts and variables",
 "Invariant over unbounded histories.",
 ["src/acontext.rs: AContext","src/afloat.rs: AFloat::from_op"])
p("No sweep on a recorded tape goes out of bounds",
 "On any well-formed tape, x(), y(), zero_order, first_order_forward never panic for a vector of the right length, and first_order_reverse panics exactly when the tape contains an abs operation.",
 "every well-formed tape and every argument vector",
 "Panic freedom for all tapes; tests only show some do not panic.",
 ["src/tape.rs","src/operation.rs: zero_order, first_order, first_order_reverse"])
p("Variables and their recorded values agree",
 "In every reachable state, a variable attached to a live context has value() equal to the value stored on the tape under its id, until the user overwrites it through value_mut; value_mut on an attached variable silently desynchronises it (replay and value then differ).",
 "every finite sequence of API calls",
 "Invariant over all histories.",
 ["src/acontext.rs: set_indep, record","src/afloat.rs: from_op, value_mut"])
p("Contexts are isolated and append-only",
 "Operating on variables attached to one context changes no other context; within a context, recorded operations, values and independents are never modified or removed, only appended to.",
 "every API call in every reachable state",
 "Universally quantified over states and calls.",
 ["src/acontext.rs","src/afloat.rs: from_op"])
p("Context ids are unique and lookup is exact",
 "Context ids are never reused; from_cid(c) yields a handle to the context whose cid() is c while any handle to it is alive, and None before it exists and after the last handle is dropped.",
 "every history of create / look up / drop",
 "Uniqueness over unbounded histories.",
 ["src/acontext.rs: NEXT_CONTEXT_ID, CONTEXT_MAP, from_cid, Drop"])
p("Contexts never mix silently",
 "An operation on two variables attached to different contexts panics, and set_dep of a variable attached to another context panics; neither modifies a tape.",
 "all pairs of variables in all states",
 "All states.",
 ["src/afloat.rs: from_op assert_eq","src/acontext.rs: set_dep assert_eq"])
p("Outliving the context",
 "Operations on variables whose context has been dropped still return the same value() and dvalue() as ever, record nothing and return a detached variable; operations on detached variables record nothing; an operation between an attached and a detached variable records the detached one exactly once, as a constant with its current value, before the operation.",
 "every opcode, every operand pair, every world state",
 "All states and operands.",
 ["src/afloat.rs: from_op"])
# --- first order
p("Tape forward sweep equals tapeless forward mode",
 "first_order_forward(dx) on the tape recorded at x returns exactly the dvalue()s of evaluating the function on AFloat::new(x_i, dx_i), for every function (branches included) and any float arithmetic, provided constant sub-expressions have derivative zero. Without the proviso it is false: the constant acos(-1) has derivative NaN in tapeless mode and 0 on the tape.",
 "every function, x, dx, float semantics",
 "Equality of two algorithms on all programs.",
 ["src/tape.rs: first_order_forward","src/operation.rs: first_order","src/afloat.rs: from_op"])
p("Forward mode computes the derivative",
 "In exact real arithmetic, for a function without abs whose operations stay inside their domains at x, the dvalue()s (and the tape's forward sweep) are the derivatives of t -> f(x + t dx) at 0.",
 "every abs-free program, every x in its open domain, every direction dx",
 "Analysis statement over all programs; finite differences can only sample it.",
 ["src/operation.rs: first_order_value","src/afloat.rs: from_op and derived methods"])
p("Forward mode computes the piecewise linearisation",
 "For functions with abs/max/min the forward sweep returns the increment of the piecewise linearisation: f(x + t dx) - f(x) - forward(t dx) is o(t).",
 "every program whose smooth operations stay inside their domains at x, every dx",
 "Limit statement over all programs.",
 ["src/operation.rs: first_order_value (Abs)"])
p("Piecewise affine functions are reproduced exactly",
 "For functions using only addition, subtraction, scaling by constants, abs, max, min and negation, f(x + dx) = f(x) + forward(dx) for all x and all dx, however large.",
 "every piecewise affine program, every x, dx",
 "All programs and directions.",
 ["src/operation.rs: first_order_value","src/afloat.rs: max, min, neg"])
p("Forward sweep is linear exactly without abs",
 "On a tape without abs, first_order_forward is a linear map in dx. With abs it is not even homogeneous, so jacobian_forward of a function with abs need not contain derivatives.",
 "every abs-free well-formed tape, all vectors and scalars",
 "All tapes.",
 ["src/tape.rs: first_order_forward"])
p("Reverse sweep is the adjoint of the forward sweep",
 "On an abs-free tape whose divisors are nonzero, <ybar, first_order_forward(dx)> = <first_order_reverse(ybar), dx> for all ybar, dx, provided no variable is marked dependent twice. If one is, only its last seed is used and the identity is false.",
 "every well-formed abs-free tape, every ybar, dx",
 "All tapes and vectors.",
 ["src/tape.rs: first_order_reverse","src/operation.rs: first_order_reverse"])
p("jacobian_forward is the Jacobian",
 "For an abs-free function regular at x, entry (i,j) of jacobian_forward(f, x) is the partial derivative of f_i with respect to x_j.",
 "every such function and x",
 "All functions.",
 ["src/drivers/jacobian.rs: jacobian_forward"])
p("jacobian_reverse is the Jacobian",
 "For the tape of an abs-free function regular at x with pairwise different outputs, jacobian_reverse(tape) equals jacobian_forward(f, x). It is false when the function returns the same variable twice.",
 "every such function and x",
 "All functions.",
 ["src/drivers/jacobian.rs: jacobian_reverse","src/tape.rs: first_order_reverse"])
p("Parallel drivers are deterministic",
 "The matrices produced by jacobian_forward, jacobian_reverse, mul_left and mul_right do not depend on how rayon splits and combines the work.",
 "every split/combine tree of the parallel reduction",
 "All schedules.",
 ["src/drivers/jacobian.rs","src/drivers/abs_normal.rs: mul_left, mul_right"])
p("Derived float methods have their mathematical values",
 "In exact arithmetic neg, recip, powi, sqrt, exp2, log, log2, log10, max, min, hypot, cbrt (positive argument), mul_add, sin_cos return the function of that name. In binary64 they do not everywhere: cbrt of every negative number is NaN, hypot of arguments from 2^512 on is infinite.",
 "all arguments in the domain",
 "All arguments.",
 ["src/afloat.rs: impl Float for AFloat"])
p("Derived float methods have their mathematical derivatives",
 "In exact arithmetic their dvalue() is the derivative given by calculus.",
 "all arguments in the open domain, all derivative seeds",
 "All arguments.",
 ["src/afloat.rs: impl Float for AFloat"])
p("abs_sub is the positive difference",
 "num::Float documents abs_sub(a,b) as max(a-b, 0). AFloat::abs_sub returns |a-b| instead; the property is violated for every a < b.",
 "all a, b",
 "Contract over all arguments.",
 ["src/afloat.rs: abs_sub"])
p("max and min return one of their arguments",
 "In exact arithmetic max/min return the larger/smaller argument; in IEEE binary64 they do not (min(1e16,1) = 0, min(inf,1) = NaN), so ADouble and f64 evaluations of one generic function can disagree. For finite arguments the error is at most 2^-51 (|a|+|b|) (plus the smallest double).",
 "all arguments",
 "All float pairs.",
 ["src/afloat.rs: max, min"])
p("Casting an AFloat through NumCast keeps its value",
 "NumCast::from(AFloat) goes through ToPrimitive, which only provides to_i64/to_u64: fractional parts are silently truncated; values beyond the integer ranges give None. AFloat::cast by contrast keeps value, derivative and context.",
 "all values",
 "All values.",
 ["src/afloat.rs: impl ToPrimitive, impl NumCast, AFloat::cast"])
# --- abs normal
p("Abs-normal form is a faithful rewriting",
 "With z the switching values, Z, L, J, Y the sub-tape matrices, a = z - L|z| and b = -Y|z|: for every dx the system zh = a + Z dx + L|zh| has exactly one solution, and first_order_forward(dx) on the original tape equals b + J dx + Y|zh|.",
 "every well-formed tape with regular smooth operations, every dx",
 "All tapes, all directions.",
 ["src/drivers/abs_normal.rs: AbsNormalTape, AbsNormalZ/L/J/Y, abs_normal"])
p("L is strictly lower triangular",
 "The L matrix of every recorded tape is strictly lower triangular.",
 "every well-formed tape",
 "All tapes.",
 ["src/drivers/abs_normal.rs: AbsNormalL"])
p("abs_normal returns the right dense matrices",
 "All six components returned by abs_normal equal those defined by the sub-tapes, whichever of mul_left and mul_right was chosen, with the documented dimensions, provided no variable is passed to abs twice and no variable is returned twice. Without the proviso it is false: for f(x,y) = |x|+|x| the first row of Z comes out zero.",
 "every function and point",
 "All functions.",
 ["src/drivers/abs_normal.rs: abs_normal"])
p("mul_left and mul_right multiply by the same matrix",
 "For each of the four sub-tapes, mul_right(B) = M B and mul_left(A) = A M for one matrix M (with distinct dependents); mismatched sizes panic.",
 "every well-formed tape, all matrices",
 "All tapes.",
 ["src/drivers/abs_normal.rs: mul_left, mul_right"])
p("row and column extract rows and columns",
 "row(i) returns row i of the matrix. column(i) should return column i but panics for every matrix that does not have exactly one column.",
 "every sub-tape and index",
 "All tapes.",
 ["src/drivers/abs_normal.rs: row, column"])
# --- generalized jacobian
p("The generalized Jacobian reproduces the piecewise linearisation",
 "generalized_jacobian(f, x, dx, bits, None) returns G, gamma with G dx' + gamma = forward increment at dx' for dx' = dx and for every dx' whose switching values are compatible with the selected signs.",
 "every function with distinct outputs and distinct abs arguments, every x, dx, sign bits",
 "All functions and directions.",
 ["src/drivers/generalized_jacobian.rs: generalized_jacobian_tape"])
p("Switching values are computed exactly",
 "The iteration dz <- dzt + L|dz| with early exit ends, after at most s rounds, in the unique solution of dz = a + Z dx + L|dz|.",
 "every well-formed tape, dx",
 "All tapes.",
 ["src/drivers/generalized_jacobian.rs: generalized_jacobian_tape"])
p("Multiplicity and sign bits",
 "multiplicity is the number of zero switching values (plus next.multiplicity); the k-th zero takes its sign from bit k of sign_bits (least significant bit first, bytes in order, false past the end); hence every combination of signs can be selected.",
 "all byte strings, all switching vectors",
 "All byte strings.",
 ["src/drivers/generalized_jacobian.rs: bit_iter, generalized_jacobian_tape"])
p("Composition through next",
 "With next = (G2, gamma2) the result maps dx' to G2 * (increment at dx') + gamma2.",
 "every next with matching dimensions",
 "All inputs.",
 ["src/drivers/generalized_jacobian.rs: generalized_jacobian_tape"])
p("The chain driver reproduces the chain's piecewise linearisation",
 "generalized_jacobian_chain(chain, x, dx, k) returns G, gamma with G dx + gamma = the dvalue()s of pushing (x, dx) through the chain, independently of k >= 2 and equal to composing all per-function generalized Jacobians without checkpointing.",
 "every chain, x, dx, k >= 2",
 "All chains and checkpoint counts.",
 ["src/drivers/generalized_jacobian.rs: generalized_jacobian_chain"])
p("The chain driver accepts every chain",
 "generalized_jacobian_chain(chain, x, dx, None) should work for every chain; it panics for every chain of exactly one function because the default checkpoint count is then 1.",
 "every chain",
 "All chains.",
 ["src/drivers/generalized_jacobian.rs: generalized_jacobian_chain","src/drivers/checkpointing.rs: reverse_sequence"])
# --- checkpointing
p("reverse_sequence computes the reverse fold",
 "reverse_sequence(x, n, c, forward, reverse, identity) returns reverse(x0, reverse(x1, ... identity(xn))) with x_i = forward^i(x), for every n and every c >= 2, whatever the floating point estimate inside the schedule yields; it panics for c < 2.",
 "all types, closures, n, c",
 "All n, c and closures.",
 ["src/drivers/checkpointing.rs: reverse_sequence"])
p("Checkpoint memory bound",
 "reverse_sequence never stores more than c checkpoints at a time.",
 "all n, c",
 "All n, c.",
 ["src/drivers/checkpointing.rs: reverse_sequence, schedule"])
p("The schedule is well formed",
 "schedule(c, r) is strictly increasing, has at most c entries, all in 1..r-1, and ends in r-1 when r > 1 and c > 0; its tail is the schedule of the remaining problem.",
 "all c, r",
 "All c, r.",
 ["src/drivers/checkpointing.rs: schedule, next_checkpoint"])
p("The schedule never panics",
 "find_t's loop terminates and its assertions hold (the Stirling-type estimate never overshoots, with tolerance 1/2), no usize or isize operation overflows for r <= 2^32. The bound is sharp: with 2^32 checkpoints or more and a longer sequence the schedule panics.",
 "all c, r in range",
 "All c, r; the float estimate can only be sampled.",
 ["src/drivers/checkpointing.rs: find_t, beta, next_checkpoint"])
p("No recomputation when memory suffices",
 "With c >= n+1 checkpoints, reverse_sequence calls forward exactly n times; it always calls reverse exactly n times and identity once.",
 "all n, c >= n+1",
 "All n, c.",
 ["src/drivers/checkpointing.rs: reverse_sequence, schedule"])
p("The schedule is optimal",
 "The number of forward calls is the minimum over all ways of visiting the states from last to first with at most c of them in memory: copying, forgetting, advancing and visiting held states in any order, not only recursive strategies.",
 "all n, c, all strategies",
 "Minimum over infinitely many strategies.",
 ["src/drivers/checkpointing.rs: next_checkpoint, schedule"])
# --- functions
p("Chain evaluation is composition",
 "For arbitrarily nested FunctionChains, eval is the composition of the functions iter() yields, in order; len() counts them; nth(i) is the i-th and panics beyond; n() and m() are those of the first and last; append of a function with the wrong input dimension panics, hence adjacent dimensions always match.",
 "every chain built by new/append/from_boxed/append_boxed with any nesting",
 "All nestings.",
 ["src/function.rs: FunctionChain"])
p("adv_fn! enforces its dimensions",
 "A function declared with adv_fn! returns only vectors of the declared result dimension and panics on arguments of any other than the declared dimension; its function object reports these dimensions.",
 "all bodies and arguments",
 "All bodies.",
 ["src/macros.rs: adv_fn","src/function.rs: SimpleFunction"])
# --- ffi
p("C++ objects own their values",
 "Any sequence of C++ ADouble constructions, copies, moves, assignments, arithmetic and destructions frees every value exactly once and never touches a freed one, except that copy-assigning an object to itself reads freed memory.",
 "every operation sequence",
 "All sequences.",
 ["src/cxx/ADouble.cpp","src/ffi.rs"])
p("C++ scalar-on-the-left arithmetic",
 "In C++ `c op x` with a double c should compute c op x; for -, * and / it computes c + x.",
 "all c, x",
 "All values.",
 ["src/cxx/ADouble.cpp: BINARY_OP_IMPL"])
# --- concurrency
p("Concurrent recording keeps tapes well formed",
 "When several threads record on the same and on different contexts, under every interleaving of their critical sections every context stays well formed and every thread's variables agree with the tape.",
 "every number of threads, every interleaving",
 "All schedules.",
 ["src/acontext.rs","src/afloat.rs: from_op"])
p("A tape snapshot taken while others record is safe",
 "AContext::tape() takes four separate locks; whatever other threads record in between, every id in the snapshot is in range and every operand precedes its result, so no sweep on it panics out of bounds. (An operation may refer to an independent missing from the snapshot's independents.)",
 "every interleaving",
 "All schedules.",
 ["src/acontext.rs: AContext::tape"])
p("Registry correctness and deadlock freedom",
 "Under every interleaving of create, look up and drop by any number of threads, ids are unique, lookups only ever return the context with the requested id, no registry entry survives its context's destructor, no call takes more than 15 steps of its thread, and when no new calls are begun every schedule ends with all calls returned (no deadlock, no livelock).",
 "every number of threads, every interleaving",
 "All schedules.",
 ["src/acontext.rs: AContextInner::new, from_cid, Drop"])
p("The C++ overloads for double and ADouble agree",
 "A C++ template instantiated at double and at ADouble computes the same values: each operator and each of sin, cos, tan, abs, exp, ln returns on ADouble the value the double overload returns, and so do min and max (for min and max this holds in real arithmetic, not in binary64, where the ADouble version can lose all digits).",
 "all values",
 "All values.",
 ["src/cxx/ADouble.cpp","src/ffi.rs"])
# --- more on recording, replay and the abs-normal tape
p("Ids are indices",
 "On every tape a program can obtain, max_id() is the index of the last stored value; every input, output, result and operand id is at most max_id(), operands have smaller ids than results, and the abs-normal tape built from it has the same max_id().",
 "every call history, every tape taken in it",
 "All histories.",
 ["src/tape.rs: max_id","src/acontext.rs","src/drivers/abs_normal.rs: AbsNormalTape::new"])
p("A panic while a context is locked freezes it",
 "Whenever set_indep, set_dep or tape panics (e.g. in the assertion on a foreign variable), and whenever an operation panics other than for mixing contexts, the context is frozen for good: whatever is called later, what it has recorded never changes, every further set_indep, set_dep and tape through any handle panics, and so does every arithmetic operation on its variables, each leaving everything else unchanged. With several threads, under every interleaving: it stays frozen, each such call begun later by any thread panics, and an operation on its variables panics or, once the last handle is gone, returns a detached variable.",
 "every history before and after the panic",
 "All histories.",
 ["src/acontext.rs: inner.lock().unwrap(), set_dep","src/afloat.rs: from_op"])
p("Derivative seeds influence only derivatives",
 "Evaluating a function on variables that differ only in their derivatives gives the same values, the same panics, the same context attachments and the same recording; in particular NaN or infinite seeds never change a value or a branch.",
 "all functions, arguments, seeds, process states",
 "All functions and seeds.",
 ["src/afloat.rs: from_op, dvalue_mut","src/function.rs: Function::eval"])
p("New independent variables",
 "new_indep(v) and new_indep_vec(n, v) return variables with value v, derivative 0 and consecutive ids following everything recorded so far, appended to the inputs in order; operations, outputs and other contexts are unchanged.",
 "all contexts, contents, n, v",
 "All contents and n.",
 ["src/acontext.rs: new_indep, new_indep_vec, set_indep"])
p("The abs-normal tape evaluates the smooth part",
 "zero_order on an AbsNormalTape takes exactly n+s numbers (x, w); afterwards x() is x, the tape's outputs are z() followed by y(); and y = F(x) on the original tape exactly if for some z replaying at (x, |z|) yields z() = z and y() = y. The tapes of the Z, L, J, Y matrices cannot be replayed: zero_order on them always panics.",
 "all tapes, all x, w, z, y, every float arithmetic",
 "All tapes and points.",
 ["src/drivers/abs_normal.rs: AbsNormalTape, anf_matrix"])
p("Replaying is recording",
 "If a function inspects no values, or takes the same branches at x and x', then recording at x' succeeds whenever recording at x did, and zero_order(x') turns the tape recorded at x into exactly the tape recorded at x' (same ids, operations, constants and values, hence the same results of every driver).",
 "all functions, points, process states, every float arithmetic",
 "All functions and points.",
 ["src/tape.rs: zero_order","src/function.rs: Function::tape"])
p("Nested variables compute second derivatives",
 "Evaluating a function on AFloat<AFloat<_>> variables seeded with (x, 1), (1, 0) yields its value, first and second derivative; with several inputs, the mixed second derivative along any two directions. It fails for powers whose base is stationary at the point: the second derivative of sqrt(x*x+1) at 0 is computed as 0 instead of 1.",
 "all functions without abs inside their domain, all points and directions",
 "All functions and points; the failing case needs a stationary base.",
 ["src/afloat.rs: impl Float for AFloat<S> with S = AFloat<_>","src/operation.rs: first_order_value"])
p("A thread that shares nothing runs as if it were alone",
 "A thread that begins any program at any moment, keeps its contexts and variables to itself and looks up no context by number gets the same values, derivatives, tapes and panics as when the program runs alone in a fresh process, whatever other threads do in between, provided they look up neither ids that have not been given out nor this thread's contexts. In particular taping a function in any thread yields the tape Function::tape records sequentially. Without the proviso it fails: a thread that guesses an id can record into another thread's context.",
 "all programs that choose their calls from what they have seen, all schedules, any number of threads, all starting states",
 "All interleavings and all behaviours of other threads.",
 ["src/acontext.rs: CONTEXT_MAP, NEXT_CONTEXT_ID, from_cid, new, set_indep, set_dep, tape, Drop","src/afloat.rs: from_op","src/function.rs: Function::tape"])
p("Arithmetic on variables is correctly rounded",
 "With f64 scalars the value of + - * / on variables is the double nearest to the exact result on the operands, negation and abs are exact; derivatives of sums are correctly rounded, those of products and quotients are within a few units of rounding of the terms of the rule. With f32 scalars + - * /, negation, abs and the derivatives of sums are correctly rounded in single precision.",
 "all finite operands whose results do not overflow, attached to a context or not, every libm",
 "All pairs of doubles.",
 ["src/afloat.rs: binary_op!, Neg, abs","src/operation.rs: zero_order_value, first_order_value"])
p("The drivers agree with the hand-derived half pipe references everywhere",
 "For max(x2^2 - max(x1,0), 0) of the library's own tests, abs_normal returns the hand-written abs-normal form at every x, and generalized_jacobian (alone, with identity continuation, or over the two-function chain with any number of checkpoints) returns the hand-written reference at every x in every direction; that reference is gradient and offset of the smooth piece 0, x2^2 or x2^2 - x1 selected by the direction. In general the generalized Jacobian is G2 J + U Z, gamma2 + G2 b + U a with U = G2 Y Sigma (1 - L Sigma)^-1.",
 "all points (including the kinks), directions, checkpoint numbers",
 "The tests compare at four points in fixed directions.",
 ["src/drivers/testfunc.rs","src/drivers/abs_normal.rs","src/drivers/generalized_jacobian.rs"])
p("The traffic light example computes shortest travel times",
 "Replaying the recorded steps of the Floyd-Warshall algorithm turns any matrix of edge weights without negative cycles into the weights of shortest walks, although every step was recorded at zeros. The value the example minimises is the sum over all pairs of exits of the squared shortest travel times, for every street map, exits and parameters. The gradient it computes is not that value's: every street's time is output twice, repeated outputs are differentiated once, so half of the derivative is lost.",
 "all graph sizes, weights, street maps, exits, parameters",
 "All graphs and parameters; the example only prints its results.",
 ["examples/floyd_warshall.rs","src/drivers/generalized_jacobian.rs","src/tape.rs: zero_order"])
p("The perceptron example descends along the gradient of the network's error",
 "The tape of the XOR error recorded at zeros, moved to any nine parameters by zero_order, yields through jacobian_reverse the 1x9 row of partial derivatives of the sum of squared errors of the network.",
 "all parameters, all orders in which the thread pool joins rows",
 "All parameter vectors.",
 ["examples/perceptron.rs","src/drivers/jacobian.rs: jacobian_reverse"])
p("What a function records is determined by the methods it calls",
 "A function that never calls abs, max, min or abs_sub records no Abs operation, so forward sweeps compute its derivative wherever it is regular. A run with n method calls and m outputs records at most 10 n + m operations, and the tape holds one value for each operation and each input.",
 "all functions, inputs, scalar types, starting states",
 "All functions.",
 ["src/afloat.rs: impl Float for AFloat","src/acontext.rs: set_dep, new_indep","src/function.rs: Function::tape"])
p("Sweeps of any tape differentiate the function the tape computes",
 "For any well-formed tape, however obtained, moved to x by zero_order: the forward sweep in direction h is the linear part of the change of the replayed outputs (with piecewise linear Abs: error o(|h|)); without Abs it is the directional derivative, the reverse sweep of weights is the gradient of the weighted sum of replayed outputs (dependents distinct), and jacobian_reverse the matrix of partial derivatives.",
 "all well-formed tapes, points at which each operation is inside its open domain, directions, weights",
 "All tapes and points; derivatives are limits.",
 ["src/tape.rs: zero_order, forward, reverse","src/operation.rs","src/drivers/jacobian.rs"])
p("Rounding errors of replays and sweeps obey a running error bound",
 "Replaying a tape at doubles and sweeping it forward or in reverse in binary64 gives finite doubles within an explicitly defined radius of the exact replay and sweep, hence of the true values and derivatives of the function the tape computes: the radius is obtained by running the same sweep on pairs (exact value, error bound) in which every operation adds its propagated and its own rounding error.",
 "all well-formed tapes, finite inputs for which the bound is defined (no overflow, arguments inside domains by more than their error), every libm accurate to 2^-50",
 "All tapes and inputs.",
 ["src/tape.rs: zero_order, forward, reverse","src/operation.rs"])
p("C++ programs are ended by the Rust library exactly when they mix contexts",
 "A C++ program is aborted by a Rust panic if and only if it reaches an operator, min, max or set_dependent applied to ADoubles recorded on different AContexts (or to an ADouble of another AContext); this holds also when a context has been destroyed. Programs with at most one AContext are never aborted.",
 "all programs without self-copies, scalar types, initial states",
 "All programs; an aborting program ends the test process.",
 ["src/ffi.rs","include/adv/ADouble.hpp","include/adv/AContext.hpp","src/cxx/ADouble.cpp","src/cxx/AContext.cpp","src/afloat.rs: from_op"])
p("A function gives the same results on plain numbers and on variables",
 "A function declared with adv_fn! that is called with a vector of f64 returns bit for bit what eval_float and recorded evaluation return, if it uses only + - * / neg recip abs powf log and the elementary functions, whatever its control flow. With the other methods (sqrt, powi, max, min, mul_add, hypot, ...) it does so in exact arithmetic within the domains of the methods, but not in binary64; max and min of NaN and a number are the number on plain numbers, NaN on variables.",
 "all functions, inputs, libms, scalar states",
 "All functions and inputs; the tests compare a few values with a tolerance.",
 ["src/macros.rs: adv_fn","src/function.rs: eval_float","src/afloat.rs: impl Float for AFloat","src/scalar.rs"])
p("A tape recorded with another number type replays what depends on the inputs in f64 and keeps constants in that type",
 "A program recorded with AFloat<S> (for instance ASingle) yields a tape whose x() and y() are the recorded values converted to f64. Replaying it at any point, and sweeping forward in any direction, gives what running the program in two precisions gives: operations on constants only are done in S's arithmetic and converted, all others are done in f64, and constants have tangent zero. Recording panics exactly when the plain run does, if every number of S converts. Replaying at the recording point reproduces the recorded outputs if every operation converts exactly, but not in general for ASingle.",
 "all scalar types S, conversions, programs, inputs, replay points and directions",
 "All programs, points and rounding behaviours; no test records an ASingle.",
 ["src/acontext.rs: set_indep, set_dep, record, tape","src/afloat.rs: ASingle, from_op","src/tape.rs: zero_order, first_order_forward"])
p("The perceptron example performs gradient descent on the network's error and ends exactly at small gradients",
 "In exact arithmetic the optimisation loop of the perceptron example never panics; every move is along the gradient of the network's error at the current parameters with the Barzilai-Borwein step; the printed numbers are the errors of the visited networks; and the loop ends exactly when the gradient's length is at most epsilon, for every order in which the parallel driver combines rows. In binary64 the loop also ends when a gradient component is NaN, and an iteration that does not change the parameters is followed by NaN parameters.",
 "all initial values, initial steps, epsilons, iteration counts, reduction orders and math libraries",
 "All starting points and unbounded iterations; the examples are not tested at all.",
 ["examples/perceptron.rs: main, gradient","src/drivers/jacobian.rs: jacobian_reverse"])
p("Joint recordings replay every thread's computation",
 "Threads share a context, use each other's variables and interleave in any way. If a variable has been computed as an expression of independent variables and constants, each operation by whichever thread, then a tape taken afterwards by any thread (while others may go on recording) evaluates that expression at every new input; if a thread has designated it a dependent variable before, the value is among the replay's outputs and its derivative, in every direction, at the same place among those of the forward sweep.",
 "any number of threads, all schedules, all expressions, all new inputs and directions, every float semantics",
 "All interleavings at the granularity of single lock acquisitions, unbounded computations.",
 ["src/acontext.rs: set_indep, set_dep, record, tape","src/afloat.rs: from_op","src/tape.rs: zero_order, first_order"])
p("The generalized Jacobian is a limiting Jacobian",
 "Over the reals: if at most one switching value is zero at the given direction, then, whatever sign bits are passed, the generalized Jacobian and its inhomogeneous part are the affine pieces of the piecewise linearisation near points arbitrarily close to the direction. With more zeros the same holds when the selected signs occur strictly at directions arbitrarily close; for other bit patterns it can fail: |x| - |-x| at 0 yields -2.",
 "all functions, points, directions, sign bits, continuations",
 "A statement about all neighbourhoods, for every function and every pattern of ties.",
 ["src/drivers/generalized_jacobian.rs: generalized_jacobian, generalized_jacobian_tape, bit_iter"])
p("What the unit tests check on samples holds for all inputs",
 "The claims of the library's own unit tests hold for every input, in exact arithmetic where values are concerned and in any arithmetic where structure is: the maximum of a vector and the size of its tape, chains of sums, extra arguments and dimension expressions, the tape of all arithmetic operations wherever recorded, the derivatives of the nine unary functions in their domains, the Jacobian of polar coordinates in both modes, abs-normal forms and sub-tapes, what a + b records, consistency of schedules, Gauss' sum by checkpointing.",
 "all inputs, dimensions, recording points, checkpoint numbers",
 "The tests are these statements on a handful of inputs.",
 ["src/function.rs: mod tests", "src/tape.rs: mod tests", "src/afloat.rs: mod tests", "src/acontext.rs: mod tests", "src/drivers/jacobian.rs: mod tests", "src/drivers/abs_normal.rs: mod tests", "src/drivers/checkpointing.rs: mod tests"])
p("The drivers panic only on wrong dimensions or when the function does",
 "In every arithmetic, NaN and infinities included: jacobian_forward panics exactly if the point has the wrong length, or there are inputs and the function itself panics or returns fewer numbers than declared; jacobian_reverse exactly if the tape has outputs and an abs; generalized_jacobian exactly if the function panics at the point or the point, the direction or the matrix passed on have the wrong size; the chain driver with two or more checkpoints exactly if the functions cannot be applied one after the other. Otherwise the results have the documented sizes, and the multiplicity exceeds the one passed on by at most the number of abs calls.",
 "all functions, points, directions, sign bits, passed-on Jacobians, arithmetics",
 "Special values reach branches no test visits; the fixed point loops compare floating point vectors.",
 ["src/drivers/jacobian.rs:6-75", "src/drivers/generalized_jacobian.rs:27-187"])
p("The nonsmooth drivers are right for every function that repeats no output and no argument of abs",
 "If on no path a function returns a variable twice or passes one to abs twice, then, in every arithmetic, its tape has distinct outputs and distinct arguments of abs. For such functions, wherever they can be evaluated: generalized_jacobian's matrix and vector applied to the direction give the dvalue()s of the function there; the abs-normal form approximates the function to first order; the chain driver reproduces the dvalue()s of a chain of such functions.",
 "all functions, points, directions, sign bits",
 "The condition is about program text; tests run single programs.",
 ["src/drivers/generalized_jacobian.rs:27-187", "src/drivers/abs_normal.rs:18-336", "src/acontext.rs:105-140"])
p("The generalized Jacobian is the derivative along the selected branches",
 "Over the reals: the matrix of generalized_jacobian applied to any v is the forward derivative of the function along v in which the k-th |z| is replaced by the linear function with the k-th selected sign, multiplied by the matrix passed on. For the direction zero and zero bits this means |z| counts as z for z > 0 and as -z otherwise, so that max(a, b) is differentiated as a if a > b and else as b, min(a, b) as a if a <= b and else as b. The chain driver gives the same for the whole chain. Of several entries of the matrix passed on that belong to the same output only the last is used.",
 "all functions that repeat no output or argument of abs, points, directions, bits, chains",
 "One matrix per test cannot show which of the exponentially many branch combinations is chosen.",
 ["src/drivers/generalized_jacobian.rs:27-187", "src/afloat.rs:364-370"])
p("The gradient of the shortest-path example is half the derivative",
 "Over the reals, for every street map whose streets have different ends, every choice of exits and every parameter vector that avoids the clamping bounds 0.01 and 0.99: where the sum of squared shortest distances has a derivative along a direction, the gradient calculate_gradient returns, multiplied by that direction, is half of it; every entry is half the partial derivative. (The recorded street map outputs the same variable for both directions of a street, and of two seeds for one output only the last counts.)",
 "all street maps, exits, parameters, directions, checkpoint estimates",
 "A factor that holds at every point and for every map cannot be read off single gradients; the example has no test at all.",
 ["examples/floyd_warshall.rs:28-37", "examples/floyd_warshall.rs:190-227", "src/drivers/generalized_jacobian.rs:27-187"])
p("The loop of the shortest-path example",
 "For every street map with at least two nodes, exits, start parameters, tolerance and first step, in every arithmetic: neither closure panics and both are functions of the parameters; main follows the Barzilai-Borwein method from the start and stops at the first point whose gradient is not longer than the tolerance; it prints the root of the error and the gradient at the start, in each iteration the root of the error of the point it leaves and the gradient of the point it reaches (so the last point's error is never printed), and then the last parameters. Over the reals a parameter at or below 0.01 or above 0.99 keeps its value for the rest of the run. In binary64 a NaN in the gradient ends the loop.",
 "all street maps, exits, starts, tolerances, steps, numbers of iterations, arithmetics, checkpoint estimates",
 "The number of iterations is not bounded and the points depend on the arithmetic; the example has no test.",
 ["examples/floyd_warshall.rs:190-254"])
p("Operations do what their constructors say",
 "In every arithmetic, executing an operation built by one of the public constructors overwrites the slot of its result by the named function of its arguments' slots, changes no other slot, and panics exactly when a slot does not exist; nop does nothing and constant only zeroes its tangent. Over the reals, where the function is differentiable, the tangent step stores the derivative along the arguments' tangents, and the reverse step, paired with any tangents, adds the result's adjoint times that derivative (also when both arguments are the same slot). abs stores the increment of the absolute value and its reverse step panics.",
 "all constructors, slots, slices, arithmetics",
 "The claim is about every slice, every slot and every real argument; the constructors are not called by any test.",
 ["src/operation.rs:24-334"])
p("The direction selects the branches, for functions and for chains",
 "The generalized Jacobian at x for the direction dx and any sign bits is the derivative in which every |z| computed from an input is differentiated on the side of zero where z plus its tangent along dx lies, the next bit deciding when that is zero; the multiplicity counts these zeros. The chain driver returns this derivative for the whole chain, for every direction, together with the vector that makes G dx + gamma the dvalues along dx; so it agrees with the plain driver applied to the composed function wherever that qualifies. The multiplicities may differ: the chain driver counts function by function. With multiplicity at most one the chain's result is a limiting Jacobian of the linearised chain.",
 "all functions and chains that repeat no output and no argument of abs, points, directions, bits, buffer sizes, splittings",
 "The claim relates two drivers and a differentiation rule for every program, direction and combination of ties.",
 ["src/drivers/generalized_jacobian.rs:13-147", "src/drivers/generalized_jacobian.rs:148-192"])
p("The error of the piecewise linearisation is quadratic",
 "Over the reals, near every point x where all operations are inside their domains and the branches do not change: there are a constant K and a radius such that for all base points x1 and all points v within the radius, |f(v) - f(x1) - Df(x1; v - x1)| <= K |v - x1|^2 and both increments are at most K |v - x1|, where Df is what the forward sweep of the tape recorded at x1 returns. Models made at two base points x1 and x2 differ at v by at most K |x1 - x2| (|v - x1| + |v - x2|). Without abs the derivatives at x1 and x2 along any h differ by at most K |x1 - x2| |h|; with abs they may jump.",
 "all functions, points, base points, increments, kinks",
 "A uniform constant for all nearby points and both sides of all kinks cannot be observed by evaluating finitely many points.",
 ["src/tape.rs:62-91", "src/operation.rs:24-110"])
p("What the benchmarks compute",
 "For every number of inputs n: over the reals, the three benchmark functions (the lazy fold, the mapped vector, the chain of propagations) compute the greatest of the inputs moved into [0, 1]. In every arithmetic their tapes have n inputs and three switching variables per input, one per input for the propagation, and both products with L return matrices of the right sizes; over the reals they are the products with the matrix L of the abs-normal form at the ones, although the tape was recorded at the zeros. At the ones, along the ones, with any bits and any number of checkpoints, the generalized Jacobian of the function and of the chain is the zero matrix, and its multiplicity is n - 1.",
 "all numbers of inputs, points, arithmetics, sign bits, checkpoint numbers",
 "A benchmark checks no result, and the sizes are fixed there; the multiplicity depends on how many comparisons tie.",
 ["benches/abs_normal.rs:10-57", "benches/generalized_jacobian.rs:9-61"])
p("Rounding errors of the nonsmooth drivers",
 "For every tape, point and direction in double precision: every entry of the abs-normal form is within a running error bound of the entry exact arithmetic gives, and so are the switching values whose signs the generalized Jacobian goes by. Where those bounds decide the signs (the radius is smaller than the value, or both are zero), the binary64 driver selects the piece exact arithmetic selects, counts the same zeros, and every entry of its result is within its radius of the exact entry, which is the entry of the affine map that equals the exact forward sweep on the selected piece. The early exits of the driver's two fixed-point loops never change its result in binary64 except for the signs of zeros, whatever infinities and NaNs occur.",
 "all tapes, points, directions, sign bits, orders of rayon's reductions, accurate libms",
 "Whether a computed sign can be trusted is a statement about all roundings; tests compare a few results with tolerances.",
 ["src/drivers/abs_normal.rs:1-330", "src/drivers/generalized_jacobian.rs:27-147"])
p("Nested variables on piecewise affine functions return exact second differences",
 "Over the reals, a function that performs only sums, differences, products with constants, quotients by nonzero constants and absolute values on what depends on its inputs, evaluated on variables AFloat::new(AFloat::new(x, u), AFloat::new(v, w)), returns f(x), f(x+u) - f(x), f(x+v) - f(x) and f(x+u+v+w) - f(x+v) - f(x+u) + f(x), whenever f(x) is defined and no branch differs at the four points. The last component is therefore not a second derivative once a kink lies within the step: |x| at -1/2 with unit seeds yields 1, in exact arithmetic and in double precision.",
 "all functions, points, seeds, numbers of inputs and outputs, nestings of abs",
 "The identity is about all seeds and all positions of the kinks; no test nests AFloats.",
 ["src/afloat.rs:47-55", "src/afloat.rs:295-391", "src/operation.rs:24-110"])
p("A C++ program records the tape of the Rust function with the same operations",
 "A C++ program that makes an AContext, n independents, any ADouble objects by constructions, copies, moves, assignments, operators and functions, destroys some of them, and declares some as dependents, records operation for operation the tape which the Rust function performing the same operations on immutable variables records at zeros (with c + x for every `c op x`, see C45). The tape can be evaluated at every point and returns what that Rust function returns on plain numbers. Every such program that runs to its end has such a Rust function.",
 "all programs without self-copies and without further contexts, numbers of independents and dependents, scalar types, initial states",
 "The claim quantifies over all programs and all later evaluation points; the C++ tests record no tape.",
 ["src/ffi.rs","include/adv/ADouble.hpp","include/adv/AContext.hpp","src/cxx/ADouble.cpp","src/cxx/AContext.cpp","src/function.rs"])
p("Outputs depend only on the inputs they are connected with",
 "Call an output of a recorded tape connected with an input if a chain of its operations leads from the input to the output. In every arithmetic, changing inputs that are not connected with an output does not change its value on replay; changing a direction at such inputs does not change the output's derivative along it; and changing the weights of unconnected outputs does not change the adjoint of an input. Over the reals both Jacobian drivers return zero for every pair that is not connected. In double precision they need not: they may return NaN there, because 0 times an overflowed derivative is NaN.",
 "all tapes, points, directions, weights, arithmetics, orders of rayon's reductions",
 "Sparsity is a statement about all pairs of inputs and all values they may take, including infinities and NaNs.",
 ["src/tape.rs:62-106", "src/operation.rs:24-334", "src/drivers/jacobian.rs:9-75"])
p("A NaN reaches everything that is connected with it",
 "In double precision, replaying a tape at a point with a NaN makes every output NaN that is connected with that input, if the elementary functions map NaN to NaN and no power is recorded (a power may swallow it: pow(NaN, 0) is 1). A NaN in the direction makes the derivative of every connected output NaN, and a NaN among the weights of a reverse sweep makes the adjoint of every connected input NaN, for every operation including powers and whatever the elementary functions return: no later addition, cancellation or multiplication by zero hides it.",
 "all tapes that repeat no output (for adjoints), points, positions of the NaN, libms",
 "Tests with a few expressions cannot exclude that some path of operations hides a NaN.",
 ["src/tape.rs:62-106", "src/operation.rs:24-334"])
p("Rounding errors of the generalized Jacobian of a chain",
 "The chain driver, with any number of checkpoints from two on and in every arithmetic, returns what passing once through the tapes of its functions returns. In double precision the result for a chain can therefore be bounded as the result for a single function can: carry running error bounds through all the tapes; if they decide the sign of every switching value met on the way, the double-precision result has the multiplicity of the result in exact arithmetic on the same tapes, and every entry lies within the computed radius of the exact entry. The exact entries are those of the affine map that agrees with the tangents pushed through all tapes in every direction on the selected sides.",
 "all chains, tapes, points and directions, numbers of checkpoints from two, orders of rayon's reductions, accurate libms",
 "Error bounds for compositions of any length at all points are statements about infinitely many roundings; a test sees some of them.",
 ["src/drivers/generalized_jacobian.rs:40-187", "src/drivers/checkpointing.rs", "src/tape.rs:62-106"])
p("The order of summation in dense matrix-vector products does not matter",
 "The nonsmooth drivers leave the order in which a matrix-vector product adds its terms to the linear algebra library. For every choice of orders, made anew for each row and product: over the reals the results of abs_normal, generalized_jacobian and the chain driver are the same. In every arithmetic, double precision included, the matrices, the homogeneous part, the multiplicity and the panics are the same bit for bit; only the constant vectors and the inhomogeneous part may differ. In double precision these differ at most within the computed error bounds from the exact result, in every order.",
 "all orders of summation, tapes, points, directions, sign bits, chains, checkpoint numbers, arithmetics",
 "A test runs one build of the library with one order; another version, another matrix size or a vectorised kernel sums in another order.",
 ["src/drivers/abs_normal.rs:293-336", "src/drivers/generalized_jacobian.rs:40-187"])
p("Conversions between degrees and radians; epsilon",
 "AFloat inherits to_degrees, to_radians and epsilon from the Float trait. Over the reals the conversions multiply value and derivative by 180/pi and pi/180, for every variable, attached or not, and both Jacobian drivers return these factors for every function value, wherever the tape was recorded. In double precision the relative error of the value is at most 2^-48 for magnitudes between 2^-900 and 2^900. A user who expects the behaviour of f64 is wrong in two points: for arguments near the largest double to_degrees overflows although the result is a double, and epsilon() is 2^-23, the epsilon of f32.",
 "all variables, values, derivatives, contexts, accurate libms",
 "The claim is about all arguments; no test calls these methods on an AFloat.",
 ["src/afloat.rs:295-391", "src/afloat.rs:219-232"])
p("Threads that overwrite values break nothing but values",
 "Any number of threads call the API under every schedule and assign to value_mut() of any variable at any time. Every context still holds a well formed recording, every attached variable refers to an existing value, nothing recorded is changed or lost, every tape obtained is a safe snapshot whose sweeps stay in bounds; ids stay unique, lookups exact, the registry lists the contexts that somebody owns, no thread deadlocks, no call takes more than 15 steps of its thread, and without new calls every schedule ends. Only the agreement of values is lost: the value of a variable and the recorded results need not fit any more.",
 "all schedules of any number of threads, all moments of assignment, all values assigned, all scalar types whose conversion to f64 never fails",
 "A data race or a stale lookup needs a schedule and an assignment at the right moment; tests run few of them.",
 ["src/afloat.rs:32-34", "src/afloat.rs:47-95", "src/acontext.rs:7-200"])
p("Recording by hand disturbs neither other contexts, nor the registry, nor progress",
 "Any number of threads call the API under every schedule, assign to value_mut() of any variable, and call the public method record on their handles with any operation, value and operand ids. Nothing recorded is ever changed or lost, every tape obtained consists of initial parts of what one context recorded, ids stay unique, lookups exact, the registry lists the contexts that somebody owns, no thread deadlocks, no call takes more than 15 steps of its thread, and without new calls every schedule ends. Only the recording it is called on can become unusable: a recorded operand that does not exist makes every replay panic.",
 "all schedules of any number of threads, all arguments of record, all scalar types whose conversion to f64 never fails",
 "No test calls record directly; the claim is about all schedules and all arguments.",
 ["src/acontext.rs:147-164", "src/acontext.rs:7-200", "src/afloat.rs:32-34"])
p("Nested variables of any depth compute derivatives of any order",
 "Evaluate a function on AFloats of AFloats of AFloats and so on, K levels deep, without contexts. Over the reals every component of every output is the mixed derivative, of the order given by its position, of the function along the surface the inputs describe; with derivative 1 at each level of a single input, the component reached by taking the derivative j times is the j-th derivative. Functions made of sums, differences, products, negation, sin, cos and exp need no proviso; otherwise the operations must be inside their open domains and nothing raised to a power, by the program or by a derivative rule, may have a derivative that is zero in value only. A user who expects no proviso is wrong: the third derivative of tan at 0 is returned as 0 instead of 2, and in double precision that of x.powi(2) at 0 is NaN.",
 "all depths, functions, points, directions",
 "Tests use one level; the claim is about all depths and orders.",
 ["src/afloat.rs:7-13", "src/afloat.rs:115-168", "src/afloat.rs:202-246", "src/afloat.rs:295-391", "src/operation.rs:24-90"])
p("Recording nested variables gives Hessian-vector products",
 "Evaluate a function on variables of type AFloat<ADouble> whose inner values and derivatives are attached to a context: the value and derivative rules are recorded. The recording is that of the function from (x, u) to (values, derivatives along u) written out on ADoubles, operation by operation, panics included. Over the reals one reverse sweep with weight 1 on the derivative of output k returns the product of the Hessian of that output with u, and in its second half the gradient. The same proviso as for nested variables applies: nothing raised to a power may have a derivative that is zero in value only; for sqrt(x*x+1) at 0 the recorded tape returns 0 instead of 1.",
 "all functions, points, directions, inner scalar types and states",
 "Tests never record the inner level; the claim is about all functions and all directions at once.",
 ["src/afloat.rs:47-95", "src/operation.rs:24-90", "src/tape.rs:62-106", "src/function.rs:25-50"])
p("The chain rule",
 "The tape of a chain and the tapes of its functions, each recorded at the values the ones before it return, belong together: whenever the chain can be recorded its parts can; a forward sweep on the tape of the chain returns what forward sweeps on the tapes of the functions, first to last, return, functions with abs included over the reals, and bit for bit in every arithmetic if no function passes a nonzero tangent through a constant. Without abs and without repeated outputs the reverse sweep returns what reverse sweeps from the last to the first return. The Jacobian of a composition is the product of the Jacobians if the second function does not call abs. Without these provisos the claims are false: a variable returned twice by the first function, abs in the second.",
 "all chains, points, directions, weights, arithmetics (forward), reductions of rayon",
 "A test composes two particular functions; the claim is about every chain, nested chains included.",
 ["src/function.rs:82-160", "src/tape.rs:62-106", "src/drivers/jacobian.rs:9-75"])
p("Second derivatives computed by nested variables are symmetric",
 "Evaluating a function on nested variables AFloat<AFloat<f64>> with the two directions exchanged returns the same values, the two first derivatives exchanged, and the same second derivatives (exact arithmetic, operations inside their domains, bases and exponents of powers not stationary); so Hessians computed entry by entry, and Hessian-vector products computed by recording and one reverse sweep, are symmetric. Without the proviso on powers the two mixed derivatives can differ.",
 "all functions, points, directions, weights",
 "Symmetry is a statement about pairs of runs for all functions and directions; the two orders evaluate different expressions for every operation, so it is not visible from one run.",
 ["src/afloat.rs:47-55", "src/operation.rs: first_order_value", "src/afloat.rs:295-391"])
p("Nested variables give quadratic models",
 "The value, derivative and second derivative that nested variables AFloat::new(AFloat::new(x, h), AFloat::new(h, 0)) return are the coefficients of the quadratic Taylor polynomial of each output along h: the error of the polynomial at x + s h is o(s^2) as s goes to 0 (exact arithmetic, operations inside their domains, branches stable near x, the proviso on powers). So derivative 0 and positive second derivative mean a strict local minimum along h.",
 "all functions, points, directions, outputs, tolerances",
 "An asymptotic statement about all small steps; tests compare single numbers.",
 ["src/afloat.rs:47-55", "src/operation.rs: first_order_value", "src/afloat.rs:295-391"])
p("Fused multiply-adds in dense products",
 "The code leaves L|z|, (-Y)|z|, G b and U a to nalgebra, whose kernels may add a product to a sum with a single rounding. Whichever products are fused, in whatever order, for every row: in exact arithmetic the abs-normal form, the generalized Jacobian and the chain driver return the same; in any arithmetic and for any fused operation the matrices, the multiplicity and the panics are the same and only the constant vectors can differ; and in binary64, for every fused operation that rounds once, every entry is within the bound that error arithmetic computes with the same fusing, about the exact result.",
 "for every arithmetic, fused operation, order with any products fused (a new one for every row and product), tape, point, direction, number of checkpoints, accurate libm and reduction order of rayon",
 "The compiler target decides whether fused instructions are used; a test sees one machine, and the bound must hold for all matrices.",
 ["src/drivers/abs_normal.rs:293-336", "src/drivers/generalized_jacobian.rs:40-147", "src/drivers/generalized_jacobian.rs:149-187"])
p("C++ programs with scopes and temporaries mean what they say and free everything",
 "A C++ program over ADouble and AContext - declarations, copies, moves, assignments and expressions in nested scopes, with operands evaluated in either order - has the effect its source has when ADoubles are plain values (c - x, c * x and c / x with a double c apart, C45). When it ends no object, no allocation and no context it made is left. It can stop early only by a Rust panic, exactly where the value reading panics, and with at most one AContext it never does. In particular all programs of tests/cxx reach their end. adv::min and adv::max of doubles return the two arguments in order, the minimum and the maximum if both are finite, and depend on the order of the arguments if one is NaN.",
 "for every well-scoped block (any nesting, any number of variables, contexts and temporaries), every evaluation order, every process state, every arithmetic; min and max for all doubles",
 "The lifetime of temporaries and variables, moved-from objects and assignments interact in unboundedly many programs; tests/cxx has six straight-line ones without assignments or inner scopes.",
 ["src/cxx/ADouble.cpp:1-133", "src/cxx/AContext.cpp:1-70", "include/adv/ADouble.hpp:1-87", "tests/cxx/AContextTests.cpp:1-22", "tests/cxx/ADoubleTests.cpp:1-55", "src/ffi.rs:1-97"])
p("C++ programs run the same whatever the memory allocator does",
 "Every C++ program over ADouble and AContext - faulty ones included - has the same values, contexts and errors whatever allocator serves the C++ and the Rust side, in particular if freed cells are handed out again at once. Apart from copies of an object onto itself (C44) no freed cell is ever touched, no two objects share a cell, and when the last object is gone nothing is left allocated.",
 "for every program, every process state, every arithmetic, and every allocator that does not hand out a cell in use (any function of the history of allocations and frees)",
 "A stale pointer shows only if the allocator happens to reuse the cell; tests see one allocator and one history.",
 ["src/ffi.rs:7-47", "src/cxx/ADouble.cpp:10-81", "src/cxx/AContext.cpp:9-68"])
p("Constants, parsing and queries of variables",
 "The constants of the Float interface (zero, one, nan, infinity, neg_infinity, neg_zero, min_value, max_value, min_positive_value) and parsed numbers are constants at every nesting depth: the scalar's value, zero derivatives on all levels, no context; parsing succeeds exactly when it does for the scalar. The queries is_zero, is_one, is_nan, is_infinite, is_finite, is_normal, is_sign_positive, is_sign_negative, classify and integer_decode answer for the innermost value, whatever the derivatives and tapes. In binary64, integer_decode returns mantissa, exponent and sign whose product is exactly the number and which determine it, the categories and predicates are exact, and the constants are the largest, smallest and smallest normal numbers. They are no neutral elements of max and min: a search for a minimum that starts with max_value returns 0 for all moderate arguments, one that starts with infinity NaN.",
 "all depths of nesting, all variables with any derivatives and contexts, all strings and radices, all binary64 numbers",
 "The statement is about every nesting depth and every one of the 2^64 bit patterns.",
 ["src/afloat.rs:219-261", "src/afloat.rs:288-303", "src/afloat.rs:388-390", "src/afloat.rs:364-370"])
p("Context ids on machines with bounded words",
 "On a machine whose usize has W values the k-th context created by the process gets the id k mod W, however contexts are dropped in between, and exactly the creations that would get W - 1 panic. As long as at most W - 2 contexts have been created no creation panics, every living context is found under its id, no two share an id, and the process behaves as with unbounded ids. A lookup never returns a dead context or one with another id, however long the process runs. The promised crash happens only once, though: after the panic the counter starts again at 0, and a process that goes on gets ids of living contexts again; lookups by the old context's variables then reach the new context, and none after that is dropped.",
 "all word sizes W, all sequences of creations and drops",
 "2^32 or 2^64 creations are needed to reach the case, and the claim is about all sequences of creations and drops.",
 ["src/acontext.rs:7-12", "src/acontext.rs:36-47", "src/acontext.rs:55-60", "src/acontext.rs:76-83"])
p("Functions written with changing variables, branches and loops are recorded as what they compute",
 "Take a function written in the usual way: local variables that are declared and assigned again, compound assignments (+=, -=, *=, /=) with variables and with plain numbers, operators with a plain number on the left or on the right, nested expressions, if on values of variables, counting loops and while loops. Calling it executes its statements in order with the operators of the variables. Recording it succeeds exactly when its evaluation on numbers does not panic. The tape then carries its results; replayed at another point it gives the function's results there whenever the tests of all branches and loops come out the same at both points, and, for functions whose branches and loops do not look at values, at every point. If a test comes out otherwise the replay is in general not the function. The same holds for chains of such functions, whose tests must all come out the same. In exact arithmetic, where all tests come out alike in a neighbourhood of the point and every operation is inside its domain, forward sweeps of a tape without abs give the directional derivatives of the function as written and the Jacobian drivers its Jacobian (jacobian_reverse when no variable is returned twice).",
 "for every scalar type, every function of this form (any nesting, any number of statements and rounds), every point of recording and of replay, every world",
 "Tests record a handful of fixed functions; that re-assigned variables, operators with numbers and nested control flow never lead to a wrong operand on the tape is a statement about all programs.",
 ["src/afloat.rs:127-191", "src/function.rs:26-37", "src/macros.rs:38-66"])
p("Functions that compare computed values with each other keep their replays and derivatives",
 "A function may look at several values and decide on all of them together, such as `if x[0] < x[1]`. Replaying the recording made at x at x' gives the very recording made at x' exactly when both recordings have the same independents, dependents, operations and constants. A function recorded alike at two points in this sense has, replayed at the second, its results there. Where it is recorded alike at all points near x, forward sweeps of its tape, and evaluations without a tape, give its directional derivatives (its piecewise linearisation if it uses abs, max or min), both Jacobian drivers return its Jacobian, and its abs-normal form approximates it to first order; if it is piecewise affine, forward sweeps and abs-normal forms reproduce it exactly wherever it is recorded alike. The error of the linearisation is at most a constant times the square of the distance, with one constant for all base points near x. Nested AFloats compute its derivatives of any order, and its quadratic models; recording them and one reverse sweep give Hessian-vector products. If it is piecewise affine and recorded alike at the four points, they compute its second differences.",
 "replay: for every scalar type, function, world and pair of points; derivatives: in exact arithmetic, for every function, every point inside the domains of its operations, every direction, every way rayon combines the columns",
 "Tests use functions without comparisons or with comparisons against a constant at fixed points; the claim ranges over all functions and over neighbourhoods of points.",
 ["src/function.rs: Function::tape, Function::eval_float", "src/tape.rs: Tape::zero_order, Tape::first_order", "src/drivers/jacobian.rs: jacobian_forward, jacobian_reverse", "src/afloat.rs: PartialOrd"])
p("Derivatives of functions with branches can be trusted wherever no comparison is a tie",
 "If all operations a function performs at x are inside their domains, and wherever it looks at values at x it would go on in the same way with all values near these (for instance every comparison `a < b` it makes compares different values), then it is recorded alike at all points near x: forward sweeps of the tape recorded at x give its derivatives and both Jacobian drivers its Jacobian. All conditions are about x alone. At a tie the derivatives can be wrong although the function is smooth: x * x written with a special case for x = 1 has derivative 0 there according to its tape.",
 "in exact arithmetic, for every function, also chains and chains of chains, every point, every direction, every way rayon combines the columns",
 "Tests run fixed functions at fixed points; the claim is about all programs, all points and whole neighbourhoods of points.",
 ["src/function.rs:26-37", "src/acontext.rs:117-150", "src/afloat.rs:115-125", "src/drivers/jacobian.rs:1-60", "src/drivers/first_order.rs:1-76"])
open('/verif/properties.jsonl','w').write(''.join(json.dumps(x)+'\n' for x in P))
print(len(P))
for x in P: print(x['id'],x['title'])
