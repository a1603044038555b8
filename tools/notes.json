{
 "C01": {
  "note": "For every float arithmetic; the proviso is that f takes the same branches (refuted without it)."
 },
 "C02": {
  "note": "For every well-formed tape, every sequence of replays."
 },
 "C03": {
  "note": "Also: taping leaves all other contexts unchanged and does not depend on them."
 },
 "C04": {
  "note": "Invariant over all call histories; calling record() directly with invented ids is excluded and refuted."
 },
 "C05": {
  "note": "Exact characterisation of when each sweep panics."
 },
 "C06": {
  "note": "Holds for variables not overwritten through value_mut since recording; refuted otherwise."
 },
 "C07": {
  "note": ""
 },
 "C08": {
  "note": ""
 },
 "C09": {
  "note": "Live contexts. set_dep's failing assertion also poisons the context's mutex (proved)."
 },
 "C10": {
  "note": ""
 },
 "C11": {
  "note": "Proviso: constant subexpressions have tangent zero (refuted without it: acos(-1))."
 },
 "C12": {
  "note": "Real arithmetic; forward sweep and tapeless dvalue()s."
 },
 "C13": {
  "note": "Real arithmetic."
 },
 "C14": {
  "note": "Real arithmetic; dx arbitrarily large."
 },
 "C15": {
  "note": "Linearity on abs-free tapes; homogeneity refuted with abs."
 },
 "C16": {
  "note": "Adjointness for distinct dependents; for repeated dependents the exact behaviour (last seed wins) is proved and the adjoint identity refuted."
 },
 "C17": {
  "note": "For every reduction tree of rayon; refuted for functions with abs (the entry is the increment along the unit vector)."
 },
 "C18": {
  "note": "Distinct outputs; refuted when the same variable is returned twice."
 },
 "C19": {
  "note": "Every reduction tree of rayon, for jacobian_forward/jacobian_reverse and mul_left/mul_right of the abs-normal sub-tapes."
 },
 "C20": {
  "note": "Real arithmetic, arguments in the domain of each function. In binary64 cbrt of negative numbers is NaN and hypot overflows early (refuted for every libm whose pow follows the standards)."
 },
 "C21": {
  "note": "Real arithmetic, arguments in the open domain; all seeds."
 },
 "C22": {
  "note": "The documented behaviour is refuted: abs_sub returns |a-b|."
 },
 "C23": {
  "note": "Exact arithmetic: proved. IEEE binary64: refuted by computed witnesses. Error bound in binary64 for finite arguments (Props13)."
 },
 "C24": {
  "note": "NumCast refuted (truncation, None out of range); AFloat::cast proved to keep value, derivative and context."
 },
 "C42": {
  "note": ""
 },
 "C43": {
  "note": ""
 },
 "C25": {
  "note": "For every well formed tape; plus the combination with C13/C14: first-order approximation near x and exactness for piecewise affine functions."
 },
 "C26": {
  "note": ""
 },
 "C27": {
  "note": "Proved with the proviso in the statement (no variable passed to abs twice, no output returned twice); refutation without it."
 },
 "C28": {
  "note": "Also the exact behaviour of mul_left with repeated outputs (last entry wins)."
 },
 "C29": {
  "note": "row proved; column refuted: it panics for every matrix without exactly one column."
 },
 "C36": {
  "note": "For every estimate within 1/2 of the real number it approximates, in particular the binary64 one (Props12); for any estimate whatsoever the result is the fold if it returns. Closures may have side effects and panic."
 },
 "C37": {
  "note": "The model logs the number of stored checkpoints at each push."
 },
 "C38": {
  "note": ""
 },
 "C39": {
  "note": "Includes a proof of the Stirling-type lower bound; r <= 2^32, and sharp: beyond it, with as many checkpoints, the schedule panics (C39_longer_sequences_refuted). Props12: the estimate evaluated in binary64 is within 1/2 of the real number (error analysis via Flocq), given exp and pow accurate to 2^-42 relatively."
 },
 "C40": {
  "note": ""
 },
 "C41": {
  "note": "Optimal among all ways of visiting the states with c of them in memory (arbitrary copying, forgetting, advancing), by an exchange argument; closed form proved. A state being advanced counts as one of the c; copies the code makes and never uses are not counted."
 },
 "C30": {
  "note": "Real arithmetic; proviso: no variable is passed to abs twice and none is returned twice (refuted without: |x|+|x|). Also: derivative in a neighbourhood when multiplicity is 0, and the plain Jacobian for functions without abs."
 },
 "C31": {
  "note": "Real arithmetic."
 },
 "C32": {
  "note": ""
 },
 "C33": {
  "note": "Same provisos as C30."
 },
 "C34": {
  "note": "Independent of the number of checkpoints and, whenever the driver returns, of the estimate in the schedule."
 },
 "C35": {
  "note": "The claim is false of the code: refuted for all one-function chains; proved for chains of at least two functions."
 },
 "C44": {
  "note": "Every sequence of statements, with the exception proved as C44_self_copy_refuted. Also: no leaks, and refinement of a value semantics. Heap addresses are not reused in the model, so every access to a freed box is an error."
 },
 "C45": {
  "note": "The claim is false of the code: refuted for -, * and /; the exact behaviour (always adds) is proved for every program."
 },
 "C49": {
  "note": "min/max: proved over R, refuted in binary64 (min(1e16, 1) = 0 on ADouble)."
 },
 "C46": {
  "note": "Interleaving of lock operations and atomic instructions; every number of threads, every schedule. value_mut and the public record method are left out of the moves (see C04, C06)."
 },
 "C47": {
  "note": "Safety proved; that the snapshot is a state of the context is refuted by a schedule."
 },
 "C48": {
  "note": "'No thread waits forever' is proved as: a waiting thread's holder is another thread that can step and releases within three own steps without waiting, and from every state all calls can be completed. (Fairness of std::sync::Mutex is not modelled, so starvation by an unfair mutex is not excluded.)"
 },
 "C50": {
  "note": "Invariant over all call histories."
 },
 "C51": {
  "note": "Over all call histories; operations that mix a poisoned with another live context panic anyway (C09). Props21.v: the same for every interleaving of several threads."
 },
 "C52": {
  "note": "Relational theorem for all user functions, any scalar arithmetic."
 },
 "C53": {
  "note": ""
 },
 "C54": {
  "note": "Every scalar arithmetic, every well-formed tape."
 },
 "C55": {
  "note": "Every scalar arithmetic; refuted when other branches are taken."
 },
 "C56": {
  "note": "Proved over R with the proviso that no base or exponent of a power is stationary without being constant; refuted without, over R and in binary64."
 },
 "C57": {
  "note": "Refuted without the condition on lookups by number (a guessed id reaches a foreign context). Termination of the thread is C48."
 },
 "C58": {
  "note": "Via Flocq: the SpecFloat operations of the model are correctly rounded. Derivative bounds exclude overflow by range hypotheses."
 },
 "C59": {
  "note": "Over R. The closed form for arbitrary functions is C30_closed_form with its uniqueness."
 },
 "C60": {
  "note": "Over R; the optimisation loop and printing are not modelled. The gradient is refuted: value and derivative over R, computed gradient in binary64, where all intermediate results of the witness are exact."
 },
 "C61": {
  "note": "Over R; the optimisation loop is not modelled."
 },
 "C62": {
  "note": "Every scalar arithmetic (derivatives over R)."
 },
 "C63": {
  "note": "Over R, for arbitrary well-formed tapes, not only recordings of functions in the model's language."
 },
 "C64": {
  "note": "The running bound is an arithmetic on pairs of reals (BallSpec.v); it says nothing (None) at possible overflow, near the edge of a domain, for powers of non-positive bases with inexact or non-natural exponents."
 },
 "C65": {
  "note": "Every scalar arithmetic. Self-copies are excluded as they are undefined behaviour (C44)."
 },
 "C66": {
  "note": "Bit for bit for the basic methods; over R for all methods within their domains; refuted in binary64 for max, min, abs_sub, sqrt, mul_add."
 },
 "C67": {
  "note": "Every scalar type and conversion. Conversion f32 -> f64 proved exact; the reproduction of the recorded outputs is refuted for f32 in general and proved for runs whose operations convert exactly."
 },
 "C68": {
  "note": "Exact arithmetic for the descent statement; a division by a zero gradient difference is 0 there and NaN in binary64, which is what the binary64 theorems are about. That the binary64 loop ends only at small gradients is refuted."
 },
 "C69": {
  "note": "Threads and schedules as in C46-C49 (Concurrent.v). What has been computed is the inductive relation 'computed' over completed calls (JointSpec.v)."
 },
 "C70": {
  "note": "C70_any_signs_refuted shows that the restriction on the bits is needed."
 },
 "C71": {
  "note": "The half pipe tests are C59, the others here; the Examples run the tests themselves in binary64."
 },
 "C72": {
  "note": "abs_normal: C27_returns_with_dimensions; sweeps: C05."
 },
 "C73": {
  "note": "The condition is sufficient, not necessary. once_f is false of a chain: the chain driver works on its links."
 },
 "C74": {
  "note": "Over the reals."
 },
 "C75": {
  "note": "Over the reals; the general form of C60_gradient_refuted. The property describes what the program does: the gradient has the right direction and half the length."
 },
 "C76": {
  "note": "Printing is modelled as the list of printed values, not their formatting. Termination of the loop is not claimed; [fuel] is any number of iterations."
 },
 "C77": {
  "note": "Values in every arithmetic; derivatives over the reals. The reverse step of a binary operation whose result is its own first argument is excluded (no recorded tape contains one, C04)."
 },
 "C78": {
  "note": "Over the reals. That the multiplicity of a chain is that of the composed function is refuted (C78_same_multiplicity_refuted)."
 },
 "C79": {
  "note": "Over the reals; sharpens C13 (which says that the error is o(|h|)). That the increments themselves depend continuously on the base point is refuted (C79_increments_refuted)."
 },
 "C80": {
  "note": "Values and Jacobians over the reals, sizes in every arithmetic. Running times are not modelled."
 },
 "C81": {
  "note": "The bounds are those of an arithmetic of pairs (exact number, radius), as in C64; a pair may also say nothing (possible overflow). The constant vectors a and b of abs_normal and the inhomogeneous part use dense matrix-vector products, summed here in one order (Matrix.v); C87 treats every order; the matrices and the signs use sweeps only. For the driver without a following link (next = None); for chains see C86."
 },
 "C82": {
  "note": "In exact arithmetic; the refutations show what the identity means for users who read the last component as a second derivative. For functions without abs see C56."
 },
 "C83": {
  "note": "The translation to Rust (FfiRecSpec.v) numbers the values in the order of their introduction; copies alias, moved-from objects hold a new zero. Programs that throw or touch objects outside their lifetime have no translation."
 },
 "C84": {
  "note": "connected (SparseSpec.v) is reachability in the recorded operations. C84_binary64_zeros_refuted: both drivers return NaN for unconnected pairs of (x0 + x0, x1 / x1) at (1, 2^-540)."
 },
 "C85": {
  "note": "Values need a libm that maps NaN to NaN and a tape without powers (C85_powf_refuted); derivatives and adjoints need neither."
 },
 "C86": {
  "note": "The bounds are those of C64 and C81. Exact arithmetic is applied to the tapes recorded in double precision: constants folded while recording count as given, and each stage is replayed at the exact values of the one before. Dense matrix-vector products (inhomogeneous part) are summed in one order here; C87 treats every order."
 },
 "C87": {
  "note": "An order is any bracketing of any arrangement of the products, with zeros added anywhere, chosen anew for every row and every product. Fused multiply-adds inside a product are not modelled: every product is rounded before it is added. The error theorems sum the bounds in the order the doubles are summed in, and refer to exact results that do not depend on the order."
 },
 "C88": {
  "note": "The bodies of these provided methods are num-traits 0.2's, which is not part of /repo. Error bounds for the value; derivatives over the reals. Two refutations: intermediate overflow, and epsilon() being that of f32."
 },
 "C89": {
  "note": "The process of Concurrent.v with one more move (ConcWrite.v). One refutation: C46's agreement of values does not survive value_mut. The public method record: C90."
 },
 "C90": {
  "note": "With record and value_mut every public method of AContext and AFloat that touches shared state is a move. One refutation: the recording itself can become unusable."
 },
 "C91": {
  "note": "For every depth, over R, with the proviso on powers stated; no proviso for the functions of C91_entire_functions. Refuted without: tan at 0 over R, x.powi(2) at 0 in binary64."
 },
 "C92": {
  "note": "The closure a user writes is modelled twice: as the rules running on an arbitrary inner type (o_eval) and as straight-line code (tangent); C92_recording proves them equal for every inner type and state. One refutation: a power whose base has derivative 0 in value only."
 },
 "C93": {
  "note": "Forward: every arithmetic with the proviso of C11, no proviso over R. Reverse and Jacobians over R. Two refutations."
 },
 "C94": {
  "note": "Real arithmetic: each operation's second derivative rule is symmetric (Symm.v), relational induction over the two runs (SymmMain.v)."
 },
 "C95": {
  "note": "Real arithmetic: C56 along one line and Taylor's theorem with Peano's remainder, proved from the mean value theorem."
 },
 "C96": {
  "note": "Orders are trees that may fuse a product into a sum (FmaSpec.v); the drivers of OrderSpec.v take any matrix-vector product, so the theorems follow C87's, with the chain driver generalised to any products (FmaFacts.v, FmaMain.v). Flocq's Bfma is shown to be a fused operation in the sense required."
 },
 "C97": {
  "note": "x = x (self copy, C44) and moved AContexts are outside the source language; Ffi.v covers both. The translation fixes C++17 copy elision."
 },
 "C98": {
  "note": ""
 },
 "C99": {
  "note": "C99_queries, C99_constants and C99_parse for every scalar with these traits and every depth; C99_decode_exact, C99_decode_injective, C99_classify, C99_predicates and C99_extreme_values for binary64, where the traits of f64 (num-traits and std, not part of /repo) are modelled by the fields of the interchange format; C99_search_from_extreme_refuted and C99_search_from_infinity_refuted show for all arguments that min and max do not have these constants as neutral elements."
 },
 "C100": {
  "note": "C100_ids for every history; C100_before_overflow and C100_unbounded_model justify the unbounded ids of all other properties; C100_lookup_sound for every history; C100_unique_refuted shows for every word size that ids of living contexts are reused after the assertion has failed once."
 },
 "C101": {
  "note": "For functions of one adv_fn! body and for chains of them. A while loop is given a bound on its rounds (any number), reaching it counts as a panic. Replay under other decisions is refuted by a witness."
 },
 "C102": {
  "note": "The hypothesis is observable through the API (the two tapes) and weaker than in C01, C12, C13, C17 and C25 (C102_covers_same_branches); the example compares two inputs and does not meet the older hypothesis."
 },
 "C103": {
  "note": "The hypothesis of C102 derived from conditions at the point itself. C103_chain_* cover chains: each function of a chain decides stably at the values it gets from the one before it. C103_tie_refuted shows that the condition on ties is needed."
 }
}