{
 "claims": [
  {
   "property": "C01",
   "status": "proved",
   "theorems": [
    "C01_replay_equals_reevaluation",
    "C01_recording_succeeds",
    "C01_other_path_refuted"
   ],
   "note": "For every float arithmetic; the proviso is that f takes the same branches (refuted without it)."
  },
  {
   "property": "C02",
   "status": "proved",
   "theorems": [
    "C02_replays_carry_no_history",
    "C02_recorded_tapes_qualify"
   ],
   "note": "For every well-formed tape, every sequence of replays."
  },
  {
   "property": "C03",
   "status": "proved",
   "theorems": [
    "C03_fresh_tape_stores_run",
    "C03_taping_has_no_side_effects",
    "C03_tape_independent_of_world"
   ],
   "note": "Also: taping leaves all other contexts unchanged and does not depend on them."
  },
  {
   "property": "C04",
   "status": "proved",
   "theorems": [
    "C04_recorded_tapes_well_formed",
    "C04_every_id_defined_once",
    "C04_function_tapes_well_formed",
    "C04_functions_are_histories",
    "C04_direct_record_refuted"
   ],
   "note": "Invariant over all call histories; calling record() directly with invented ids is excluded and refuted."
  },
  {
   "property": "C05",
   "status": "proved",
   "theorems": [
    "C05_sweeps_in_bounds"
   ],
   "note": "Exact characterisation of when each sweep panics."
  },
  {
   "property": "C06",
   "status": "proved",
   "theorems": [
    "C06_variables_agree",
    "C06_tapes_consistent",
    "C06_value_mut_refuted"
   ],
   "note": "Holds for variables not overwritten through value_mut since recording; refuted otherwise."
  },
  {
   "property": "C07",
   "status": "proved",
   "theorems": [
    "C07_isolated",
    "C07_append_only",
    "C07_operations_mark_nothing"
   ],
   "note": ""
  },
  {
   "property": "C08",
   "status": "proved",
   "theorems": [
    "C08_ids_unique",
    "C08_lookup_exact"
   ],
   "note": ""
  },
  {
   "property": "C09",
   "status": "proved",
   "theorems": [
    "C09_mixing_operation_panics",
    "C09_mixing_method_panics",
    "C09_foreign_dependent_panics",
    "C09_foreign_dependent_poisons"
   ],
   "note": "Live contexts. set_dep's failing assertion also poisons the context's mutex (proved)."
  },
  {
   "property": "C10",
   "status": "proved",
   "theorems": [
    "C10_dead_or_detached_operands",
    "C10_attached_operands",
    "C10_detached_right_operand",
    "C10_detached_left_operand",
    "C10_attached_unary",
    "C10_functions_unaffected",
    "C10_dead_functions_record_nothing"
   ],
   "note": ""
  },
  {
   "property": "C11",
   "status": "proved",
   "theorems": [
    "C11_forward_equals_tapeless",
    "C11_proviso",
    "C11_constant_subexpression_refuted"
   ],
   "note": "Proviso: constant subexpressions have tangent zero (refuted without it: acos(-1))."
  },
  {
   "property": "C12",
   "status": "proved",
   "theorems": [
    "C12_forward_is_derivative",
    "C12_tapeless_is_derivative"
   ],
   "note": "Real arithmetic; forward sweep and tapeless dvalue()s."
  },
  {
   "property": "C13",
   "status": "proved",
   "theorems": [
    "C13_piecewise_linearisation"
   ],
   "note": "Real arithmetic."
  },
  {
   "property": "C14",
   "status": "proved",
   "theorems": [
    "C14_piecewise_affine_exact"
   ],
   "note": "Real arithmetic; dx arbitrarily large."
  },
  {
   "property": "C15",
   "status": "proved",
   "theorems": [
    "C15_forward_linear",
    "C15_abs_refuted"
   ],
   "note": "Linearity on abs-free tapes; homogeneity refuted with abs."
  },
  {
   "property": "C16",
   "status": "proved",
   "theorems": [
    "C16_reverse_is_adjoint",
    "C16_repeated_dependents",
    "C16_repeated_dependents_refuted"
   ],
   "note": "Adjointness for distinct dependents; for repeated dependents the exact behaviour (last seed wins) is proved and the adjoint identity refuted."
  },
  {
   "property": "C17",
   "status": "proved",
   "theorems": [
    "C17_jacobian_forward_is_jacobian",
    "C17_columns_are_sweeps",
    "C17_abs_refuted"
   ],
   "note": "For every reduction tree of rayon; refuted for functions with abs (the entry is the increment along the unit vector)."
  },
  {
   "property": "C18",
   "status": "proved",
   "theorems": [
    "C18_jacobian_reverse_equals_forward",
    "C18_jacobian_reverse_any_tape",
    "C18_repeated_output_refuted"
   ],
   "note": "Distinct outputs; refuted when the same variable is returned twice."
  },
  {
   "property": "C19",
   "status": "proved",
   "theorems": [
    "C19_jacobian_forward",
    "C19_jacobian_reverse",
    "C19_mul_right",
    "C19_mul_left"
   ],
   "note": "Every reduction tree of rayon, for jacobian_forward/jacobian_reverse and mul_left/mul_right of the abs-normal sub-tapes."
  },
  {
   "property": "C20",
   "status": "proved",
   "theorems": [
    "C20_cbrt_of_negative_refuted",
    "C20_hypot_overflow_refuted",
    "C20_unary_values",
    "C20_binary_values",
    "C20_supported_methods_return",
    "C20_supported_binary_methods_return",
    "C20_mul_add",
    "C20_sin_cos"
   ],
   "note": "Real arithmetic, arguments in the domain of each function. In binary64 cbrt of negative numbers is NaN and hypot overflows early (refuted for every libm whose pow follows the standards)."
  },
  {
   "property": "C21",
   "status": "proved",
   "theorems": [
    "C21_unary_derivatives",
    "C21_binary_derivatives",
    "C21_max_min_increments",
    "C21_abs_increment"
   ],
   "note": "Real arithmetic, arguments in the open domain; all seeds."
  },
  {
   "property": "C22",
   "status": "proved",
   "theorems": [
    "C22_abs_sub_value",
    "C22_positive_difference_refuted",
    "C22_binary64_refuted"
   ],
   "note": "The documented behaviour is refuted: abs_sub returns |a-b|."
  },
  {
   "property": "C23",
   "status": "proved",
   "theorems": [
    "C23_max_error",
    "C23_min_error",
    "C23_max_min_exact",
    "C23_min_rounding_refuted",
    "C23_min_infinity_refuted"
   ],
   "note": "Exact arithmetic: proved. IEEE binary64: refuted by computed witnesses. Error bound in binary64 for finite arguments (Props13)."
  },
  {
   "property": "C24",
   "status": "proved",
   "theorems": [
    "C24_cast_keeps",
    "C24_numcast_integral",
    "C24_to_i64",
    "C24_to_u64",
    "C24_numcast_exact",
    "C24_numcast_makes_constants",
    "C24_numcast_refuted",
    "C24_nested_tape_refuted"
   ],
   "note": "NumCast refuted (truncation, None out of range); AFloat::cast proved to keep value, derivative and context."
  },
  {
   "property": "C25",
   "status": "proved",
   "theorems": [
    "C25_abs_normal_form_is_faithful",
    "C25_abs_normal_form_exists",
    "C25_first_order_approximation",
    "C25_exact_for_piecewise_affine"
   ],
   "note": "For every well formed tape; plus the combination with C13/C14: first-order approximation near x and exactness for piecewise affine functions."
  },
  {
   "property": "C26",
   "status": "proved",
   "theorems": [
    "C26_L_strictly_lower_triangular"
   ],
   "note": ""
  },
  {
   "property": "C27",
   "status": "proved",
   "theorems": [
    "C27_abs_normal_is_right",
    "C27_returns_with_dimensions",
    "C27_repeated_abs_refuted"
   ],
   "note": "Proved with the proviso in the statement (no variable passed to abs twice, no output returned twice); refutation without it."
  },
  {
   "property": "C28",
   "status": "proved",
   "theorems": [
    "C28_tape_is_a_matrix",
    "C28_mul_right",
    "C28_mul_left",
    "C28_mul_left_repeated",
    "C28_mul_right_wrong_size",
    "C28_mul_left_wrong_size",
    "C28_applies_to_the_subtapes"
   ],
   "note": "Also the exact behaviour of mul_left with repeated outputs (last entry wins)."
  },
  {
   "property": "C29",
   "status": "proved",
   "theorems": [
    "C29_row",
    "C29_row_out_of_range",
    "C29_column_refuted",
    "C29_column_single"
   ],
   "note": "row proved; column refuted: it panics for every matrix without exactly one column."
  },
  {
   "property": "C30",
   "status": "proved",
   "theorems": [
    "C30_closed_form",
    "C30_closed_form_unique",
    "C30_reproduces_the_linearisation",
    "C30_at_the_direction",
    "C30_derivative_when_multiplicity_is_zero",
    "C30_jacobian_without_abs",
    "C30_repeated_abs_refuted"
   ],
   "note": "Real arithmetic; proviso: no variable is passed to abs twice and none is returned twice (refuted without: |x|+|x|). Also: derivative in a neighbourhood when multiplicity is 0, and the plain Jacobian for functions without abs."
  },
  {
   "property": "C31",
   "status": "proved",
   "theorems": [
    "C31_switching_values_exact",
    "C31_switching_values_continuous"
   ],
   "note": "Real arithmetic."
  },
  {
   "property": "C32",
   "status": "proved",
   "theorems": [
    "C32_multiplicity_and_signs",
    "C32_every_combination",
    "C32_bits_determine_signs"
   ],
   "note": ""
  },
  {
   "property": "C33",
   "status": "proved",
   "theorems": [
    "C33_composition"
   ],
   "note": "Same provisos as C30."
  },
  {
   "property": "C34",
   "status": "proved",
   "theorems": [
    "C34_chain_in_binary64",
    "C34_checkpointing_does_not_matter",
    "C34_chain_linearisation",
    "C34_whatever_the_estimate"
   ],
   "note": "Independent of the number of checkpoints and, whenever the driver returns, of the estimate in the schedule."
  },
  {
   "property": "C35",
   "status": "proved",
   "theorems": [
    "C35_one_function_refuted",
    "C35_longer_chains"
   ],
   "note": "The claim is false of the code: refuted for all one-function chains; proved for chains of at least two functions."
  },
  {
   "property": "C36",
   "status": "proved",
   "theorems": [
    "C36_reverse_fold_in_binary64",
    "C36_reverse_sequence_is_reverse_fold",
    "C36_whatever_the_estimate",
    "C36_too_few_checkpoints",
    "C36_longer_sequences_refuted"
   ],
   "note": "For every estimate within 1/2 of the real number it approximates, in particular the binary64 one (Props12); for any estimate whatsoever the result is the fold if it returns. Closures may have side effects and panic."
  },
  {
   "property": "C37",
   "status": "proved",
   "theorems": [
    "C37_never_more_than_c_checkpoints"
   ],
   "note": "The model logs the number of stored checkpoints at each push."
  },
  {
   "property": "C38",
   "status": "proved",
   "theorems": [
    "C38_schedule_well_formed",
    "C38_tail_is_schedule_of_the_rest",
    "C38_every_state_when_memory_suffices"
   ],
   "note": ""
  },
  {
   "property": "C39",
   "status": "proved",
   "theorems": [
    "C39_estimate_accurate_in_binary64",
    "C39_schedule_never_panics_in_binary64",
    "C39_schedule_never_panics",
    "C39_estimate_never_overshoots",
    "C39_find_t",
    "C39_longer_sequences_refuted"
   ],
   "note": "Includes a proof of the Stirling-type lower bound; r <= 2^32, and sharp: beyond it, with as many checkpoints, the schedule panics (C39_longer_sequences_refuted). Props12: the estimate evaluated in binary64 is within 1/2 of the real number (error analysis via Flocq), given exp and pow accurate to 2^-42 relatively."
  },
  {
   "property": "C40",
   "status": "proved",
   "theorems": [
    "C40_reverse_n_times_identity_once",
    "C40_no_recomputation",
    "C40_returns"
   ],
   "note": ""
  },
  {
   "property": "C41",
   "status": "proved",
   "theorems": [
    "C41_fewest_in_binary64",
    "C41_fewest_forward_calls",
    "C41_fewest_among_all_machines",
    "C41_strategies_suffice",
    "C41_closed_form"
   ],
   "note": "Optimal among all ways of visiting the states with c of them in memory (arbitrary copying, forgetting, advancing), by an exchange argument; closed form proved. A state being advanced counts as one of the c; copies the code makes and never uses are not counted."
  },
  {
   "property": "C42",
   "status": "proved",
   "theorems": [
    "C42_eval_is_composition",
    "C42_iter_yields_leaves",
    "C42_len_nth",
    "C42_dimensions",
    "C42_append"
   ],
   "note": ""
  },
  {
   "property": "C43",
   "status": "proved",
   "theorems": [
    "C43_adv_fn_dimensions",
    "C43_reported_dimensions"
   ],
   "note": ""
  },
  {
   "property": "C44",
   "status": "proved",
   "theorems": [
    "C44_freed_memory_is_never_touched",
    "C44_everything_is_freed",
    "C44_objects_are_values",
    "C44_self_copy_refuted"
   ],
   "note": "Every sequence of statements, with the exception proved as C44_self_copy_refuted. Also: no leaks, and refinement of a value semantics. Heap addresses are not reused in the model, so every access to a freed box is an error."
  },
  {
   "property": "C45",
   "status": "proved",
   "theorems": [
    "C45_scalar_left_always_adds",
    "C45_scalar_left_refuted"
   ],
   "note": "The claim is false of the code: refuted for -, * and /; the exact behaviour (always adds) is proved for every program."
  },
  {
   "property": "C46",
   "status": "proved",
   "theorems": [
    "C46_contexts_stay_well_formed",
    "C46_variables_agree",
    "C46_recordings_only_grow"
   ],
   "note": "Interleaving of lock operations and atomic instructions; every number of threads, every schedule. value_mut and the public record method are left out of the moves (see C04, C06)."
  },
  {
   "property": "C47",
   "status": "proved",
   "theorems": [
    "C47_snapshots_are_safe",
    "C47_sweeps_in_bounds",
    "C47_snapshot_consistent_refuted"
   ],
   "note": "Safety proved; that the snapshot is a state of the context is refuted by a schedule."
  },
  {
   "property": "C48",
   "status": "proved",
   "theorems": [
    "C48_ids_are_unique",
    "C48_lookups_are_exact",
    "C48_lookups_succeed",
    "C48_registry_entries",
    "C48_no_entry_survives",
    "C48_no_deadlock",
    "C48_locks_are_released",
    "C48_every_call_can_finish",
    "C48_calls_are_short",
    "C48_no_livelock"
   ],
   "note": "'No thread waits forever' is proved as: a waiting thread's holder is another thread that can step and releases within three own steps without waiting, and from every state all calls can be completed. (Fairness of std::sync::Mutex is not modelled, so starvation by an unfair mutex is not excluded.)"
  },
  {
   "property": "C49",
   "status": "proved",
   "theorems": [
    "C49_operators_and_functions_agree",
    "C49_min_max_agree",
    "C49_min_binary64_refuted"
   ],
   "note": "min/max: proved over R, refuted in binary64 (min(1e16, 1) = 0 on ADouble)."
  },
  {
   "property": "C50",
   "status": "proved",
   "theorems": [
    "C50_ids_are_indices"
   ],
   "note": "Invariant over all call histories."
  },
  {
   "property": "C51",
   "status": "proved",
   "theorems": [
    "C51_panics_freeze_for_all_threads",
    "C51_operation_panics_of_all_threads",
    "C51_frozen_for_all_threads",
    "C51_calls_of_all_threads_panic",
    "C51_operations_of_all_threads",
    "C51_panics_freeze",
    "C51_operation_panics_freeze",
    "C51_poisoned_contexts_are_frozen",
    "C51_calls_panic",
    "C51_operations_panic"
   ],
   "note": "Over all call histories; operations that mix a poisoned with another live context panic anyway (C09). Props21.v: the same for every interleaving of several threads."
  },
  {
   "property": "C52",
   "status": "proved",
   "theorems": [
    "C52_seeds_do_not_matter"
   ],
   "note": "Relational theorem for all user functions, any scalar arithmetic."
  },
  {
   "property": "C53",
   "status": "proved",
   "theorems": [
    "C53_new_indep",
    "C53_new_indep_vec"
   ],
   "note": ""
  },
  {
   "property": "C54",
   "status": "proved",
   "theorems": [
    "C54_replay_needs_n_plus_s",
    "C54_outputs",
    "C54_decomposition",
    "C54_matrix_tapes_are_read_only"
   ],
   "note": "Every scalar arithmetic, every well-formed tape."
  },
  {
   "property": "C55",
   "status": "proved",
   "theorems": [
    "C55_replaying_is_recording",
    "C55_other_branch_refuted"
   ],
   "note": "Every scalar arithmetic; refuted when other branches are taken."
  },
  {
   "property": "C56",
   "status": "proved",
   "theorems": [
    "C56_second_derivative",
    "C56_mixed_second_derivatives",
    "C56_stationary_base_refuted",
    "C56_stationary_base_binary64_refuted",
    "C56_inner_level_is_afloat"
   ],
   "note": "Proved over R with the proviso that no base or exponent of a power is stationary without being constant; refuted without, over R and in binary64."
  },
  {
   "property": "C57",
   "status": "proved",
   "theorems": [
    "C57_private_thread_as_if_alone",
    "C57_taping_in_any_thread",
    "C57_guessed_id_refuted"
   ],
   "note": "Refuted without the condition on lookups by number (a guessed id reaches a foreign context). Termination of the thread is C48."
  },
  {
   "property": "C58",
   "status": "proved",
   "theorems": [
    "C58_values_correctly_rounded",
    "C58_neg_abs_exact",
    "C58_derivatives_of_sums",
    "C58_derivative_of_product",
    "C58_derivative_of_quotient",
    "C58_single_values_correctly_rounded",
    "C58_single_neg_abs_exact",
    "C58_single_derivatives_of_sums"
   ],
   "note": "Via Flocq: the SpecFloat operations of the model are correctly rounded. Derivative bounds exclude overflow by range hypotheses."
  },
  {
   "property": "C59",
   "status": "proved",
   "theorems": [
    "C59_value",
    "C59_abs_normal_form",
    "C59_generalized_jacobian",
    "C59_chain",
    "C59_reference_is_the_active_piece"
   ],
   "note": "Over R. The closed form for arbitrary functions is C30_closed_form with its uniqueness."
  },
  {
   "property": "C60",
   "status": "proved",
   "theorems": [
    "C60_shortest_paths",
    "C60_value",
    "C60_gradient_refuted"
   ],
   "note": "Over R; the optimisation loop and printing are not modelled. The gradient is refuted: value and derivative over R, computed gradient in binary64, where all intermediate results of the witness are exact."
  },
  {
   "property": "C61",
   "status": "proved",
   "theorems": [
    "C61_gradient"
   ],
   "note": "Over R; the optimisation loop is not modelled."
  },
  {
   "property": "C62",
   "status": "proved",
   "theorems": [
    "C62_smooth_functions",
    "C62_smooth_functions_are_differentiated",
    "C62_tape_size"
   ],
   "note": "Every scalar arithmetic (derivatives over R)."
  },
  {
   "property": "C63",
   "status": "proved",
   "theorems": [
    "C63_linearisation",
    "C63_forward",
    "C63_reverse",
    "C63_jacobian"
   ],
   "note": "Over R, for arbitrary well-formed tapes, not only recordings of functions in the model's language."
  },
  {
   "property": "C64",
   "status": "proved",
   "theorems": [
    "C64_replay",
    "C64_forward",
    "C64_reverse",
    "C64_gradient",
    "C64_jacobian"
   ],
   "note": "The running bound is an arithmetic on pairs of reals (BallSpec.v); it says nothing (None) at possible overflow, near the edge of a domain, for powers of non-positive bases with inexact or non-natural exponents."
  },
  {
   "property": "C65",
   "status": "proved",
   "theorems": [
    "C65_rust_panics_iff_contexts_are_mixed",
    "C65_programs_with_one_context_never_panic"
   ],
   "note": "Every scalar arithmetic. Self-copies are excluded as they are undefined behaviour (C44)."
  },
  {
   "property": "C66",
   "status": "proved",
   "theorems": [
    "C66_same_results_binary64",
    "C66_same_results_recorded",
    "C66_same_results_exact",
    "C66_same_results_exact_recorded",
    "C66_derived_methods_refuted",
    "C66_sqrt_refuted",
    "C66_mul_add_refuted"
   ],
   "note": "Bit for bit for the basic methods; over R for all methods within their domains; refuted in binary64 for max, min, abs_sub, sqrt, mul_add."
  },
  {
   "property": "C67",
   "status": "proved",
   "theorems": [
    "C67_tape_holds_converted_values",
    "C67_replay_in_two_precisions",
    "C67_replay_along_recorded_path",
    "C67_recording_succeeds_iff_run_does",
    "C67_double_precision_sweeps",
    "C67_exact_runs_are_reproduced",
    "C67_replay_at_recording_point_refuted",
    "C67_single_to_double_exact"
   ],
   "note": "Every scalar type and conversion. Conversion f32 -> f64 proved exact; the reproduction of the recorded outputs is refuted for f32 in general and proved for runs whose operations convert exactly."
  },
  {
   "property": "C68",
   "status": "proved",
   "theorems": [
    "C68_loop_is_gradient_descent",
    "C68_nan_ends_the_loop",
    "C68_stalled_iterations",
    "C68_ends_at_small_gradient_refuted"
   ],
   "note": "Exact arithmetic for the descent statement; a division by a zero gradient difference is 0 there and NaN in binary64, which is what the binary64 theorems are about. That the binary64 loop ends only at small gradients is refuted."
  },
  {
   "property": "C69",
   "status": "proved",
   "theorems": [
    "C69_values",
    "C69_outputs",
    "C69_one_value"
   ],
   "note": "Threads and schedules as in C46-C49 (Concurrent.v). What has been computed is the inductive relation 'computed' over completed calls (JointSpec.v)."
  },
  {
   "property": "C70",
   "status": "proved",
   "theorems": [
    "C70_multiplicity_at_most_one",
    "C70_signs_that_occur",
    "C70_any_signs_refuted"
   ],
   "note": "C70_any_signs_refuted shows that the restriction on the bits is needed."
  },
  {
   "property": "C71",
   "status": "proved",
   "theorems": [
    "C71_vector_max",
    "C71_vector_max_tape",
    "C71_chain_of_sums",
    "C71_extra_arguments",
    "C71_dimension_expressions",
    "C71_all_arithmetic",
    "C71_unary_functions",
    "C71_polar_forward",
    "C71_polar_reverse",
    "C71_abs_plus",
    "C71_abs_decompose",
    "C71_record",
    "C71_schedule_consistency",
    "C71_gauss_sum"
   ],
   "note": "The half pipe tests are C59, the others here; the Examples run the tests themselves in binary64."
  },
  {
   "property": "C72",
   "status": "proved",
   "theorems": [
    "C72_jacobian_forward",
    "C72_jacobian_reverse",
    "C72_generalized_jacobian",
    "C72_generalized_jacobian_sizes",
    "C72_chain"
   ],
   "note": "abs_normal: C27_returns_with_dimensions; sweeps: C05."
  },
  {
   "property": "C73",
   "status": "proved",
   "theorems": [
    "C73_tapes",
    "C73_generalized_jacobian",
    "C73_abs_normal",
    "C73_chain"
   ],
   "note": "The condition is sufficient, not necessary. once_f is false of a chain: the chain driver works on its links."
  },
  {
   "property": "C74",
   "status": "proved",
   "theorems": [
    "C74_selected_branches",
    "C74_zero_direction",
    "C74_max",
    "C74_min",
    "C74_chain",
    "C74_repeated_outputs"
   ],
   "note": "Over the reals."
  },
  {
   "property": "C75",
   "status": "proved",
   "theorems": [
    "C75_half_the_derivative",
    "C75_half_the_partial_derivatives"
   ],
   "note": "Over the reals; the general form of C60_gradient_refuted. The property describes what the program does: the gradient has the right direction and half the length."
  },
  {
   "property": "C76",
   "status": "proved",
   "theorems": [
    "C76_closures_never_panic",
    "C76_output",
    "C76_stuck",
    "C76_nan_ends_loop"
   ],
   "note": "Printing is modelled as the list of printed values, not their formatting. Termination of the loop is not claimed; [fuel] is any number of iterations."
  },
  {
   "property": "C77",
   "status": "proved",
   "theorems": [
    "C77_unary_values",
    "C77_binary_values",
    "C77_nop",
    "C77_constant",
    "C77_unary_tangent",
    "C77_binary_tangent",
    "C77_unary_adjoint",
    "C77_binary_adjoint",
    "C77_abs"
   ],
   "note": "Values in every arithmetic; derivatives over the reals. The reverse step of a binary operation whose result is its own first argument is excluded (no recorded tape contains one, C04)."
  },
  {
   "property": "C78",
   "status": "proved",
   "theorems": [
    "C78_function",
    "C78_chain",
    "C78_chain_is_composition",
    "C78_same_multiplicity_refuted",
    "C78_chain_limiting"
   ],
   "note": "Over the reals. That the multiplicity of a chain is that of the composed function is refuted (C78_same_multiplicity_refuted)."
  },
  {
   "property": "C79",
   "status": "proved",
   "theorems": [
    "C79_quadratic_error",
    "C79_models_at_two_points",
    "C79_derivatives_lipschitz",
    "C79_increments_refuted"
   ],
   "note": "Over the reals; sharpens C13 (which says that the error is o(|h|)). That the increments themselves depend continuously on the base point is refuted (C79_increments_refuted)."
  },
  {
   "property": "C80",
   "status": "proved",
   "theorems": [
    "C80_values",
    "C80_propagate_value",
    "C80_sizes",
    "C80_products_return",
    "C80_products",
    "C80_generalized_jacobian",
    "C80_generalized_jacobian_chain"
   ],
   "note": "Values and Jacobians over the reals, sizes in every arithmetic. Running times are not modelled."
  },
  {
   "property": "C81",
   "status": "proved",
   "theorems": [
    "C81_abs_normal",
    "C81_switching_values",
    "C81_generalized_jacobian",
    "C81_piece",
    "C81_function",
    "C81_early_exit"
   ],
   "note": "The bounds are those of an arithmetic of pairs (exact number, radius), as in C64; a pair may also say nothing (possible overflow). The constant vectors a and b of abs_normal and the inhomogeneous part use dense matrix-vector products, summed here in one order (Matrix.v); C87 treats every order; the matrices and the signs use sweeps only. For the driver without a following link (next = None); for chains see C86."
  },
  {
   "property": "C82",
   "status": "proved",
   "theorems": [
    "C82_second_differences",
    "C82_kink_within_step_refuted",
    "C82_kink_within_step_binary64_refuted"
   ],
   "note": "In exact arithmetic; the refutations show what the identity means for users who read the last component as a second derivative. For functions without abs see C56."
  },
  {
   "property": "C83",
   "status": "proved",
   "theorems": [
    "C83_same_tape",
    "C83_evaluates_everywhere",
    "C83_every_program"
   ],
   "note": "The translation to Rust (FfiRecSpec.v) numbers the values in the order of their introduction; copies alias, moved-from objects hold a new zero. Programs that throw or touch objects outside their lifetime have no translation."
  },
  {
   "property": "C84",
   "status": "proved",
   "theorems": [
    "C84_values",
    "C84_directional",
    "C84_adjoint",
    "C84_forward_zeros",
    "C84_reverse_zeros",
    "C84_binary64_zeros_refuted"
   ],
   "note": "connected (SparseSpec.v) is reachability in the recorded operations. C84_binary64_zeros_refuted: both drivers return NaN for unconnected pairs of (x0 + x0, x1 / x1) at (1, 2^-540)."
  },
  {
   "property": "C85",
   "status": "proved",
   "theorems": [
    "C85_values",
    "C85_powf_refuted",
    "C85_directional",
    "C85_adjoint"
   ],
   "note": "Values need a libm that maps NaN to NaN and a tape without powers (C85_powf_refuted); derivatives and adjoints need neither."
  },
  {
   "property": "C86",
   "status": "proved",
   "theorems": [
    "C86_tapes",
    "C86_error",
    "C86_chain",
    "C86_piece"
   ],
   "note": "The bounds are those of C64 and C81. Exact arithmetic is applied to the tapes recorded in double precision: constants folded while recording count as given, and each stage is replayed at the exact values of the one before. Dense matrix-vector products (inhomogeneous part) are summed in one order here; C87 treats every order."
  },
  {
   "property": "C87",
   "status": "proved",
   "theorems": [
    "C87_instance",
    "C87_orders",
    "C87_exact",
    "C87_exact_chain",
    "C87_abs_normal",
    "C87_homogeneous",
    "C87_homogeneous_chain",
    "C87_abs_normal_error",
    "C87_error",
    "C87_chain_error"
   ],
   "note": "An order is any bracketing of any arrangement of the products, with zeros added anywhere, chosen anew for every row and every product. Fused multiply-adds inside a product are not modelled: every product is rounded before it is added. The error theorems sum the bounds in the order the doubles are summed in, and refer to exact results that do not depend on the order."
  },
  {
   "property": "C88",
   "status": "proved",
   "theorems": [
    "C88_degrees",
    "C88_radians",
    "C88_return",
    "C88_jacobians",
    "C88_degrees_error",
    "C88_radians_error",
    "C88_no_overflow_refuted",
    "C88_epsilon_refuted"
   ],
   "note": "The bodies of these provided methods are num-traits 0.2's, which is not part of /repo. Error bounds for the value; derivatives over the reals. Two refutations: intermediate overflow, and epsilon() being that of f32."
  },
  {
   "property": "C89",
   "status": "proved",
   "theorems": [
    "C89_contexts_stay_well_formed",
    "C89_variables_in_range",
    "C89_recordings_only_grow",
    "C89_snapshots_are_safe",
    "C89_sweeps_in_bounds",
    "C89_ids_are_unique",
    "C89_lookups_are_exact",
    "C89_lookups_succeed",
    "C89_registry_entries",
    "C89_no_entry_survives",
    "C89_no_deadlock",
    "C89_locks_are_released",
    "C89_every_call_can_finish",
    "C89_calls_are_short",
    "C89_no_livelock",
    "C89_values_agree_refuted"
   ],
   "note": "The process of Concurrent.v with one more move (ConcWrite.v). One refutation: C46's agreement of values does not survive value_mut. The public method record: C90."
  },
  {
   "property": "C90",
   "status": "proved",
   "theorems": [
    "C90_recordings_only_grow",
    "C90_snapshots",
    "C90_ids_are_unique",
    "C90_lookups_are_exact",
    "C90_lookups_succeed",
    "C90_registry_entries",
    "C90_no_entry_survives",
    "C90_no_deadlock",
    "C90_locks_are_released",
    "C90_every_call_can_finish",
    "C90_calls_are_short",
    "C90_no_livelock",
    "C90_snapshots_are_safe_refuted"
   ],
   "note": "With record and value_mut every public method of AContext and AFloat that touches shared state is a move. One refutation: the recording itself can become unusable."
  },
  {
   "property": "C91",
   "status": "proved",
   "theorems": [
    "C91_mixed_derivatives",
    "C91_derivatives_of_one_input",
    "C91_entire_functions",
    "C91_third_derivative_of_tan_refuted",
    "C91_third_derivative_of_a_square_refuted",
    "C91_depths_one_and_two",
    "C91_levels_are_afloats"
   ],
   "note": "For every depth, over R, with the proviso on powers stated; no proviso for the functions of C91_entire_functions. Refuted without: tan at 0 over R, x.powi(2) at 0 in binary64."
  },
  {
   "property": "C92",
   "status": "proved",
   "theorems": [
    "C92_recording",
    "C92_recording_adoubles",
    "C92_tapeless_is_nested",
    "C92_sweeps",
    "C92_hessian_vector",
    "C92_gradient_too",
    "C92_stationary_base_refuted"
   ],
   "note": "The closure a user writes is modelled twice: as the rules running on an arbitrary inner type (o_eval) and as straight-line code (tangent); C92_recording proves them equal for every inner type and state. One refutation: a power whose base has derivative 0 in value only."
  },
  {
   "property": "C93",
   "status": "proved",
   "theorems": [
    "C93_parts_can_be_recorded",
    "C93_forward",
    "C93_forward_any_arithmetic",
    "C93_reverse",
    "C93_jacobians_multiply",
    "C93_repeated_output_refuted",
    "C93_abs_refuted"
   ],
   "note": "Forward: every arithmetic with the proviso of C11, no proviso over R. Reverse and Jacobians over R. Two refutations."
  },
  {
   "property": "C94",
   "status": "proved",
   "theorems": [
    "C94_symmetric",
    "C94_hessian_vector_products",
    "C94_stationary_base_refuted"
   ],
   "note": "Real arithmetic: each operation's second derivative rule is symmetric (Symm.v), relational induction over the two runs (SymmMain.v)."
  },
  {
   "property": "C95",
   "status": "proved",
   "theorems": [
    "C95_quadratic_model",
    "C95_minimum_along_a_line"
   ],
   "note": "Real arithmetic: C56 along one line and Taylor's theorem with Peano's remainder, proved from the mean value theorem."
  },
  {
   "property": "C96",
   "status": "proved",
   "theorems": [
    "C96_instances",
    "C96_exact",
    "C96_exact_chain",
    "C96_abs_normal",
    "C96_homogeneous",
    "C96_homogeneous_chain",
    "C96_fused",
    "C96_abs_normal_error",
    "C96_error",
    "C96_chain_error"
   ],
   "note": "Orders are trees that may fuse a product into a sum (FmaSpec.v); the drivers of OrderSpec.v take any matrix-vector product, so the theorems follow C87's, with the chain driver generalised to any products (FmaFacts.v, FmaMain.v). Flocq's Bfma is shown to be a fused operation in the sense required."
  },
  {
   "property": "C97",
   "status": "proved",
   "theorems": [
    "C97_scoped_programs",
    "C97_plain_programs",
    "C97_one_context",
    "C97_cxx_tests",
    "C97_min_max",
    "C97_min_max_value",
    "C97_min_max_nan"
   ],
   "note": "x = x (self copy, C44) and moved AContexts are outside the source language; Ffi.v covers both. The translation fixes C++17 copy elision."
  },
  {
   "property": "C98",
   "status": "proved",
   "theorems": [
    "C98_same_run",
    "C98_never_touches_freed",
    "C98_cells_not_shared",
    "C98_no_leak",
    "C98_allocators"
   ],
   "note": ""
  },
  {
   "property": "C99",
   "status": "proved",
   "theorems": [
    "C99_queries",
    "C99_constants",
    "C99_parse",
    "C99_decode_exact",
    "C99_decode_injective",
    "C99_classify",
    "C99_predicates",
    "C99_extreme_values",
    "C99_search_from_extreme_refuted",
    "C99_search_from_infinity_refuted"
   ],
   "note": "C99_queries, C99_constants and C99_parse for every scalar with these traits and every depth; C99_decode_exact, C99_decode_injective, C99_classify, C99_predicates and C99_extreme_values for binary64, where the traits of f64 (num-traits and std, not part of /repo) are modelled by the fields of the interchange format; C99_search_from_extreme_refuted and C99_search_from_infinity_refuted show for all arguments that min and max do not have these constants as neutral elements."
  },
  {
   "property": "C100",
   "status": "proved",
   "theorems": [
    "C100_ids",
    "C100_before_overflow",
    "C100_unbounded_model",
    "C100_lookup_sound",
    "C100_unique_refuted"
   ],
   "note": "C100_ids for every history; C100_before_overflow and C100_unbounded_model justify the unbounded ids of all other properties; C100_lookup_sound for every history; C100_unique_refuted shows for every word size that ids of living contexts are reused after the assertion has failed once."
  },
  {
   "property": "C101",
   "status": "proved",
   "theorems": [
    "C101_executes",
    "C101_records",
    "C101_replays",
    "C101_unconditional",
    "C101_other_decisions_refuted",
    "C101_derivative",
    "C101_jacobians",
    "C101_chain_executes",
    "C101_chain_evaluates",
    "C101_chain_records",
    "C101_chain_replays",
    "C101_chain_derivative",
    "C101_chain_jacobians"
   ],
   "note": "For functions of one adv_fn! body and for chains of them. A while loop is given a bound on its rounds (any number), reaching it counts as a panic. Replay under other decisions is refuted by a witness."
  },
  {
   "property": "C102",
   "status": "proved",
   "theorems": [
    "C102_replaying_is_recording_iff",
    "C102_replay",
    "C102_forward_is_derivative",
    "C102_tapeless_is_derivative",
    "C102_piecewise_linearisation",
    "C102_jacobians",
    "C102_piecewise_affine_exact",
    "C102_abs_normal",
    "C102_covers_same_branches",
    "C102_quadratic_error",
    "C102_models_at_two_points",
    "C102_derivatives_lipschitz",
    "C102_mixed_derivatives",
    "C102_derivatives_of_one_input",
    "C102_second_derivatives",
    "C102_quadratic_model",
    "C102_minimum_along_a_line",
    "C102_hessian_vector",
    "C102_second_differences",
    "C102_abs_normal_exact"
   ],
   "note": "The hypothesis is observable through the API (the two tapes) and weaker than in C01, C12, C13, C17 and C25 (C102_covers_same_branches); the example compares two inputs and does not meet the older hypothesis."
  },
  {
   "property": "C103",
   "status": "proved",
   "theorems": [
    "C103_stable_decisions",
    "C103_comparisons",
    "C103_derivative",
    "C103_jacobians",
    "C103_tie_refuted",
    "C103_chain_stable_decisions",
    "C103_chain_derivative",
    "C103_chain_jacobians"
   ],
   "note": "The hypothesis of C102 derived from conditions at the point itself. C103_chain_* cover chains: each function of a chain decides stably at the values it gets from the one before it. C103_tie_refuted shows that the condition on ties is needed."
  }
 ]
}