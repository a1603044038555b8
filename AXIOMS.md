# Print Assumptions, theorem by theorem

Generated by tools/gen_axioms.py from the output of the build.  "none" is "Closed under the global context".

* **S1**: `ClassicalDedekindReals.sig_forall_dec`, `ClassicalDedekindReals.sig_not_dec`, `Classical_Prop.classic`, `FunctionalExtensionality.functional_extensionality_dep`
* **S2**: `ClassicalDedekindReals.sig_forall_dec`, `FunctionalExtensionality.functional_extensionality_dep`

| theorem | file | axioms |
|---|---|---|
| C01_replay_equals_reevaluation | Props1.v | none |
| C01_recording_succeeds | Props1.v | none |
| C01_other_path_refuted | Props1.v | none |
| C02_replays_carry_no_history | Props1.v | none |
| C02_recorded_tapes_qualify | Props1.v | none |
| C03_fresh_tape_stores_run | Props1.v | none |
| C03_taping_has_no_side_effects | Props1.v | none |
| C03_tape_independent_of_world | Props1.v | none |
| C04_recorded_tapes_well_formed | Props1.v | none |
| C04_every_id_defined_once | Props1.v | none |
| C04_function_tapes_well_formed | Props1.v | none |
| C04_functions_are_histories | Props1.v | none |
| C04_direct_record_refuted | Props1.v | none |
| C05_sweeps_in_bounds | Props1.v | none |
| C06_variables_agree | Props1.v | none |
| C06_tapes_consistent | Props1.v | none |
| C06_value_mut_refuted | Props1.v | none |
| C07_isolated | Props1.v | none |
| C07_append_only | Props1.v | none |
| C07_operations_mark_nothing | Props1.v | none |
| C08_ids_unique | Props1.v | none |
| C08_lookup_exact | Props1.v | none |
| C09_mixing_operation_panics | Props1.v | none |
| C09_mixing_method_panics | Props1.v | none |
| C09_foreign_dependent_panics | Props1.v | none |
| C09_foreign_dependent_poisons | Props1.v | none |
| C10_dead_or_detached_operands | Props1.v | none |
| C10_attached_operands | Props1.v | none |
| C10_detached_right_operand | Props1.v | none |
| C10_detached_left_operand | Props1.v | none |
| C10_attached_unary | Props1.v | none |
| C10_functions_unaffected | Props1.v | none |
| C10_dead_functions_record_nothing | Props1.v | none |
| C11_forward_equals_tapeless | Props1.v | none |
| C11_proviso | Props1.v | none |
| C11_constant_subexpression_refuted | Props1.v | none |
| C12_forward_is_derivative | Props2.v | S1 |
| C12_tapeless_is_derivative | Props2.v | S1 |
| C13_piecewise_linearisation | Props2.v | S1 |
| C14_piecewise_affine_exact | Props2.v | S1 |
| C15_forward_linear | Props2.v | S1 |
| C15_abs_refuted | Props2.v | none |
| C16_reverse_is_adjoint | Props2.v | S1 |
| C16_repeated_dependents | Props2.v | S1 |
| C16_repeated_dependents_refuted | Props2.v | none |
| C17_jacobian_forward_is_jacobian | Props2.v | S1 |
| C17_columns_are_sweeps | Props2.v | none |
| C17_abs_refuted | Props2.v | none |
| C18_jacobian_reverse_equals_forward | Props2.v | S1 |
| C18_jacobian_reverse_any_tape | Props2.v | S1 |
| C18_repeated_output_refuted | Props2.v | none |
| C19_jacobian_forward | Props3.v | none |
| C19_jacobian_reverse | Props3.v | none |
| C19_mul_right | Props3.v | none |
| C19_mul_left | Props3.v | none |
| C20_unary_values | Props3.v | S1 |
| C20_binary_values | Props3.v | S1 |
| C20_supported_methods_return | Props3.v | none |
| C20_supported_binary_methods_return | Props3.v | none |
| C20_mul_add | Props3.v | S1 |
| C20_sin_cos | Props3.v | S1 |
| C21_unary_derivatives | Props3.v | S1 |
| C21_binary_derivatives | Props3.v | S1 |
| C21_max_min_increments | Props3.v | S1 |
| C21_abs_increment | Props3.v | S1 |
| C22_abs_sub_value | Props3.v | S1 |
| C22_positive_difference_refuted | Props3.v | S1 |
| C22_binary64_refuted | Props3.v | none |
| C23_max_min_exact | Props3.v | S1 |
| C23_min_rounding_refuted | Props3.v | none |
| C23_min_infinity_refuted | Props3.v | none |
| C24_cast_keeps | Props3.v | none |
| C24_numcast_integral | Props3.v | none |
| C24_to_i64 | Props3.v | S2 |
| C24_to_u64 | Props3.v | S2 |
| C24_numcast_exact | Props3.v | S2 |
| C24_numcast_makes_constants | Props3.v | S2 |
| C24_numcast_refuted | Props3.v | none |
| C24_nested_tape_refuted | Props3.v | none |
| C42_eval_is_composition | Props3.v | none |
| C42_iter_yields_leaves | Props3.v | none |
| C42_len_nth | Props3.v | none |
| C42_dimensions | Props3.v | none |
| C42_append | Props3.v | none |
| C43_adv_fn_dimensions | Props3.v | none |
| C43_reported_dimensions | Props3.v | none |
| C25_abs_normal_form_is_faithful | Props4.v | S1 |
| C25_abs_normal_form_exists | Props4.v | S1 |
| C25_first_order_approximation | Props4.v | S1 |
| C25_exact_for_piecewise_affine | Props4.v | S1 |
| C26_L_strictly_lower_triangular | Props4.v | S1 |
| C27_abs_normal_is_right | Props4.v | S1 |
| C27_returns_with_dimensions | Props4.v | none |
| C27_repeated_abs_refuted | Props4.v | none |
| C28_tape_is_a_matrix | Props4.v | S1 |
| C28_mul_right | Props4.v | S1 |
| C28_mul_left | Props4.v | S1 |
| C28_mul_left_repeated | Props4.v | S1 |
| C28_mul_right_wrong_size | Props4.v | none |
| C28_mul_left_wrong_size | Props4.v | none |
| C28_applies_to_the_subtapes | Props4.v | none |
| C29_row | Props4.v | S1 |
| C29_row_out_of_range | Props4.v | S1 |
| C29_column_refuted | Props4.v | S1 |
| C29_column_single | Props4.v | S1 |
| C36_reverse_sequence_is_reverse_fold | Props5.v | S1 |
| C36_whatever_the_estimate | Props5.v | none |
| C36_too_few_checkpoints | Props5.v | none |
| C37_never_more_than_c_checkpoints | Props5.v | none |
| C38_schedule_well_formed | Props5.v | none |
| C38_tail_is_schedule_of_the_rest | Props5.v | none |
| C38_every_state_when_memory_suffices | Props5.v | none |
| C39_schedule_never_panics | Props5.v | S1 |
| C39_estimate_never_overshoots | Props5.v | S1 |
| C39_find_t | Props5.v | S1 |
| C39_longer_sequences_refuted | Props5.v | none |
| C36_longer_sequences_refuted | Props5.v | none |
| C40_reverse_n_times_identity_once | Props5.v | none |
| C40_no_recomputation | Props5.v | none |
| C40_returns | Props5.v | S1 |
| C41_fewest_forward_calls | Props5.v | S1 |
| C41_fewest_among_all_machines | Props5.v | S1 |
| C41_strategies_suffice | Props5.v | none |
| C41_closed_form | Props5.v | S1 |
| C30_reproduces_the_linearisation | Props6.v | S1 |
| C30_at_the_direction | Props6.v | S1 |
| C30_derivative_when_multiplicity_is_zero | Props6.v | S1 |
| C30_jacobian_without_abs | Props6.v | S1 |
| C30_repeated_abs_refuted | Props6.v | none |
| C31_switching_values_exact | Props6.v | S1 |
| C31_switching_values_continuous | Props6.v | S1 |
| C32_multiplicity_and_signs | Props6.v | S1 |
| C32_every_combination | Props6.v | S2 |
| C32_bits_determine_signs | Props6.v | S2 |
| C33_composition | Props6.v | S1 |
| C34_checkpointing_does_not_matter | Props6.v | S1 |
| C34_chain_linearisation | Props6.v | S1 |
| C34_whatever_the_estimate | Props6.v | S1 |
| C35_one_function_refuted | Props6.v | none |
| C35_longer_chains | Props6.v | S1 |
| C44_freed_memory_is_never_touched | Props7.v | none |
| C44_everything_is_freed | Props7.v | none |
| C44_objects_are_values | Props7.v | none |
| C44_self_copy_refuted | Props7.v | none |
| C45_scalar_left_always_adds | Props7.v | none |
| C45_scalar_left_refuted | Props7.v | none |
| C49_operators_and_functions_agree | Props7.v | none |
| C49_min_max_agree | Props7.v | S1 |
| C49_min_binary64_refuted | Props7.v | none |
| C46_contexts_stay_well_formed | Props8.v | none |
| C46_variables_agree | Props8.v | none |
| C46_recordings_only_grow | Props8.v | none |
| C47_snapshots_are_safe | Props8.v | none |
| C47_sweeps_in_bounds | Props8.v | none |
| C47_snapshot_consistent_refuted | Props8.v | none |
| C48_ids_are_unique | Props8.v | none |
| C48_lookups_are_exact | Props8.v | none |
| C48_lookups_succeed | Props8.v | none |
| C48_registry_entries | Props8.v | none |
| C48_no_entry_survives | Props8.v | none |
| C48_no_deadlock | Props8.v | none |
| C48_locks_are_released | Props8.v | none |
| C48_every_call_can_finish | Props8.v | none |
| C48_calls_are_short | Props8.v | none |
| C48_no_livelock | Props8.v | none |
| C50_ids_are_indices | Props9.v | none |
| C51_panics_freeze | Props9.v | none |
| C51_operation_panics_freeze | Props9.v | none |
| C51_poisoned_contexts_are_frozen | Props9.v | none |
| C51_calls_panic | Props9.v | none |
| C51_operations_panic | Props9.v | none |
| C52_seeds_do_not_matter | Props9.v | none |
| C53_new_indep | Props9.v | none |
| C53_new_indep_vec | Props9.v | none |
| C54_replay_needs_n_plus_s | Props9.v | none |
| C54_outputs | Props9.v | none |
| C54_decomposition | Props9.v | none |
| C54_matrix_tapes_are_read_only | Props9.v | none |
| C55_replaying_is_recording | Props9.v | none |
| C55_other_branch_refuted | Props9.v | none |
| C56_second_derivative | Props10.v | S1 |
| C56_mixed_second_derivatives | Props10.v | S1 |
| C56_stationary_base_refuted | Props10.v | S1 |
| C56_stationary_base_binary64_refuted | Props10.v | none |
| C56_inner_level_is_afloat | Props10.v | none |
| C57_private_thread_as_if_alone | Props11.v | none |
| C57_taping_in_any_thread | Props11.v | none |
| C57_guessed_id_refuted | Props11.v | none |
| C39_estimate_accurate_in_binary64 | Props12.v | S1 |
| C39_schedule_never_panics_in_binary64 | Props12.v | S1 |
| C36_reverse_fold_in_binary64 | Props12.v | S1 |
| C41_fewest_in_binary64 | Props12.v | S1 |
| C34_chain_in_binary64 | Props12.v | S1 |
| C58_values_correctly_rounded | Props13.v | S1 |
| C58_neg_abs_exact | Props13.v | S1 |
| C58_derivatives_of_sums | Props13.v | S1 |
| C58_derivative_of_product | Props13.v | S1 |
| C58_derivative_of_quotient | Props13.v | S1 |
| C23_max_error | Props13.v | S1 |
| C23_min_error | Props13.v | S1 |
| C20_cbrt_of_negative_refuted | Props13.v | S1 |
| C20_hypot_overflow_refuted | Props13.v | S1 |
| C30_closed_form | Props14.v | S1 |
| C30_closed_form_unique | Props14.v | S1 |
| C59_value | Props14.v | S1 |
| C59_abs_normal_form | Props14.v | S1 |
| C59_generalized_jacobian | Props14.v | S1 |
| C59_chain | Props14.v | S1 |
| C59_reference_is_the_active_piece | Props14.v | S1 |
| C60_shortest_paths | Props15.v | S1 |
| C60_value | Props15.v | S1 |
| C60_gradient_refuted | Props15.v | S1 |
| C61_gradient | Props15.v | S1 |
| C62_smooth_functions | Props15.v | none |
| C62_smooth_functions_are_differentiated | Props15.v | S1 |
| C62_tape_size | Props15.v | none |
| C63_linearisation | Props16.v | S1 |
| C63_forward | Props16.v | S1 |
| C63_reverse | Props16.v | S1 |
| C63_jacobian | Props16.v | S1 |
| C64_replay | Props16.v | S1 |
| C64_forward | Props16.v | S1 |
| C64_reverse | Props16.v | S1 |
| C64_gradient | Props16.v | S1 |
| C64_jacobian | Props16.v | S1 |
| C65_rust_panics_iff_contexts_are_mixed | Props17.v | none |
| C65_programs_with_one_context_never_panic | Props17.v | none |
| C66_same_results_binary64 | Props17.v | S1 |
| C66_same_results_recorded | Props17.v | S1 |
| C66_same_results_exact | Props17.v | S1 |
| C66_same_results_exact_recorded | Props17.v | S1 |
| C66_derived_methods_refuted | Props17.v | none |
| C66_sqrt_refuted | Props17.v | none |
| C66_mul_add_refuted | Props17.v | S2 |
| C67_tape_holds_converted_values | Props18.v | none |
| C67_replay_in_two_precisions | Props18.v | none |
| C67_replay_along_recorded_path | Props18.v | none |
| C67_recording_succeeds_iff_run_does | Props18.v | none |
| C67_double_precision_sweeps | Props18.v | none |
| C67_exact_runs_are_reproduced | Props18.v | none |
| C67_replay_at_recording_point_refuted | Props18.v | none |
| C67_single_to_double_exact | Props18.v | S1 |
| C58_single_values_correctly_rounded | Props18.v | S1 |
| C58_single_neg_abs_exact | Props18.v | S1 |
| C58_single_derivatives_of_sums | Props18.v | S1 |
| C68_loop_is_gradient_descent | Props18.v | S1 |
| C68_nan_ends_the_loop | Props18.v | none |
| C68_stalled_iterations | Props18.v | none |
| C68_ends_at_small_gradient_refuted | Props18.v | none |
| C69_values | Props19.v | none |
| C69_outputs | Props19.v | none |
| C69_one_value | Props19.v | none |
| C70_multiplicity_at_most_one | Props20.v | S1 |
| C70_signs_that_occur | Props20.v | S1 |
| C70_any_signs_refuted | Props20.v | S1 |
| C51_panics_freeze_for_all_threads | Props21.v | none |
| C51_operation_panics_of_all_threads | Props21.v | none |
| C51_frozen_for_all_threads | Props21.v | none |
| C51_calls_of_all_threads_panic | Props21.v | none |
| C51_operations_of_all_threads | Props21.v | none |
| C71_vector_max | Props22.v | S1 |
| C71_vector_max_tape | Props22.v | none |
| C71_chain_of_sums | Props22.v | S1 |
| C71_extra_arguments | Props22.v | none |
| C71_dimension_expressions | Props22.v | none |
| C71_all_arithmetic | Props22.v | S1 |
| C71_unary_functions | Props22.v | S1 |
| C71_polar_forward | Props22.v | S1 |
| C71_polar_reverse | Props22.v | S1 |
| C71_abs_plus | Props22.v | S1 |
| C71_abs_decompose | Props22.v | none |
| C71_record | Props22.v | none |
| C71_schedule_consistency | Props22.v | none |
| C71_gauss_sum | Props22.v | S1 |
| C72_jacobian_forward | Props23.v | none |
| C72_jacobian_reverse | Props23.v | none |
| C72_generalized_jacobian | Props23.v | none |
| C72_generalized_jacobian_sizes | Props23.v | none |
| C72_chain | Props23.v | S1 |
| C73_tapes | Props24.v | none |
| C73_generalized_jacobian | Props24.v | S1 |
| C73_abs_normal | Props24.v | S1 |
| C73_chain | Props24.v | S1 |
| C74_selected_branches | Props24.v | S1 |
| C74_zero_direction | Props24.v | S1 |
| C74_max | Props24.v | S1 |
| C74_min | Props24.v | S1 |
| C74_chain | Props24.v | S1 |
| C74_repeated_outputs | Props24.v | S1 |
| C75_half_the_derivative | Props25.v | S1 |
| C75_half_the_partial_derivatives | Props25.v | S1 |
| C75_example | Props25.v | S1 |
| C76_closures_never_panic | Props26.v | S1 |
| C76_output | Props26.v | S1 |
| C76_stuck | Props26.v | S1 |
| C76_nan_ends_loop | Props26.v | none |
| C76_example | Props26.v | S1 |
| C77_unary_values | Props27.v | none |
| C77_binary_values | Props27.v | none |
| C77_nop | Props27.v | none |
| C77_constant | Props27.v | none |
| C77_unary_tangent | Props27.v | S1 |
| C77_binary_tangent | Props27.v | S1 |
| C77_unary_adjoint | Props27.v | S1 |
| C77_binary_adjoint | Props27.v | S1 |
| C77_abs | Props27.v | S1 |
| C77_example | Props27.v | S1 |
| C78_function | Props28.v | S1 |
| C78_chain | Props28.v | S1 |
| C78_chain_is_composition | Props28.v | S1 |
| C78_same_multiplicity_refuted | Props28.v | S1 |
| C78_chain_limiting | Props28.v | S1 |
| C79_quadratic_error | Props29.v | S1 |
| C79_models_at_two_points | Props29.v | S1 |
| C79_derivatives_lipschitz | Props29.v | S1 |
| C79_increments_refuted | Props29.v | S1 |
| C80_values | Props30.v | S1 |
| C80_propagate_value | Props30.v | S1 |
| C80_sizes | Props30.v | none |
| C80_products_return | Props30.v | none |
| C80_products | Props30.v | S1 |
| C80_generalized_jacobian | Props30.v | S1 |
| C80_generalized_jacobian_chain | Props30.v | S1 |
| C81_abs_normal | Props31.v | S1 |
| C81_switching_values | Props31.v | S1 |
| C81_generalized_jacobian | Props31.v | S1 |
| C81_piece | Props31.v | S1 |
| C81_function | Props31.v | S1 |
| C81_early_exit | Props31.v | none |
| C82_second_differences | Props32.v | S1 |
| C82_kink_within_step_refuted | Props32.v | S1 |
| C82_kink_within_step_binary64_refuted | Props32.v | none |
| C83_same_tape | Props33.v | none |
| C83_evaluates_everywhere | Props33.v | none |
| C83_every_program | Props33.v | none |
| C84_values | Props34.v | none |
| C84_directional | Props34.v | none |
| C84_adjoint | Props34.v | none |
| C84_forward_zeros | Props34.v | S1 |
| C84_reverse_zeros | Props34.v | S1 |
| C84_binary64_zeros_refuted | Props34.v | none |
| C85_values | Props34.v | none |
| C85_powf_refuted | Props34.v | none |
| C85_directional | Props34.v | none |
| C85_adjoint | Props34.v | none |
| C86_tapes | Props35.v | S1 |
| C86_error | Props35.v | S1 |
| C86_chain | Props35.v | S1 |
| C86_piece | Props35.v | S1 |
| C87_instance | Props36.v | none |
| C87_orders | Props36.v | none |
| C87_exact | Props36.v | S1 |
| C87_exact_chain | Props36.v | S1 |
| C87_abs_normal | Props36.v | none |
| C87_homogeneous | Props36.v | none |
| C87_homogeneous_chain | Props36.v | S1 |
| C87_abs_normal_error | Props36.v | S1 |
| C87_error | Props36.v | S1 |
| C87_chain_error | Props36.v | S1 |
| C88_degrees | Props37.v | S1 |
| C88_radians | Props37.v | S1 |
| C88_return | Props37.v | none |
| C88_jacobians | Props37.v | S1 |
| C88_degrees_error | Props37.v | S1 |
| C88_radians_error | Props37.v | S1 |
| C88_no_overflow_refuted | Props37.v | S1 |
| C88_epsilon_refuted | Props37.v | S2 |
| C89_contexts_stay_well_formed | Props38.v | none |
| C89_variables_in_range | Props38.v | none |
| C89_recordings_only_grow | Props38.v | none |
| C89_snapshots_are_safe | Props38.v | none |
| C89_sweeps_in_bounds | Props38.v | none |
| C89_ids_are_unique | Props38.v | none |
| C89_lookups_are_exact | Props38.v | none |
| C89_lookups_succeed | Props38.v | none |
| C89_registry_entries | Props38.v | none |
| C89_no_entry_survives | Props38.v | none |
| C89_no_deadlock | Props38.v | none |
| C89_locks_are_released | Props38.v | none |
| C89_every_call_can_finish | Props38.v | none |
| C89_calls_are_short | Props38.v | none |
| C89_no_livelock | Props38.v | none |
| C89_values_agree_refuted | Props38.v | none |
| C90_recordings_only_grow | Props39.v | none |
| C90_snapshots | Props39.v | none |
| C90_ids_are_unique | Props39.v | none |
| C90_lookups_are_exact | Props39.v | none |
| C90_lookups_succeed | Props39.v | none |
| C90_registry_entries | Props39.v | none |
| C90_no_entry_survives | Props39.v | none |
| C90_no_deadlock | Props39.v | none |
| C90_locks_are_released | Props39.v | none |
| C90_every_call_can_finish | Props39.v | none |
| C90_calls_are_short | Props39.v | none |
| C90_no_livelock | Props39.v | none |
| C90_snapshots_are_safe_refuted | Props39.v | none |
| C91_mixed_derivatives | Props40.v | S1 |
| C91_derivatives_of_one_input | Props40.v | S1 |
| C91_entire_functions | Props40.v | S1 |
| C91_third_derivative_of_tan_refuted | Props40.v | S1 |
| C91_third_derivative_of_a_square_refuted | Props40.v | none |
| C91_depths_one_and_two | Props40.v | none |
| C91_levels_are_afloats | Props40.v | none |
| C92_recording | Props41.v | none |
| C92_recording_adoubles | Props41.v | none |
| C92_tapeless_is_nested | Props41.v | none |
| C92_sweeps | Props41.v | S1 |
| C92_hessian_vector | Props41.v | S1 |
| C92_gradient_too | Props41.v | S1 |
| C92_stationary_base_refuted | Props41.v | S1 |
| C93_parts_can_be_recorded | Props42.v | none |
| C93_forward | Props42.v | S1 |
| C93_forward_any_arithmetic | Props42.v | none |
| C93_reverse | Props42.v | S1 |
| C93_jacobians_multiply | Props42.v | S1 |
| C93_repeated_output_refuted | Props42.v | S1 |
| C93_abs_refuted | Props42.v | S1 |
| C94_symmetric | Props43.v | S1 |
| C94_hessian_vector_products | Props43.v | S1 |
| C94_stationary_base_refuted | Props43.v | S1 |
| C95_quadratic_model | Props44.v | S1 |
| C95_minimum_along_a_line | Props44.v | S1 |
| C96_instances | Props45.v | none |
| C96_exact | Props45.v | S1 |
| C96_exact_chain | Props45.v | S1 |
| C96_abs_normal | Props45.v | none |
| C96_homogeneous | Props45.v | none |
| C96_homogeneous_chain | Props45.v | S1 |
| C96_fused | Props45.v | S1 |
| C96_abs_normal_error | Props45.v | S1 |
| C96_error | Props45.v | S1 |
| C96_chain_error | Props45.v | S1 |
| C97_scoped_programs | Props46.v | none |
| C97_plain_programs | Props46.v | none |
| C97_one_context | Props46.v | none |
| C97_cxx_tests | Props46.v | none |
| C97_min_max | Props46.v | none |
| C97_min_max_value | Props46.v | S1 |
| C97_min_max_nan | Props46.v | none |
| C98_same_run | Props47.v | none |
| C98_never_touches_freed | Props47.v | none |
| C98_cells_not_shared | Props47.v | none |
| C98_no_leak | Props47.v | none |
| C98_allocators | Props47.v | none |
| C99_queries | Props48.v | none |
| C99_constants | Props48.v | none |
| C99_parse | Props48.v | none |
| C99_decode_exact | Props48.v | S2 |
| C99_decode_injective | Props48.v | none |
| C99_classify | Props48.v | S2 |
| C99_predicates | Props48.v | S1 |
| C99_extreme_values | Props48.v | S1 |
| C99_search_from_extreme_refuted | Props48.v | S1 |
| C99_search_from_infinity_refuted | Props48.v | S2 |
| C100_ids | Props49.v | none |
| C100_before_overflow | Props49.v | none |
| C100_unbounded_model | Props49.v | none |
| C100_lookup_sound | Props49.v | none |
| C100_unique_refuted | Props49.v | none |
| C101_executes | Props50.v | none |
| C101_records | Props50.v | none |
| C101_replays | Props50.v | none |
| C101_unconditional | Props50.v | none |
| C101_other_decisions_refuted | Props50.v | none |
| C101_derivative | Props51.v | S1 |
| C101_jacobians | Props51.v | S1 |
| C102_replaying_is_recording_iff | Props52.v | none |
| C102_replay | Props52.v | none |
| C102_forward_is_derivative | Props52.v | S1 |
| C102_tapeless_is_derivative | Props52.v | S1 |
| C102_piecewise_linearisation | Props52.v | S1 |
| C102_jacobians | Props52.v | S1 |
| C102_piecewise_affine_exact | Props52.v | S1 |
| C102_abs_normal | Props52.v | S1 |
| C102_covers_same_branches | Props52.v | S1 |
| C101_chain_executes | Props53.v | none |
| C101_chain_evaluates | Props53.v | none |
| C101_chain_records | Props53.v | none |
| C101_chain_replays | Props53.v | none |
| C101_chain_derivative | Props53.v | S1 |
| C101_chain_jacobians | Props53.v | S1 |
| C102_quadratic_error | Props54.v | S1 |
| C102_models_at_two_points | Props54.v | S1 |
| C102_derivatives_lipschitz | Props54.v | S1 |
| C102_mixed_derivatives | Props55.v | S1 |
| C102_derivatives_of_one_input | Props55.v | S1 |
| C102_second_derivatives | Props56.v | S1 |
| C102_quadratic_model | Props56.v | S1 |
| C102_minimum_along_a_line | Props56.v | S1 |
| C102_hessian_vector | Props56.v | S1 |
| C102_second_differences | Props56.v | S1 |
| C102_abs_normal_exact | Props56.v | S1 |
| C103_stable_decisions | Props57.v | S1 |
| C103_comparisons | Props57.v | S1 |
| C103_derivative | Props57.v | S1 |
| C103_jacobians | Props57.v | S1 |
| C103_tie_refuted | Props57.v | S1 |
| C103_chain_stable_decisions | Props58.v | S1 |
| C103_chain_derivative | Props58.v | S1 |
| C103_chain_jacobians | Props58.v | S1 |
