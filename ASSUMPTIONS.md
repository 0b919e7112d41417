# Axioms used, per theorem

Output of `Print Assumptions` (tools/gen_assumptions.py). All the axioms belong to the standard library of Coq.

## No axiom (closed under the global context)

`C17_widening_returns`, `C22_matpos_bijection`, `C38_add_invert`, `C39_compose_acts`, `C39_group`, `C39_invert_acts`, `C40_get`, `C40_map`, `C40_set`, `C41_compare_antisymmetric_refuted`, `C41_equal_hole_refuted`, `C41_hash_keeps_values`, `C41_hash_modifies_refuted`, `C41_hash_refuted`, `C42_permute_dimensions_refuted`, `C42_tree_roundtrip`, `C43_dimlist`, `C43_dims`, `C44_add`, `C44_check`, `C44_compare`, `C44_dim_of_var`, `C44_is_eq`, `C44_is_leq`, `C44_lce_array`, `C44_lce`, `C44_remove_absent`, `C44_remove_partial`, `C44_remove_twice_null_refuted`, `C44_remove_twice_refuted`, `C45_add_perm`, `C45_dimchange2`, `C45_dimchange_bounds_refuted`, `C45_dimchange_refuted`, `C45_dimchange`, `C45_lce`, `C45_rename`, `C47_abstracts`, `C47_add_partial`, `C47_add_refuted`, `C47_dims`, `C47_fold_exc_refuted`, `C47_fold`, `C47_linexpr_array_partial`, `C47_linexpr_partial`, `C47_linexpr_refuted`, `C47_perm_partial`, `C47_perm_refuted`, `C47_remove_partial`, `C47_remove_refuted`, `C47_texpr`, `C48_interval_cmp_empty_refuted`, `C48_interval_cmp_partial`, `C48_scalar_hash_refuted`, `C50_join_array_sound`, `C50_meet_array_sound`, `C51_assign`, `C51_bottom`, `C51_constant_flag`, `C51_dimension`, `C51_expand`, `C51_is_bottom`, `C51_is_dimension_unconstrained`, `C51_is_eq`, `C51_is_leq`, `C51_is_top_iff`, `C51_is_top`, `C51_join_array`, `C51_join`, `C51_meet_array`, `C51_meet_constraints`, `C51_meet_exact`, `C51_meet`, `C51_of_box`, `C51_operation_exact`, `C51_operation_flag`, `C51_operation`, `C51_sat`, `C51_to_constraints`, `C51_top`, `C51_unary`, `C51_widening`, `C57_add_sorted_partial`, `C59_linearisation_returns_partial`, `C59_modulo_zero_refuted`, `C60_array_type`, `C60_arrays`, `C60_is_real`, `C60_lincons_array_type_refuted`, `C60_type`, `C62_array`, `C62_classes_refuted`, `C78_honest_constraints`, `C78_honest_top_bottom`, `C89_approximate_disabled`, `C89_approximate_fits`, `C91_constants`, `C91_is_bottom`, `C91_join_array`, `C91_join`, `C91_lifted_exact`, `C91_lifted_sound`, `C91_meet_bottom`, `C91_meet`, `C91_minimize_irredundant`, `C91_minimize`, `C91_sat`, `C91_to_lincons`, `C92_extend_bounds_refuted`, `C92_get`, `C92_set`, `C93_box_equal`, `C93_box_five_intervals`, `C93_box_terminates`, `C93_polyhedra_terminates`

## `ClassicalDedekindReals.sig_forall_dec`

`C68_bottom`

## `ClassicalDedekindReals.sig_forall_dec`, `ClassicalDedekindReals.sig_not_dec`, `Classical_Prop.classic`, `FunctionalExtensionality.functional_extensionality_dep`

`C14_float_refuted`, `C86_assign_texpr_partial`, `C86_substitute_texpr_partial`, `C87_assign_texpr`, `C87_bound_texpr`, `C87_meet_tcons`, `C87_sat_tcons_partial`, `C87_substitute_texpr`, `C92_substitute`

## `ClassicalDedekindReals.sig_forall_dec`, `ClassicalDedekindReals.sig_not_dec`, `FunctionalExtensionality.functional_extensionality_dep`

`C03_itv_unary_sound`, `C11_eval`, `C11_eval_pow_partial`, `C11_pow_refuted`, `C12_interval_linear`, `C12_intlinear_array_refuted`, `C12_pow_partial`, `C12_pow_refuted`, `C12_tcons_array`, `C12_tcons_array_any_partial`, `C12_tcons_meet`, `C12_tcons_test`, `C12_texpr`, `C12_texpr0`, `C14_hc4_sound_partial`, `C14_int_nearest_refuted`, `C14_int_zero_refuted`, `C14_linear_sound_partial`, `C14_odd_root_refuted`, `C14_pow_rounding_refuted`, `C19_assign_texpr_sound_partial`, `C19_substitute_texpr_hc4`, `C19_substitute_texpr_linear`, `C20_bound_texpr_sound`, `C20_sat_tcons_sound`, `C42_tree_add`, `C42_tree_permute`, `C42_tree_remove`, `C43_depends`, `C43_equal`, `C43_from_linexpr`, `C43_substitute`, `C43_substitute_interval_refuted`, `C50_assign_tree`, `C50_exact_flag_tree`, `C50_substitute_tree`, `C62_linear`, `C62_polyfrac`, `C62_polynomial`, `C62_scalar`, `C86_bound_texpr`, `C86_meet_tcons`, `C86_sat_equality_refuted`, `C86_sat_tcons`, `C87_sat_disequality_refuted`, `C92_equal`, `C92_extend_tree`, `C92_has_var`, `C92_node`, `C92_of_linexpr`, `C92_unop`, `C92_var`

## `ClassicalDedekindReals.sig_forall_dec`, `Classical_Prop.classic`, `FunctionalExtensionality.functional_extensionality_dep`

`C31_meet_lincons_sound`, `C31_meet_octagonal_exact`, `C32_assign_array_sound`, `C32_assign_bounded_sound_partial`, `C32_assign_unary_exact_partial`, `C32_assign_unary_sound_partial`, `C34_sat_bound_linexpr_sound`, `C34_sat_bound_octagonal_exact`, `C46_complete_partial`, `C51_box_polyhedra_join`, `C51_box_polyhedra_meet`, `C69_meet_destructive`, `C69_meet`, `C70_join_least`, `C70_join`, `C71_assign_array`, `C71_assign_destructive_partial`, `C71_assign`, `C71_substitute_array`, `C71_substitute`, `C74_widening_stable`, `C74_widening_terminates`, `C76_join_array_least`, `C76_join_array_partial`, `C76_meet_array`, `C78_built`, `C78_canonical_built`, `C78_canonical_form`, `C78_honest_join`, `C78_honest_meet`, `C78_is_eq_built`, `C78_is_eq_sound`, `C78_is_eq`, `C78_unconstrained_built`, `C80_change_environment_refused`, `C80_change_environment`, `C80_minimize_environment`, `C81_join`, `C81_meet`, `C81_refused`, `C81_unify`, `C82_forget_refused`, `C82_forget`, `C82_rename`, `C83_expand_refused`, `C83_expand`, `C83_fold`, `C84_assign_poly`, `C84_meet_lincons_oct`, `C84_substitute_poly`, `C85_assign_linear`, `C85_assign_sound_partial`, `C85_substitute_linear`, `C85_substitute_sound_partial`, `C90_add_rays`, `C90_affine_hull`, `C90_assign_linear`, `C90_assign_sound`, `C90_expand`, `C90_fold`, `C90_forget`, `C90_is_eq`, `C90_join`, `C90_meet_lincons`, `C90_meet`, `C90_remove_dimensions`, `C90_substitute_linear`, `C90_widening`, `C93_polyhedra_equal`, `C93_polyhedra_points`

## `ClassicalDedekindReals.sig_forall_dec`, `FunctionalExtensionality.functional_extensionality_dep`

`C01_itv_arith_sound`, `C01_itv_scale_sound`, `C02_itv_arith_best`, `C04_itv_pow_refuted`, `C04_itv_pow_sound_partial`, `C05_itv_lattice`, `C06_itv_widening`, `C07_add_exact`, `C07_conversion_exact`, `C07_conversion_sound`, `C07_eval_exact`, `C07_eval_sound`, `C07_operations_sound`, `C08_false_is_found`, `C08_false_is_right`, `C08_true_is_right`, `C09_every_policy_sound`, `C09_quasilinearize_sound`, `C09_result_is_quasilinear`, `C09_scalar_exact`, `C10_meet_exact`, `C10_meet_keeps_solutions_partial`, `C10_meet_rounding_refuted`, `C10_test_equality_refuted`, `C10_test_sound_partial`, `C13_meet_lincons_reductive`, `C13_meet_lincons_refuted`, `C13_meet_lincons_sound_partial`, `C14_reductive`, `C15_empty_coefficient_refuted`, `C15_is_bottom_iff`, `C15_is_eq_iff`, `C15_is_leq_iff`, `C15_is_top_iff`, `C15_is_unconstrained_iff`, `C16_join_array_best`, `C16_join_best`, `C16_meet_array_exact`, `C16_meet_exact`, `C17_widening_stabilises`, `C17_widening_upper`, `C18_add_dimensions_exact`, `C18_expand_exact`, `C18_fold_best`, `C18_forget_exact`, `C18_permute_dimensions_exact`, `C18_remove_dimensions_exact`, `C19_assign_best`, `C19_assign_sound_partial`, `C19_assign_texpr_empty_dest_refuted`, `C19_empty_dest_refuted`, `C19_substitute_sound_partial`, `C20_add_rays_best`, `C20_bound_dimension_exact`, `C20_bound_linexpr_exact`, `C20_bound_linexpr_sound`, `C20_of_box_sound`, `C20_sat_interval_iff`, `C20_sat_lincons_complete`, `C20_sat_lincons_sound`, `C20_to_lincons_exact`, `C21_generators_exact_partial`, `C21_generators_incomplete_refuted`, `C21_generators_refuted`, `C23_closure_decides_empty`, `C23_closure_sound`, `C24_closure_tight`, `C25_incremental_equals_full`, `C25_incremental_sound`, `C26_predicates_exact`, `C26_predicates_sound`, `C27_join_array_best`, `C27_join_best`, `C27_join_sound`, `C27_meet_array_exact`, `C27_meet_exact`, `C28_widening_sound`, `C28_widening_terminates`, `C29_forget_exact`, `C29_forget_sound`, `C30_add_dimensions_exact`, `C30_permute_dimensions_exact`, `C30_remove_dimensions_exact`, `C30_remove_dimensions_sound`, `C31_meet_exact_flag`, `C31_meet_lincons_below`, `C32_assign_array_wellformed`, `C32_assign_refuted`, `C33_substitute_array_sound`, `C33_substitute_sound`, `C33_substitute_unary_exact`, `C34_bound_dimension_exact`, `C34_bound_dimension_sound`, `C35_to_lincons_exact`, `C35_to_lincons_sound`, `C36_of_box_exact`, `C36_of_box_sound`, `C36_to_box_smallest`, `C36_to_box_sound`, `C37_expand_exact`, `C37_fold_best`, `C37_fold_sound`, `C38_box_roundtrip`, `C41_compare_zero_partial`, `C41_equal_partial`, `C42_add_dimensions_partial`, `C42_add_dimensions_refuted`, `C42_permute_dimensions_partial`, `C46_diseq_refuted`, `C46_is_sat_partial`, `C46_is_unsat_eqmod_refuted`, `C46_is_unsat_partial`, `C46_make_unsat`, `C48_coeff_equal_int_refuted`, `C48_coeff_zero`, `C48_interval_sets`, `C48_scalar_order`, `C49_box_sound`, `C49_threshold_exact`, `C49_threshold_sound`, `C50_assign_refuted`, `C50_assign_sound_partial`, `C50_exact_flag`, `C50_substitute_sound_partial`, `C51_bound`, `C51_flag_exact_refuted`, `C51_forget_flag_refuted`, `C51_is_bottom_refuted`, `C51_is_leq_refuted`, `C51_to_box`, `C52_narrowing_between`, `C52_narrowing_terminates`, `C53_widening_thresholds_sound`, `C53_widening_thresholds_terminates`, `C54_add_epsilon_sound`, `C55_built_exact`, `C55_built_sound`, `C56_meet_strict_integer_refuted`, `C57_terms_sorted_refuted`, `C58_array_sound`, `C58_equality_refuted`, `C58_integer_strengthening_exact`, `C58_integer_strengthening_sound`, `C60_linear_value`, `C63_conversion_exact`, `C63_conversion_incremental_exact`, `C64_rays_irredundant`, `C65_normalize`, `C66_add_and_minimize_exact`, `C66_minimize_exact`, `C67_constraints_irredundant`, `C68_chernikova`, `C68_is_bottom`, `C68_is_leq`, `C68_is_top`, `C68_representations_agree`, `C68_top`, `C69_constraints_wf`, `C69_meet_destructive_refuted`, `C69_meet_same`, `C70_join_same`, `C71_assign_destructive_refuted`, `C71_substitute_refuted`, `C72_add_rays`, `C72_flag_exact`, `C72_integer_equality_refuted`, `C72_meet_lincons`, `C72_meet_lincons_exact`, `C72_of_box`, `C72_of_box_exact`, `C72_of_box_refuted`, `C72_strict_exact_refuted`, `C73_add_dimensions`, `C73_add_then_remove`, `C73_expand`, `C73_fold`, `C73_fold_exact_refuted`, `C73_forget`, `C73_permute_dimensions`, `C73_remove_dimensions`, `C74_widening_sound`, `C75_bound_dimension`, `C75_bound_linexpr`, `C75_to_box`, `C76_join_array_aliases_refuted`, `C77_sat_interval`, `C77_sat_lincons`, `C77_sat_lincons_complete`, `C77_sat_lincons_refuted`, `C77_sat_strict_refuted`, `C78_honest_canonical`, `C78_unconstrained`, `C79_to_generators`, `C79_to_lincons`, `C80_change_environment_oct`, `C80_change_environment_oct_refused`, `C80_minimize_environment_oct`, `C81_join_oct`, `C81_meet_oct`, `C81_oct_refused`, `C81_unify_oct`, `C82_forget_oct`, `C82_rename_oct`, `C83_expand_oct`, `C83_fold_mixed_refuted`, `C83_fold_oct`, `C84_assign_box_sound`, `C84_meet_lincons_box_sound`, `C84_meet_lincons_poly`, `C84_meet_lincons_poly_sound`, `C84_not_included_refuted`, `C84_substitute_box_sound`, `C84_substitute_oct`, `C88_add_generators_best`, `C88_add_generators_sound`, `C88_add_to_empty`, `C88_of_generators_best`, `C88_of_generators_no_vertex`, `C88_of_generators_sound`, `C88_wellformed`, `C89_approximate_bounds`, `C89_approximate_integer`, `C89_approximate_octagonal_refuted`, `C89_approximate_small`, `C89_approximate_sound`, `C90_assign_coefficients_refuted`, `C90_of_box`, `C90_substitute_array_refuted`, `C90_top_bottom`, `C91_bound_refuted`, `C91_bound_sound`, `C91_boxes`, `C91_boxes_forget`, `C91_is_bottom_refuted`, `C91_is_leq_refuted`, `C91_join_array_refuted`, `C91_meet_refuted`, `C91_to_box_best`, `C91_to_box_refuted`, `C91_to_box_sound`, `C92_extend_array`, `C92_extend_lincons`, `C92_extend_linexpr`, `C92_extend_refuted`, `C92_extend_short_refuted`, `C92_values`, `C93_box_points`, `C93_oct_dimension_only`, `C93_oct_equal`, `C93_oct_points`
