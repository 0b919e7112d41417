{
 "claims": [
  {
   "property": "C01",
   "status": "proved",
   "theorems": [
    "C01_itv_arith_sound",
    "C01_itv_scale_sound"
   ],
   "note": ""
  },
  {
   "property": "C02",
   "status": "proved",
   "theorems": [
    "C02_itv_arith_best"
   ],
   "note": ""
  },
  {
   "property": "C03",
   "status": "proved",
   "theorems": [
    "C03_itv_unary_sound"
   ],
   "note": ""
  },
  {
   "property": "C04",
   "status": "partial",
   "theorems": [
    "C04_itv_pow_sound_partial",
    "C04_itv_pow_refuted"
   ],
   "note": "sound when the exponent is even or the base is bounded below (C04_itv_pow_sound_partial); false for an odd power of an interval unbounded below (C04_itv_pow_refuted)"
  },
  {
   "property": "C05",
   "status": "proved",
   "theorems": [
    "C05_itv_lattice"
   ],
   "note": ""
  },
  {
   "property": "C06",
   "status": "proved",
   "theorems": [
    "C06_itv_widening"
   ],
   "note": "at most three changing steps: one from the empty interval, one per bound"
  },
  {
   "property": "C07",
   "status": "proved",
   "theorems": [
    "C07_operations_sound",
    "C07_add_exact",
    "C07_conversion_sound",
    "C07_conversion_exact",
    "C07_eval_sound",
    "C07_eval_exact"
   ],
   "note": ""
  },
  {
   "property": "C08",
   "status": "proved",
   "theorems": [
    "C08_false_is_right",
    "C08_true_is_right",
    "C08_false_is_found"
   ],
   "note": ""
  },
  {
   "property": "C09",
   "status": "proved",
   "theorems": [
    "C09_quasilinearize_sound",
    "C09_every_policy_sound",
    "C09_result_is_quasilinear",
    "C09_scalar_exact"
   ],
   "note": ""
  },
  {
   "property": "C10",
   "status": "partial",
   "theorems": [
    "C10_meet_keeps_solutions_partial",
    "C10_meet_exact",
    "C10_test_sound_partial",
    "C10_test_equality_refuted",
    "C10_meet_rounding_refuted"
   ],
   "note": "meet mode keeps every solution for inequalities, and for equalities with exact numbers; false for equalities with rounded numbers (C10_meet_rounding_refuted) and, in test mode, for interval equalities (C10_test_equality_refuted), since the equality flag of the constant goes stale"
  },
  {
   "property": "C11",
   "status": "partial",
   "theorems": [
    "C11_eval",
    "C11_eval_pow_partial",
    "C11_pow_refuted"
   ],
   "note": "proved without powers, and with powers whose base is bounded below or whose exponent is even; false for an odd power of an interval unbounded below (C11_pow_refuted)"
  },
  {
   "property": "C12",
   "status": "partial",
   "theorems": [
    "C12_texpr",
    "C12_texpr0",
    "C12_interval_linear",
    "C12_tcons_meet",
    "C12_tcons_test",
    "C12_tcons_array",
    "C12_tcons_array_any_partial",
    "C12_pow_partial",
    "C12_pow_refuted",
    "C12_intlinear_array_refuted"
   ],
   "note": "proved without powers; arrays with boxing for rational numbers; the rounding of a power is forgotten (C12_pow_refuted); the array function for interval linear trees turns x*x>=0 into false (C12_intlinear_array_refuted)"
  },
  {
   "property": "C13",
   "status": "partial",
   "theorems": [
    "C13_meet_lincons_sound_partial",
    "C13_meet_lincons_reductive",
    "C13_meet_lincons_refuted"
   ],
   "note": "linear constraints with scalar coefficients of the number type, or exact arithmetic; false for interval coefficients with rounding (C13_meet_lincons_refuted)"
  },
  {
   "property": "C14",
   "status": "partial",
   "theorems": [
    "C14_hc4_sound_partial",
    "C14_linear_sound_partial",
    "C14_reductive",
    "C14_int_nearest_refuted",
    "C14_int_zero_refuted",
    "C14_float_refuted",
    "C14_pow_rounding_refuted",
    "C14_odd_root_refuted"
   ],
   "note": "HC4: proved for exact arithmetic nodes, rounding to integers up or down, even constant powers (any number type, any number of constraints and rounds). Solutions are lost for: rounding to the nearest integer, truncation, conversions to float types, rounded powers, odd powers of negative numbers (refuted theorems). Linearisation method: proved for rational bounds without powers. Both only remove points (C14_reductive)."
  },
  {
   "property": "C15",
   "status": "partial",
   "theorems": [
    "C15_is_bottom_iff",
    "C15_is_top_iff",
    "C15_is_leq_iff",
    "C15_is_eq_iff",
    "C15_is_unconstrained_iff",
    "C15_empty_coefficient_refuted"
   ],
   "note": "proved for every box built by the operations when expressions are defined everywhere; an empty interval coefficient makes an empty box that is not recognised (C15_empty_coefficient_refuted)"
  },
  {
   "property": "C16",
   "status": "proved",
   "theorems": [
    "C16_meet_exact",
    "C16_meet_array_exact",
    "C16_join_best",
    "C16_join_array_best"
   ],
   "note": ""
  },
  {
   "property": "C17",
   "status": "proved",
   "theorems": [
    "C17_widening_upper",
    "C17_widening_returns",
    "C17_widening_stabilises"
   ],
   "note": "the widening returns unless the first argument is non-empty and the second is empty (an assertion fails)"
  },
  {
   "property": "C18",
   "status": "proved",
   "theorems": [
    "C18_add_dimensions_exact",
    "C18_remove_dimensions_exact",
    "C18_permute_dimensions_exact",
    "C18_forget_exact",
    "C18_expand_exact",
    "C18_fold_best"
   ],
   "note": ""
  },
  {
   "property": "C19",
   "status": "partial",
   "theorems": [
    "C19_assign_sound_partial",
    "C19_assign_best",
    "C19_empty_dest_refuted",
    "C19_assign_texpr_sound_partial",
    "C19_assign_texpr_empty_dest_refuted",
    "C19_substitute_sound_partial",
    "C19_substitute_texpr_hc4",
    "C19_substitute_texpr_linear"
   ],
   "note": "linear assignment: sound for any number type, best for exact numbers and scalar coefficients; an empty dest is ignored (C19_empty_dest_refuted). Linear substitution: sound for scalar coefficients of the number type or exact arithmetic. Tree assignment: sound without powers. Tree substitution: sound without powers in exact arithmetic (algorithm < 100), and for any number type on the trees of C14 (algorithm >= 100), for calls which return."
  },
  {
   "property": "C20",
   "status": "proved",
   "theorems": [
    "C20_bound_dimension_exact",
    "C20_bound_linexpr_sound",
    "C20_bound_linexpr_exact",
    "C20_sat_interval_iff",
    "C20_sat_lincons_sound",
    "C20_sat_lincons_complete",
    "C20_to_lincons_exact",
    "C20_of_box_sound",
    "C20_add_rays_best",
    "C20_bound_texpr_sound",
    "C20_sat_tcons_sound"
   ],
   "note": ""
  },
  {
   "property": "C21",
   "status": "partial",
   "theorems": [
    "C21_generators_exact_partial",
    "C21_generators_refuted",
    "C21_generators_incomplete_refuted"
   ],
   "note": "exact when each dimension is bounded on both sides or on none; false for half-bounded dimensions (C21_generators_refuted, C21_generators_incomplete_refuted)"
  },
  {
   "property": "C22",
   "status": "proved",
   "theorems": [
    "C22_matpos_bijection"
   ],
   "note": ""
  },
  {
   "property": "C23",
   "status": "proved",
   "theorems": [
    "C23_closure_sound",
    "C23_closure_decides_empty"
   ],
   "note": ""
  },
  {
   "property": "C24",
   "status": "proved",
   "theorems": [
    "C24_closure_tight"
   ],
   "note": ""
  },
  {
   "property": "C25",
   "status": "proved",
   "theorems": [
    "C25_incremental_sound",
    "C25_incremental_equals_full"
   ],
   "note": ""
  },
  {
   "property": "C26",
   "status": "proved",
   "theorems": [
    "C26_predicates_sound",
    "C26_predicates_exact"
   ],
   "note": ""
  },
  {
   "property": "C27",
   "status": "proved",
   "theorems": [
    "C27_meet_exact",
    "C27_meet_array_exact",
    "C27_join_sound",
    "C27_join_best",
    "C27_join_array_best"
   ],
   "note": ""
  },
  {
   "property": "C28",
   "status": "proved",
   "theorems": [
    "C28_widening_sound",
    "C28_widening_terminates"
   ],
   "note": "at most 1 + 2n(n+1) changing steps, even if the iterate is closed between steps"
  },
  {
   "property": "C29",
   "status": "proved",
   "theorems": [
    "C29_forget_sound",
    "C29_forget_exact"
   ],
   "note": ""
  },
  {
   "property": "C30",
   "status": "proved",
   "theorems": [
    "C30_add_dimensions_exact",
    "C30_remove_dimensions_sound",
    "C30_remove_dimensions_exact",
    "C30_permute_dimensions_exact"
   ],
   "note": ""
  },
  {
   "property": "C31",
   "status": "proved",
   "theorems": [
    "C31_meet_lincons_sound",
    "C31_meet_octagonal_exact",
    "C31_meet_exact_flag",
    "C31_meet_lincons_below"
   ],
   "note": ""
  },
  {
   "property": "C32",
   "status": "partial",
   "theorems": [
    "C32_assign_array_sound",
    "C32_assign_array_wellformed",
    "C32_assign_refuted",
    "C32_assign_unary_sound_partial",
    "C32_assign_unary_exact_partial",
    "C32_assign_bounded_sound_partial"
   ],
   "note": "false for general expressions (C32_assign_refuted: x0 := x1 + x2 with x1 unbounded and x2 bounded); proved for expressions with at most one unit variable (any number type; exact with rationals) for all expressions over bounded variables, and for all expressions when two variables or more are assigned at once (C32_assign_array_sound)"
  },
  {
   "property": "C33",
   "status": "proved",
   "theorems": [
    "C33_substitute_array_sound",
    "C33_substitute_sound",
    "C33_substitute_unary_exact"
   ],
   "note": ""
  },
  {
   "property": "C34",
   "status": "proved",
   "theorems": [
    "C34_bound_dimension_sound",
    "C34_bound_dimension_exact",
    "C34_sat_bound_linexpr_sound",
    "C34_sat_bound_octagonal_exact"
   ],
   "note": ""
  },
  {
   "property": "C35",
   "status": "proved",
   "theorems": [
    "C35_to_lincons_exact",
    "C35_to_lincons_sound"
   ],
   "note": ""
  },
  {
   "property": "C36",
   "status": "proved",
   "theorems": [
    "C36_of_box_exact",
    "C36_of_box_sound",
    "C36_to_box_smallest",
    "C36_to_box_sound"
   ],
   "note": ""
  },
  {
   "property": "C37",
   "status": "proved",
   "theorems": [
    "C37_expand_exact",
    "C37_fold_sound",
    "C37_fold_best"
   ],
   "note": ""
  },
  {
   "property": "C38",
   "status": "proved",
   "theorems": [
    "C38_add_invert",
    "C38_box_roundtrip"
   ],
   "note": ""
  },
  {
   "property": "C39",
   "status": "proved",
   "theorems": [
    "C39_group",
    "C39_compose_acts",
    "C39_invert_acts"
   ],
   "note": ""
  },
  {
   "property": "C40",
   "status": "proved",
   "theorems": [
    "C40_get",
    "C40_set",
    "C40_map"
   ],
   "note": ""
  },
  {
   "property": "C41",
   "status": "partial",
   "theorems": [
    "C41_equal_partial",
    "C41_equal_hole_refuted",
    "C41_compare_zero_partial",
    "C41_compare_antisymmetric_refuted",
    "C41_hash_refuted",
    "C41_hash_modifies_refuted",
    "C41_hash_keeps_values"
   ],
   "note": "equality and comparison to zero are right on hole-free sorted expressions; a hole makes both dereference a null pointer (C41_equal_hole_refuted); comparison is not antisymmetric because its result goes through a bool (C41_compare_antisymmetric_refuted); equal expressions can hash differently (C41_hash_refuted) and hashing inserts terms (C41_hash_modifies_refuted), keeping the values (C41_hash_keeps_values)"
  },
  {
   "property": "C42",
   "status": "partial",
   "theorems": [
    "C42_add_dimensions_partial",
    "C42_add_dimensions_refuted",
    "C42_permute_dimensions_partial",
    "C42_permute_dimensions_refuted",
    "C42_tree_add",
    "C42_tree_permute",
    "C42_tree_remove",
    "C42_tree_roundtrip"
   ],
   "note": "linear expressions: sparse ones always, dense ones when the array covers the dimensions; false for shorter dense arrays (C42_add_dimensions_refuted, C42_permute_dimensions_refuted). Tree expressions: proved."
  },
  {
   "property": "C43",
   "status": "partial",
   "theorems": [
    "C43_dims",
    "C43_dimlist",
    "C43_depends",
    "C43_substitute",
    "C43_substitute_interval_refuted",
    "C43_from_linexpr",
    "C43_equal"
   ],
   "note": "Proved; substituting a tree with several values gives more values than binding the variable to one of them (C43_substitute_interval_refuted): x - x with x replaced by [0,1]."
  },
  {
   "property": "C44",
   "status": "partial",
   "theorems": [
    "C44_check",
    "C44_dim_of_var",
    "C44_add",
    "C44_remove_partial",
    "C44_remove_absent",
    "C44_is_leq",
    "C44_is_eq",
    "C44_lce",
    "C44_compare",
    "C44_lce_array",
    "C44_remove_twice_refuted",
    "C44_remove_twice_null_refuted"
   ],
   "note": "Environments of any size, any name type with a total order. Removal is proved for lists of different names; with a name given twice an assertion of the library fails or NULL is answered (refuted theorems)."
  },
  {
   "property": "C45",
   "status": "partial",
   "theorems": [
    "C45_dimchange",
    "C45_lce",
    "C45_dimchange2",
    "C45_add_perm",
    "C45_rename",
    "C45_dimchange_refuted",
    "C45_dimchange_bounds_refuted"
   ],
   "note": "Proved for included environments (dimchange), least common environments, dimchange2, add_perm, rename. Refuted: dimchange does not report every non-inclusion and may write outside of its array."
  },
  {
   "property": "C46",
   "status": "partial",
   "theorems": [
    "C46_is_unsat_partial",
    "C46_is_sat_partial",
    "C46_complete_partial",
    "C46_is_unsat_eqmod_refuted",
    "C46_diseq_refuted",
    "C46_make_unsat"
   ],
   "note": "Sound and complete for constraints without non-zero coefficient, except congruences (4 = 0 mod 2 is reported unsatisfiable) and <> with an interval constant (reported both unsatisfiable and always satisfied): C46_is_unsat_eqmod_refuted, C46_diseq_refuted."
  },
  {
   "property": "C47",
   "status": "partial",
   "theorems": [
    "C47_add_partial",
    "C47_remove_partial",
    "C47_add_refuted",
    "C47_remove_refuted",
    "C47_perm_partial",
    "C47_perm_refuted",
    "C47_dims",
    "C47_abstracts",
    "C47_fold",
    "C47_fold_exc_refuted",
    "C47_linexpr_partial",
    "C47_linexpr_refuted",
    "C47_linexpr_array_partial",
    "C47_texpr"
   ],
   "note": "Exact for arrays of dimensions, compatible dimensionalities and fold. Additions/removals: the first position is not compared with the others nor with the dimensionality, real positions may lie among integer ones; permutations need not be injective; an expression on dimension 0 is accepted without dimension (refuted theorems). Tree expressions: exact (C47_texpr)."
  },
  {
   "property": "C48",
   "status": "partial",
   "theorems": [
    "C48_scalar_order",
    "C48_interval_sets",
    "C48_interval_cmp_partial",
    "C48_interval_cmp_empty_refuted",
    "C48_scalar_hash_refuted",
    "C48_coeff_zero",
    "C48_coeff_equal_int_refuted"
   ],
   "note": "scalar order, inclusion, equality, sign swap and zero coefficients proved; comparison is 0 on equal intervals unless both are empty (C48_interval_cmp_empty_refuted); the comparison of a coefficient with an integer answers the contrary (C48_coeff_equal_int_refuted)"
  },
  {
   "property": "C49",
   "status": "proved",
   "theorems": [
    "C49_threshold_sound",
    "C49_threshold_exact",
    "C49_box_sound"
   ],
   "note": "Any domain; instance for boxes."
  },
  {
   "property": "C50",
   "status": "partial",
   "theorems": [
    "C50_assign_sound_partial",
    "C50_substitute_sound_partial",
    "C50_exact_flag",
    "C50_meet_array_sound",
    "C50_join_array_sound",
    "C50_assign_refuted",
    "C50_assign_tree",
    "C50_substitute_tree",
    "C50_exact_flag_tree"
   ],
   "note": "Proved for every domain whose operations are sound (records gsound and tsound): assignment, substitution (linear expressions and trees), meet and join of arrays; exactness when the flag exact is set. Restriction on linear expressions: sparse ones sorted, dense ones with as many coefficients as dimensions; refuted for shorter dense expressions (C50_assign_refuted)."
  },
  {
   "property": "C51",
   "status": "partial",
   "theorems": [
    "C51_operation",
    "C51_operation_exact",
    "C51_operation_flag",
    "C51_meet",
    "C51_meet_exact",
    "C51_meet_array",
    "C51_join",
    "C51_join_array",
    "C51_meet_constraints",
    "C51_assign",
    "C51_unary",
    "C51_expand",
    "C51_widening",
    "C51_is_bottom",
    "C51_sat",
    "C51_is_leq",
    "C51_is_eq",
    "C51_is_top",
    "C51_is_top_iff",
    "C51_is_dimension_unconstrained",
    "C51_bound",
    "C51_to_box",
    "C51_to_constraints",
    "C51_box_polyhedra_meet",
    "C51_box_polyhedra_join",
    "C51_is_bottom_refuted",
    "C51_is_leq_refuted",
    "C51_flag_exact_refuted",
    "C51_forget_flag_refuted",
    "C51_top",
    "C51_bottom",
    "C51_constant_flag",
    "C51_of_box",
    "C51_dimension"
   ],
   "note": "All component domains, any number of components, any reduction function which keeps the points, all option settings, early exits included. Positive answers of the tests are right; bounds, boxes and constraints contain (constraints: describe exactly) the product; exactness when the components are exact and the operation commutes with the intersection. Component functions do not change the points of their arguments (representation changes not modelled). Beyond the statement: the flag flag_exact is wrong after an early emptiness test (C51_flag_exact_refuted), for the projection (C51_forget_flag_refuted), and the negative answers of is_bottom and is_leq are reported exact but may be wrong (C51_is_bottom_refuted, C51_is_leq_refuted)."
  },
  {
   "property": "C52",
   "status": "proved",
   "theorems": [
    "C52_narrowing_between",
    "C52_narrowing_terminates"
   ],
   "note": ""
  },
  {
   "property": "C53",
   "status": "proved",
   "theorems": [
    "C53_widening_thresholds_sound",
    "C53_widening_thresholds_terminates"
   ],
   "note": ""
  },
  {
   "property": "C54",
   "status": "proved",
   "theorems": [
    "C54_add_epsilon_sound"
   ],
   "note": ""
  },
  {
   "property": "C55",
   "status": "proved",
   "theorems": [
    "C55_built_exact",
    "C55_built_sound"
   ],
   "note": ""
  },
  {
   "property": "C56",
   "status": "partial",
   "theorems": [
    "C56_meet_strict_integer_refuted"
   ],
   "note": "false (C56_meet_strict_integer_refuted); C31_meet_lincons_sound proves it when the coefficients are representable"
  },
  {
   "property": "C57",
   "status": "partial",
   "theorems": [
    "C57_terms_sorted_refuted",
    "C57_add_sorted_partial"
   ],
   "note": "sums are sorted (C57_add_sorted_partial); quasi-linearised expressions need not be (C57_terms_sorted_refuted)"
  },
  {
   "property": "C58",
   "status": "partial",
   "theorems": [
    "C58_integer_strengthening_sound",
    "C58_integer_strengthening_exact",
    "C58_array_sound",
    "C58_equality_refuted"
   ],
   "note": "no integer solution is lost and inequalities gain none; an equality can gain solutions (C58_equality_refuted: 2x+1=0 becomes x=0)"
  },
  {
   "property": "C59",
   "status": "partial",
   "theorems": [
    "C59_linearisation_returns_partial",
    "C59_modulo_zero_refuted"
   ],
   "note": "returns unless a congruence has modulus zero, which aborts with a division by zero (C59_modulo_zero_refuted)"
  },
  {
   "property": "C60",
   "status": "partial",
   "theorems": [
    "C60_type",
    "C60_linear_value",
    "C60_is_real",
    "C60_array_type",
    "C60_lincons_array_type_refuted",
    "C60_arrays"
   ],
   "note": "Proved for expressions; ap_lincons0_array_type always answers linear (C60_lincons_array_type_refuted)."
  },
  {
   "property": "C62",
   "status": "partial",
   "theorems": [
    "C62_linear",
    "C62_polynomial",
    "C62_polyfrac",
    "C62_scalar",
    "C62_classes_refuted",
    "C62_array"
   ],
   "note": "Proved; the three classes are not nested (C62_classes_refuted): constants such as sqrt(2) are accepted by the linear test only."
  },
  {
   "property": "C63",
   "status": "proved",
   "theorems": [
    "C63_conversion_exact",
    "C63_conversion_incremental_exact"
   ],
   "note": ""
  },
  {
   "property": "C64",
   "status": "proved",
   "theorems": [
    "C64_rays_irredundant"
   ],
   "note": ""
  },
  {
   "property": "C65",
   "status": "proved",
   "theorems": [
    "C65_normalize"
   ],
   "note": ""
  },
  {
   "property": "C66",
   "status": "proved",
   "theorems": [
    "C66_minimize_exact",
    "C66_add_and_minimize_exact"
   ],
   "note": ""
  },
  {
   "property": "C67",
   "status": "proved",
   "theorems": [
    "C67_constraints_irredundant"
   ],
   "note": ""
  },
  {
   "property": "C68",
   "status": "proved",
   "theorems": [
    "C68_representations_agree",
    "C68_chernikova",
    "C68_top",
    "C68_bottom",
    "C68_is_bottom",
    "C68_is_top",
    "C68_is_leq"
   ],
   "note": "non-strict mode (closed polyhedra), unbounded coefficients; the equality test is not modelled here"
  },
  {
   "property": "C69",
   "status": "partial",
   "theorems": [
    "C69_constraints_wf",
    "C69_meet",
    "C69_meet_destructive",
    "C69_meet_destructive_refuted",
    "C69_meet_same"
   ],
   "note": "Exact for all polyhedra when the first argument is kept or is not empty. The destructive strict meet dereferences a null pointer when its first argument is empty and this has not been detected yet (C69_meet_destructive_refuted)."
  },
  {
   "property": "C70",
   "status": "proved",
   "theorems": [
    "C70_join",
    "C70_join_least",
    "C70_join_same"
   ],
   "note": ""
  },
  {
   "property": "C71",
   "status": "partial",
   "theorems": [
    "C71_assign",
    "C71_substitute",
    "C71_assign_array",
    "C71_substitute_array",
    "C71_assign_destructive_partial",
    "C71_assign_destructive_refuted",
    "C71_substitute_refuted"
   ],
   "note": "Exact for the non destructive operations and for the parallel ones, except that the strict substitution with a destination dereferences a null pointer when the substituted polyhedron is empty (C71_substitute_refuted). The destructive assignment of one dimension is proved for denominator 1 or non invertible expressions; otherwise the status column of the rows, documented as 0 or 1, is multiplied by the denominator (C71_assign_destructive_refuted). Linear expressions with scalar rational coefficients; non linear ones go through the generic linearisation."
  },
  {
   "property": "C73",
   "status": "partial",
   "theorems": [
    "C73_add_dimensions",
    "C73_remove_dimensions",
    "C73_permute_dimensions",
    "C73_forget",
    "C73_expand",
    "C73_fold",
    "C73_fold_exact_refuted",
    "C73_add_then_remove"
   ],
   "note": "All the operations are proved exact (folding: least polyhedron), with well formed results. False: the folding of real dimensions is reported exact (flag_exact) although the convex hull contains other points (C73_fold_exact_refuted)."
  },
  {
   "property": "C72",
   "status": "partial",
   "theorems": [
    "C72_meet_lincons",
    "C72_meet_lincons_exact",
    "C72_flag_exact",
    "C72_strict_exact_refuted",
    "C72_integer_equality_refuted",
    "C72_add_rays",
    "C72_of_box",
    "C72_of_box_exact",
    "C72_of_box_refuted"
   ],
   "note": "Meet with constraints: sound for all constraints, exact on real dimensions for scalar equalities and large inequalities; addition of rays exact; box exact on real dimensions. False: a strict inequality is replaced by the large one and reported exact (C72_strict_exact_refuted); an equality without integer solution on an integer dimension is rounded to another point, reported exact (C72_integer_equality_refuted); a lower bound which is not an integer is loosened on an integer dimension (C72_of_box_refuted). Vertices in add_ray_array are refused by an assert in the code. C72_flag_exact: a disequality or congruence on a non-constant expression is skipped, and the result is then never reported exact unless empty."
  },
  {
   "property": "C75",
   "status": "proved",
   "theorems": [
    "C75_bound_dimension",
    "C75_to_box",
    "C75_bound_linexpr"
   ],
   "note": "Bounds of a dimension and boxes exact, over real points (integrality of dimensions is not used); expressions: sound with interval coefficients, exact with scalar ones. pk_bound_texpr is not modelled."
  },
  {
   "property": "C77",
   "status": "partial",
   "theorems": [
    "C77_sat_interval",
    "C77_sat_lincons",
    "C77_sat_lincons_complete",
    "C77_sat_lincons_refuted",
    "C77_sat_strict_refuted"
   ],
   "note": "Interval test exact (intervals whose bounds are finite or the usual infinities); constraint test sound except for equalities with interval coefficients, complete for scalar large constraints on real dimensions. False: an equality with an interval coefficient is answered true wrongly (C77_sat_lincons_refuted); a strict inequality is answered false, with flag_exact, when the polyhedron has a ray parallel to it (C77_sat_strict_refuted)."
  },
  {
   "property": "C74",
   "status": "proved",
   "theorems": [
    "C74_widening_sound",
    "C74_widening_stable",
    "C74_widening_terminates"
   ],
   "note": "Inclusion of the first argument in the second is a precondition (assert in the code). The search by dichotomy in the sorted saturation matrix is modelled as a search of the first row. pk_widening_threshold is not modelled (not reachable from the manager)."
  },
  {
   "property": "C76",
   "status": "partial",
   "theorems": [
    "C76_meet_array",
    "C76_join_array_partial",
    "C76_join_array_least",
    "C76_join_array_aliases_refuted"
   ],
   "note": "Meet: proved for all arrays and aliases. Join: proved when no pointer occurs three times or more in the array; false otherwise (C76_join_array_aliases_refuted): the loop which removes duplicated pointers leaves one, which is exchanged twice with its dual, and the join of three times the universe is the origin. An empty array raises an exception."
  },
  {
   "property": "C78",
   "status": "proved",
   "theorems": [
    "C78_built",
    "C78_is_eq_built",
    "C78_canonical_built",
    "C78_unconstrained_built",
    "C78_is_eq_sound",
    "C78_is_eq",
    "C78_canonical_form",
    "C78_honest_constraints",
    "C78_honest_top_bottom",
    "C78_honest_canonical",
    "C78_honest_meet",
    "C78_honest_join",
    "C78_unconstrained"
   ],
   "note": "C78_built: every polyhedron obtained by any sequence of the calls listed in the inductive type call (PropPkBuilt.v) is well formed with truthful status flags; on all of them the equality test is exact. The sequences leave out the in-place assignment of one dimension with a denominator other than 1 (which breaks the polyhedron, C71_..._refuted), the in-place substitution of one dimension, the join of an array in which the same pointer occurs three times or more, and a widening whose first argument is not included in the second. The call with the same pointer twice is not modelled. On the empty polyhedron the test of an unconstrained dimension answers false (example unconstrained_empty)."
  },
  {
   "property": "C79",
   "status": "proved",
   "theorems": [
    "C79_to_lincons",
    "C79_to_generators"
   ],
   "note": "Exact multi-precision numbers, non strict mode. pk_to_tcons_array (generic conversion of the constraints) is not modelled."
  },
  {
   "property": "C80",
   "status": "proved",
   "theorems": [
    "C80_change_environment",
    "C80_change_environment_refused",
    "C80_minimize_environment",
    "C80_change_environment_oct",
    "C80_change_environment_oct_refused",
    "C80_minimize_environment_oct"
   ],
   "note": "Boxes (any number type), polyhedra (exact numbers), octagons (exact numbers: the exact sets; any numbers: *_oct, supersets). The flag destructive and reference counts are not modelled."
  },
  {
   "property": "C81",
   "status": "proved",
   "theorems": [
    "C81_meet",
    "C81_join",
    "C81_refused",
    "C81_unify",
    "C81_meet_oct",
    "C81_join_oct",
    "C81_oct_refused",
    "C81_unify_oct"
   ],
   "note": "Boxes, polyhedra and octagons. The widening on one environment is the widening of level 0 (C17, C74, C28)."
  },
  {
   "property": "C82",
   "status": "proved",
   "theorems": [
    "C82_rename",
    "C82_forget",
    "C82_forget_refused",
    "C82_rename_oct",
    "C82_forget_oct"
   ],
   "note": "Boxes, polyhedra and octagons. Renamings with invalid arguments: C45."
  },
  {
   "property": "C83",
   "status": "partial",
   "theorems": [
    "C83_expand",
    "C83_expand_refused",
    "C83_fold",
    "C83_fold_mixed_refuted",
    "C83_expand_oct",
    "C83_fold_oct"
   ],
   "note": "Proved for variables of one type. When integer and real variables are mixed the exception is raised but the value returned does not have the dimensions of its environment (C83_fold_mixed_refuted). Memory level, not modelled: ap_abstract1_expand with destructive set and a name clash uses a freed value."
  },
  {
   "property": "C84",
   "status": "partial",
   "theorems": [
    "C84_meet_lincons_poly",
    "C84_meet_lincons_poly_sound",
    "C84_meet_lincons_box_sound",
    "C84_assign_poly",
    "C84_substitute_poly",
    "C84_assign_box_sound",
    "C84_substitute_box_sound",
    "C84_not_included_refuted",
    "C84_meet_lincons_oct",
    "C84_substitute_oct"
   ],
   "note": "Proved for environments included in that of the value. When the environment of the constraints is not included no exception is raised in general, and the constraints are applied to other variables (C84_not_included_refuted). Substitution in boxes: soundness when the function returns. In polyhedra, interval coefficients: C85 gives soundness at level 0. Octagons: constraints and one substitution, soundness; one assignment is C32 at level 0."
  },
  {
   "property": "C85",
   "status": "partial",
   "theorems": [
    "C85_assign_linear",
    "C85_substitute_linear",
    "C85_assign_sound_partial",
    "C85_substitute_sound_partial"
   ],
   "note": "Exact for rational coefficients. Interval coefficients: soundness for calls which return (C85_..._sound_partial: the generic method aborts on an empty argument with a manager which is not lazy, see C69_meet_destructive_refuted). Flags not modelled."
  },
  {
   "property": "C86",
   "status": "partial",
   "theorems": [
    "C86_bound_texpr",
    "C86_sat_tcons",
    "C86_sat_equality_refuted",
    "C86_meet_tcons",
    "C86_assign_texpr_partial",
    "C86_substitute_texpr_partial"
   ],
   "note": "Sound for trees without power. The satisfaction test is wrong for equalities with interval coefficients (C86_sat_equality_refuted). Meet, assignment and substitution: for calls which return; with a destination, for the option algorithm < 0 (the destructive meet called by the generic function aborts on an empty value otherwise, C69_meet_destructive_refuted). Flags of the assignment not modelled."
  },
  {
   "property": "C87",
   "status": "partial",
   "theorems": [
    "C87_bound_texpr",
    "C87_sat_tcons_partial",
    "C87_meet_tcons",
    "C87_assign_texpr",
    "C87_substitute_texpr",
    "C87_sat_disequality_refuted"
   ],
   "note": "Sound for trees without power (all rational octagons; other number types when the linearisation is rational). The satisfaction test is wrong for disequalities (C87_sat_disequality_refuted). Strict inequalities in the meet: exact numbers. Meet, assignment and substitution: for calls which return; the flags exact and best are not modelled."
  },
  {
   "property": "C88",
   "status": "proved",
   "theorems": [
    "C88_add_generators_sound",
    "C88_add_generators_best",
    "C88_of_generators_sound",
    "C88_of_generators_best",
    "C88_of_generators_no_vertex",
    "C88_wellformed",
    "C88_add_to_empty"
   ],
   "note": "Result flags not modelled."
  },
  {
   "property": "C89",
   "status": "partial",
   "theorems": [
    "C89_approximate_disabled",
    "C89_approximate_sound",
    "C89_approximate_integer",
    "C89_approximate_bounds",
    "C89_approximate_small",
    "C89_approximate_fits",
    "C89_approximate_octagonal_refuted"
   ],
   "note": "Algorithms -1, 1, 2, 10, 11, 12 proved. Algorithm 3 (octagonal constraints) loses points: vector_set_linexpr_bound writes the constant of an upper bound with the wrong sign (C89_approximate_octagonal_refuted). Non strict mode, flags not modelled."
  },
  {
   "property": "C90",
   "status": "partial",
   "theorems": [
    "C90_affine_hull",
    "C90_top_bottom",
    "C90_meet",
    "C90_join",
    "C90_meet_lincons",
    "C90_add_rays",
    "C90_forget",
    "C90_remove_dimensions",
    "C90_expand",
    "C90_fold",
    "C90_assign_linear",
    "C90_substitute_linear",
    "C90_assign_sound",
    "C90_is_eq",
    "C90_of_box",
    "C90_widening",
    "C90_assign_coefficients_refuted",
    "C90_substitute_array_refuted"
   ],
   "note": "Two parts of the claim are false of the code. An assignment whose expression has a scalar constant but interval coefficients is treated as linear with one bound of each coefficient and loses points (C90_assign_coefficients_refuted). A simultaneous substitution forgets the dimensions with an interval constant after, instead of before, substituting the others, and loses points (C90_substitute_array_refuted). Everything else is proved. Exact equality test: completeness under the normal form of the rows (hon) that the operations of C78 maintain. Non strict mode, flags and exceptions not modelled."
  },
  {
   "property": "C91",
   "status": "partial",
   "theorems": [
    "C91_minimize",
    "C91_minimize_irredundant",
    "C91_is_bottom",
    "C91_constants",
    "C91_join",
    "C91_join_array",
    "C91_meet",
    "C91_meet_bottom",
    "C91_lifted_sound",
    "C91_lifted_exact",
    "C91_sat",
    "C91_to_lincons",
    "C91_bound_sound",
    "C91_to_box_sound",
    "C91_to_box_best",
    "C91_boxes",
    "C91_boxes_forget",
    "C91_is_bottom_refuted",
    "C91_is_leq_refuted",
    "C91_join_array_refuted",
    "C91_meet_refuted",
    "C91_bound_refuted",
    "C91_to_box_refuted"
   ],
   "note": "Parts of the claim are false of the code: is_bottom answers false of several empty components, is_leq and is_eq always answer false, the join of three empty values has no component, the meet of two values without common point is the whole space, the bounds of an expression are lost when the first component is empty and are otherwise joined with the interval [1,-1], to_box loses points when the first two components are empty (the _refuted theorems, over boxes). Everything else is proved for any underlying domain. Result flags, memory management, serialization not modelled."
  },
  {
   "property": "C92",
   "status": "partial",
   "theorems": [
    "C92_get",
    "C92_set",
    "C92_values",
    "C92_extend_linexpr",
    "C92_extend_lincons",
    "C92_extend_array",
    "C92_extend_tree",
    "C92_var",
    "C92_node",
    "C92_unop",
    "C92_of_linexpr",
    "C92_has_var",
    "C92_substitute",
    "C92_equal",
    "C92_extend_refuted",
    "C92_extend_bounds_refuted",
    "C92_extend_short_refuted"
   ],
   "note": "Proved except where the code fails: extension to an environment that lacks a variable is not always refused, and then moves the coefficient to another variable or writes outside of an array (C92_extend_refuted, C92_extend_bounds_refuted); a dense expression shorter than its environment gets a duplicated coefficient (C92_extend_short_refuted). The other theorems take dense expressions with one coefficient for each variable. Generators, lists of arguments, printing not modelled."
  },
  {
   "property": "C93",
   "status": "proved",
   "theorems": [
    "C93_oct_equal",
    "C93_oct_points",
    "C93_oct_dimension_only",
    "C93_box_equal",
    "C93_box_points",
    "C93_box_terminates",
    "C93_box_five_intervals",
    "C93_polyhedra_points",
    "C93_polyhedra_equal",
    "C93_polyhedra_terminates"
   ],
   "note": ""
  }
 ]
}