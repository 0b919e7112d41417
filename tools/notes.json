{
 "C04": "sound when the exponent is even or the base is bounded below (C04_itv_pow_sound_partial); false for an odd power of an interval unbounded below (C04_itv_pow_refuted)",
 "C06": "at most three changing steps: one from the empty interval, one per bound",
 "C28": "at most 1 + 2n(n+1) changing steps, even if the iterate is closed between steps",
 "C32": "false for general expressions (C32_assign_refuted: x0 := x1 + x2 with x1 unbounded and x2 bounded); proved for expressions with at most one unit variable (any number type; exact with rationals) for all expressions over bounded variables, and for all expressions when two variables or more are assigned at once (C32_assign_array_sound)",
 "C56": "false (C56_meet_strict_integer_refuted); C31_meet_lincons_sound proves it when the coefficients are representable",
 "C10": "meet mode keeps every solution for inequalities, and for equalities with exact numbers; false for equalities with rounded numbers (C10_meet_rounding_refuted) and, in test mode, for interval equalities (C10_test_equality_refuted), since the equality flag of the constant goes stale",
 "C57": "sums are sorted (C57_add_sorted_partial); quasi-linearised expressions need not be (C57_terms_sorted_refuted)",
 "C58": "no integer solution is lost and inequalities gain none; an equality can gain solutions (C58_equality_refuted: 2x+1=0 becomes x=0)",
 "C59": "returns unless a congruence has modulus zero, which aborts with a division by zero (C59_modulo_zero_refuted)",
 "C13": "linear constraints with scalar coefficients of the number type, or exact arithmetic; false for interval coefficients with rounding (C13_meet_lincons_refuted)",
 "C15": "proved for every box built by the operations when expressions are defined everywhere; an empty interval coefficient makes an empty box that is not recognised (C15_empty_coefficient_refuted)",
 "C17": "the widening returns unless the first argument is non-empty and the second is empty (an assertion fails)",
 "C19": "linear assignment: sound for any number type, best for exact numbers and scalar coefficients; an empty dest is ignored (C19_empty_dest_refuted). Linear substitution: sound for scalar coefficients of the number type or exact arithmetic. Tree assignment: sound without powers. Tree substitution: sound without powers in exact arithmetic (algorithm < 100), and for any number type on the trees of C14 (algorithm >= 100), for calls which return.",
 "C21": "exact when each dimension is bounded on both sides or on none; false for half-bounded dimensions (C21_generators_refuted, C21_generators_incomplete_refuted)",
 "C41": "equality and comparison to zero are right on hole-free sorted expressions; a hole makes both dereference a null pointer (C41_equal_hole_refuted); comparison is not antisymmetric because its result goes through a bool (C41_compare_antisymmetric_refuted); equal expressions can hash differently (C41_hash_refuted) and hashing inserts terms (C41_hash_modifies_refuted), keeping the values (C41_hash_keeps_values)",
 "C42": "linear expressions: sparse ones always, dense ones when the array covers the dimensions; false for shorter dense arrays (C42_add_dimensions_refuted, C42_permute_dimensions_refuted). Tree expressions: proved.",
 "C48": "scalar order, inclusion, equality, sign swap and zero coefficients proved; comparison is 0 on equal intervals unless both are empty (C48_interval_cmp_empty_refuted); the comparison of a coefficient with an integer answers the contrary (C48_coeff_equal_int_refuted)",
 "C50": "Proved for every domain whose operations are sound (records gsound and tsound): assignment, substitution (linear expressions and trees), meet and join of arrays; exactness when the flag exact is set. Restriction on linear expressions: sparse ones sorted, dense ones with as many coefficients as dimensions; refuted for shorter dense expressions (C50_assign_refuted).",
 "C49": "Any domain; instance for boxes.",
 "C46": "Sound and complete for constraints without non-zero coefficient, except congruences (4 = 0 mod 2 is reported unsatisfiable) and <> with an interval constant (reported both unsatisfiable and always satisfied): C46_is_unsat_eqmod_refuted, C46_diseq_refuted.",
 "C47": "Exact for arrays of dimensions, compatible dimensionalities and fold. Additions/removals: the first position is not compared with the others nor with the dimensionality, real positions may lie among integer ones; permutations need not be injective; an expression on dimension 0 is accepted without dimension (refuted theorems). Tree expressions: exact (C47_texpr).",
 "C60": "Proved for expressions; ap_lincons0_array_type always answers linear (C60_lincons_array_type_refuted).",
 "C43": "Proved; substituting a tree with several values gives more values than binding the variable to one of them (C43_substitute_interval_refuted): x - x with x replaced by [0,1].",
 "C62": "Proved; the three classes are not nested (C62_classes_refuted): constants such as sqrt(2) are accepted by the linear test only.",
 "C11": "proved without powers, and with powers whose base is bounded below or whose exponent is even; false for an odd power of an interval unbounded below (C11_pow_refuted)",
 "C12": "proved without powers; arrays with boxing for rational numbers; the rounding of a power is forgotten (C12_pow_refuted); the array function for interval linear trees turns x*x>=0 into false (C12_intlinear_array_refuted)",
 "C14": "HC4: proved for exact arithmetic nodes, rounding to integers up or down, even constant powers (any number type, any number of constraints and rounds). Solutions are lost for: rounding to the nearest integer, truncation, conversions to float types, rounded powers, odd powers of negative numbers (refuted theorems). Linearisation method: proved for rational bounds without powers. Both only remove points (C14_reductive).",
 "C44": {
  "status": "partial",
  "note": "Environments of any size, any name type with a total order. Removal is proved for lists of different names; with a name given twice an assertion of the library fails or NULL is answered (refuted theorems)."
 },
 "C45": {
  "status": "partial",
  "note": "Proved for included environments (dimchange), least common environments, dimchange2, add_perm, rename. Refuted: dimchange does not report every non-inclusion and may write outside of its array."
 },
 "C68": "non-strict mode (closed polyhedra), unbounded coefficients; the equality test is not modelled here",
 "C69": {
  "status": "partial",
  "note": "Exact for all polyhedra when the first argument is kept or is not empty. The destructive strict meet dereferences a null pointer when its first argument is empty and this has not been detected yet (C69_meet_destructive_refuted)."
 },
 "C71": {
  "status": "partial",
  "note": "Exact for the non destructive operations and for the parallel ones, except that the strict substitution with a destination dereferences a null pointer when the substituted polyhedron is empty (C71_substitute_refuted). The destructive assignment of one dimension is proved for denominator 1 or non invertible expressions; otherwise the status column of the rows, documented as 0 or 1, is multiplied by the denominator (C71_assign_destructive_refuted). Linear expressions with scalar rational coefficients; non linear ones go through the generic linearisation."
 },
 "C73": {
  "status": "partial",
  "note": "All the operations are proved exact (folding: least polyhedron), with well formed results. False: the folding of real dimensions is reported exact (flag_exact) although the convex hull contains other points (C73_fold_exact_refuted)."
 },
 "C72": {
  "status": "partial",
  "note": "Meet with constraints: sound for all constraints, exact on real dimensions for scalar equalities and large inequalities; addition of rays exact; box exact on real dimensions. False: a strict inequality is replaced by the large one and reported exact (C72_strict_exact_refuted); an equality without integer solution on an integer dimension is rounded to another point, reported exact (C72_integer_equality_refuted); a lower bound which is not an integer is loosened on an integer dimension (C72_of_box_refuted). Vertices in add_ray_array are refused by an assert in the code. C72_flag_exact: a disequality or congruence on a non-constant expression is skipped, and the result is then never reported exact unless empty."
 },
 "C75": {
  "status": "proved",
  "note": "Bounds of a dimension and boxes exact, over real points (integrality of dimensions is not used); expressions: sound with interval coefficients, exact with scalar ones. pk_bound_texpr is not modelled."
 },
 "C77": {
  "status": "partial",
  "note": "Interval test exact (intervals whose bounds are finite or the usual infinities); constraint test sound except for equalities with interval coefficients, complete for scalar large constraints on real dimensions. False: an equality with an interval coefficient is answered true wrongly (C77_sat_lincons_refuted); a strict inequality is answered false, with flag_exact, when the polyhedron has a ray parallel to it (C77_sat_strict_refuted)."
 },
 "C74": {
  "status": "proved",
  "note": "Inclusion of the first argument in the second is a precondition (assert in the code). The search by dichotomy in the sorted saturation matrix is modelled as a search of the first row. pk_widening_threshold is not modelled (not reachable from the manager)."
 },
 "C76": {
  "status": "partial",
  "note": "Meet: proved for all arrays and aliases. Join: proved when no pointer occurs three times or more in the array; false otherwise (C76_join_array_aliases_refuted): the loop which removes duplicated pointers leaves one, which is exchanged twice with its dual, and the join of three times the universe is the origin. An empty array raises an exception."
 },
 "C78": {
  "status": "proved",
  "note": "C78_built: every polyhedron obtained by any sequence of the calls listed in the inductive type call (PropPkBuilt.v) is well formed with truthful status flags; on all of them the equality test is exact. The sequences leave out the in-place assignment of one dimension with a denominator other than 1 (which breaks the polyhedron, C71_..._refuted), the in-place substitution of one dimension, the join of an array in which the same pointer occurs three times or more, and a widening whose first argument is not included in the second. The call with the same pointer twice is not modelled. On the empty polyhedron the test of an unconstrained dimension answers false (example unconstrained_empty)."
 },
 "C79": {
  "status": "proved",
  "note": "Exact multi-precision numbers, non strict mode. pk_to_tcons_array (generic conversion of the constraints) is not modelled."
 },
 "C51": {
  "status": "proved",
  "note": "All component domains, any number of components, any reduction function which keeps the points, all option settings, early exits included. Positive answers of the tests are right; bounds, boxes and constraints contain (constraints: describe exactly) the product; exactness when the components are exact and the operation commutes with the intersection. Component functions do not change the points of their arguments (representation changes not modelled). Beyond the statement: the flag flag_exact is wrong after an early emptiness test (C51_flag_exact_refuted), for the projection (C51_forget_flag_refuted), and the negative answers of is_bottom and is_leq are reported exact but may be wrong (C51_is_bottom_refuted, C51_is_leq_refuted)."
 },
 "C80": {
  "status": "proved",
  "note": "Boxes (any number type), polyhedra (exact numbers), octagons (exact numbers: the exact sets; any numbers: *_oct, supersets). The flag destructive and reference counts are not modelled."
 },
 "C81": {
  "status": "proved",
  "note": "Boxes, polyhedra and octagons. The widening on one environment is the widening of level 0 (C17, C74, C28)."
 },
 "C82": {
  "status": "proved",
  "note": "Boxes, polyhedra and octagons. Renamings with invalid arguments: C45."
 },
 "C83": {
  "status": "partial",
  "note": "Proved for variables of one type. When integer and real variables are mixed the exception is raised but the value returned does not have the dimensions of its environment (C83_fold_mixed_refuted). Memory level, not modelled: ap_abstract1_expand with destructive set and a name clash uses a freed value."
 },
 "C84": {
  "status": "partial",
  "note": "Proved for environments included in that of the value. When the environment of the constraints is not included no exception is raised in general, and the constraints are applied to other variables (C84_not_included_refuted). Substitution in boxes: soundness when the function returns. In polyhedra, interval coefficients: C85 gives soundness at level 0. Octagons: constraints and one substitution, soundness; one assignment is C32 at level 0."
 },
 "C85": {
  "status": "partial",
  "note": "Exact for rational coefficients. Interval coefficients: soundness for calls which return (C85_..._sound_partial: the generic method aborts on an empty argument with a manager which is not lazy, see C69_meet_destructive_refuted). Flags not modelled."
 },
 "C86": {
  "status": "partial",
  "note": "Sound for trees without power. The satisfaction test is wrong for equalities with interval coefficients (C86_sat_equality_refuted). Meet, assignment and substitution: for calls which return; with a destination, for the option algorithm < 0 (the destructive meet called by the generic function aborts on an empty value otherwise, C69_meet_destructive_refuted). Flags of the assignment not modelled."
 },
 "C87": {
  "status": "partial",
  "note": "Sound for trees without power (all rational octagons; other number types when the linearisation is rational). The satisfaction test is wrong for disequalities (C87_sat_disequality_refuted). Strict inequalities in the meet: exact numbers. Meet, assignment and substitution: for calls which return; the flags exact and best are not modelled."
 },
 "C88": "Result flags not modelled.",
 "C89": {
  "status": "partial",
  "note": "Algorithms -1, 1, 2, 10, 11, 12 proved. Algorithm 3 (octagonal constraints) loses points: vector_set_linexpr_bound writes the constant of an upper bound with the wrong sign (C89_approximate_octagonal_refuted). Non strict mode, flags not modelled."
 },
 "C90": {
  "status": "partial",
  "note": "Two parts of the claim are false of the code. An assignment whose expression has a scalar constant but interval coefficients is treated as linear with one bound of each coefficient and loses points (C90_assign_coefficients_refuted). A simultaneous substitution forgets the dimensions with an interval constant after, instead of before, substituting the others, and loses points (C90_substitute_array_refuted). Everything else is proved. Exact equality test: completeness under the normal form of the rows (hon) that the operations of C78 maintain. Non strict mode, flags and exceptions not modelled."
 },
 "C91": {
  "status": "partial",
  "note": "Parts of the claim are false of the code: is_bottom answers false of several empty components, is_leq and is_eq always answer false, the join of three empty values has no component, the meet of two values without common point is the whole space, the bounds of an expression are lost when the first component is empty and are otherwise joined with the interval [1,-1], to_box loses points when the first two components are empty (the _refuted theorems, over boxes). Everything else is proved for any underlying domain. Result flags, memory management, serialization not modelled."
 },
 "C92": {
  "status": "partial",
  "note": "Proved except where the code fails: extension to an environment that lacks a variable is not always refused, and then moves the coefficient to another variable or writes outside of an array (C92_extend_refuted, C92_extend_bounds_refuted); a dense expression shorter than its environment gets a duplicated coefficient (C92_extend_short_refuted). The other theorems take dense expressions with one coefficient for each variable. Generators, lists of arguments, printing not modelled."
 }
}