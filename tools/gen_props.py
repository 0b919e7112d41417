#!/usr/bin/env python3
# Generates /verif/properties.jsonl from the table below.
import json
P=[]
def p(id,title,statement,quantifier,why,anchors):
    P.append(dict(id=id,title=title,statement=statement,quantifier=quantifier,why_tests_cant=why,anchors=anchors))

p("C01","Interval +,-,neg,* ,/ over-approximate real arithmetic",
"For the library's interval arithmetic, if a real x lies in interval A and y lies in B then x+y, x-y, -x, x*y and (when y<>0) x/y lie in the interval computed for the corresponding operation, with infinite bounds and with any number type whose arithmetic rounds towards +oo.",
"all intervals (finite or infinite bounds), all reals x,y in them, all upward-rounding number types",
"The operand space is infinite (rationals with infinities, arbitrary rounding); sign and infinity case splits multiply to dozens of branches and a missed branch only shows for specific sign patterns.",
["itv/itv.h:itv_add,itv_sub,itv_neg","itv/itv.c:itv_mul,itv_div","num/bound_def.h:bound_add,bound_sub,bound_mul,bound_div"])
p("C02","Interval +,-,neg,* are exact with exact numbers",
"With an exact number type (rationals), the interval sum, difference, opposite and product are the smallest intervals containing all results: each finite bound of the result is attained (or approached) by members of the operands.",
"all non-empty intervals with rational or infinite bounds",
"Optimality quantifies over all sound intervals and all operand members.",
["itv/itv.c:itv_mul,itv_muln,itv_mulp,itv_mulpn","itv/itv.h:itv_add"])
p("C03","Interval absolute value, square root, rounding to integer and modulo are sound",
"If x is in A then |x|, floor x, ceil x, trunc x, nearest-integer roundings, and sqrt x (x>=0) are in the respective result interval, and for y in B, y<>0, x mod y is in the modulo interval.",
"all intervals and all members",
"Infinite operand space, many sign splits.",
["itv/itv.c:itv_abs,itv_sqrt,itv_mod,itv_ceil,itv_floor,itv_trunc,itv_to_int"])
p("C04","Interval power is sound",
"If x is in A and n is the (singleton, non-negative integer) exponent then x^n is in the interval returned by the power operation, including for unbounded A.",
"all intervals A, all exponents n",
"Exponent and operand are unbounded; the failing operands are one-sided unbounded intervals.",
["itv/itv.c:itv_pow","num/bound_def.h:bound_pow"])
p("C05","Interval inclusion, meet, join and emptiness decide the set relations",
"On canonical intervals: the inclusion test answers true iff every member of A is a member of B; meet contains exactly the common members and reports emptiness iff there is none; join is the least interval containing both; integer canonicalisation keeps exactly the integer members' hull.",
"all intervals, all reals (all integers for the integer variant)",
"Equivalence with the semantic relation quantifies over all reals.",
["itv/itv.h:itv_is_leq,itv_is_eq,itv_join","itv/itv.c:itv_canonicalize,itv_meet"])
p("C06","Interval widening covers both arguments and every widening chain is finite",
"A widened interval contains the first argument and the second; in any sequence x(k+1)=x(k) widened with an arbitrary y(k), at most three elements differ from their predecessor (one leaving the empty interval, one per bound).",
"all infinite sequences of intervals y(k)",
"Termination over infinite histories cannot be observed by finite tests.",
["itv/itv.c:itv_widening,bound_widening"])
p("C07","Scaling, adding and evaluating interval linear expressions is sound",
"If reals are chosen in every interval coefficient of a linear expression, then the value at a point of the environment box lies in the interval returned by evaluation; the sum/difference/opposite/interval-multiple of expressions contains the sum/difference/opposite/product of their values.",
"all interval linear expressions, all points, all choices of coefficients",
"Unbounded number of terms; merging of sparse term lists interacts with duplicates and zero removal.",
["itv/itv_linexpr.c:itv_linexpr_add,itv_linexpr_sub,itv_linexpr_scale,itv_linexpr_neg","itv/itv_linearize.c:itv_eval_linexpr"])
p("C08","Constant constraint evaluation never lies",
"When the library evaluates a variable-free constraint to 'false' no value of its constant interval satisfies it; when it evaluates it to 'true' every value satisfies it; this for =,>=,>,<>, and equality modulo a number.",
"all constant intervals and constraint kinds",
"All real values of the interval must be considered.",
["itv/itv_linexpr.c:itv_eval_cstlincons"])
p("C09","Quasi-linearisation over-approximates the expression on the box",
"Replacing interval coefficients by scalar ones and moving the rest into the constant yields an expression whose value set contains the original value set at every point of the bounding box, for every choice policy.",
"all interval linear expressions, boxes, points and coefficient choices",
"Unbounded terms and uncountable points.",
["itv/itv_linearize.c:itv_quasilinearize_linexpr,itv_quasilinearize_choose_middle"])
p("C10","Quasi-linearising a constraint for meet keeps all solutions",
"Quasi-linearising (and linearising) a constraint in 'meet' mode never removes a point of the bounding box that satisfies the original constraint for some choice of coefficients; in the other mode never adds a point which does not satisfy it for all choices.",
"all constraints, boxes, points",
"Unbounded terms, all points.",
["itv/itv_linearize.c:itv_quasilinearize_lincons,itv_linearize_lincons_array"])
p("C11","Interval evaluation of tree expressions is sound",
"The interval computed for a tree expression over a box contains the value of the expression at every point of the box, for every rounding type and mode of the nodes.",
"all expression trees, boxes and points",
"Trees have unbounded depth.",
["itv/itv_linearize.c:itv_eval_ap_texpr0,itv_eval_ap_texpr0_node"])
p("C12","Interval linearisation of tree expressions is sound",
"The interval linear form computed for a tree expression over a box contains, at every point of the box, the value of the tree expression; the linear constraints computed for an array of tree constraints keep every solution of the box.",
"all expression trees, boxes and points",
"Trees have unbounded depth; heuristics choose which operand to intervalise.",
["itv/itv_linearize.c:itv_intlinearize_ap_texpr0,ap_texpr0_node_intlinearize"])
p("C13","Bound propagation of linear constraints keeps every solution",
"Refining a box with linear constraints (any number of propagation rounds) keeps each point of the box satisfying the constraints, and reports emptiness only if there is none.",
"all boxes, constraint arrays, iteration counts, points",
"Fixpoint-like loop with unbounded constraints and rounds.",
["itv/itv_linearize.c:itv_boxize_lincons,itv_boxize_lincons_array"])
p("C14","Forward-backward (HC4) refinement of tree constraints keeps every solution",
"Refining a box with a tree constraint keeps every point of the box that satisfies it.",
"all tree constraints and boxes",
"Unbounded depth; backward operators are partial inverses with many sign cases.",
["itv/itv_linearize.c:itv_meet_ap_tcons0_array","box/box_meetjoin.c:box_meet_tcons_array"])
p("C15","Box inclusion/equality/emptiness/top tests agree with the set of points",
"For box abstract values built by the API, is_bottom, is_top, is_leq, is_eq answer true only if (and for non-empty intervals exactly if) the corresponding relation holds between the denoted sets of points.",
"all box values of any dimension",
"Quantifies over all points of R^n for every n.",
["box/box_representation.c","box/box_meetjoin.c","box/box_otherops.c"])
p("C16","Box meet is exact and join is the best box",
"Points of meet(A,B) are exactly the common points; join(A,B) contains both and is contained in every box containing both.",
"all boxes, dimensions",
"Best approximation quantifies over all boxes.",
["box/box_meetjoin.c:box_meet,box_join"])
p("C17","Box widening is an upper bound and stabilises on every history",
"The widening of boxes contains both arguments, and each infinite sequence of widenings is ultimately stationary, with an explicit bound on the number of changes (2 per dimension plus one).",
"all infinite histories of boxes",
"Infinite histories.",
["box/box_meetjoin.c:box_widening"])
p("C18","Box dimension operations act on points as documented",
"Adding, removing, permuting, forgetting, projecting, expanding and folding dimensions of a box yields exactly (resp. for fold: at least) the image of its points under the corresponding operation on coordinates.",
"all boxes, valid dimension changes and permutations",
"Index arithmetic over arbitrarily many insertions at equal positions.",
["box/box_resize.c"])
p("C19","Box assignment and substitution are sound",
"The parallel assignment of interval linear (or tree) expressions contains the image of every point; the substitution contains each point whose image is in the argument.",
"all boxes, expression arrays, points",
"All points and all choices of interval coefficients.",
["box/box_assign.c"])
p("C20","Box sat tests and bounds are sound",
"sat_lincons/sat_interval answer true only if all points satisfy the constraint; bound_linexpr/bound_dimension contain the value at each point.",
"all boxes, constraints, points",
"All points.",
["box/box_representation.c","box/box_otherops.c"])
p("C21","Box generators generate the box",
"The generator system returned for a non-empty box (vertices, rays, lines) generates exactly its points.",
"all non-empty boxes",
"All points; unbounded dimension; half-bounded dimensions are the hard case.",
["box/box_constructor.c:box_to_generator_array"])
p("C22","Half-matrix indexing of octagons is a bijection",
"Every ordered pair of signed variables is stored in range, a pair of distinct signed variables and its coherent twin share one cell, and unrelated pairs never alias, for all dimensions.",
"all dimensions n and all indices",
"Index arithmetic for unbounded n.",
["octagons/oct_internal.h:matpos,matpos2,matsize"])
p("C23","Octagon closure preserves the set of points and decides emptiness",
"Closing an octagon does not change its set of real points; it reports empty only if the set is empty, for every rounding; with exact numbers it reports empty exactly when the set is empty.",
"all octagonal constraint matrices, all dimensions, all real points",
"Shortest-path closure over unbounded matrices; a missed pivot shows only on specific graphs.",
["octagons/oct_closure.c:hmat_close,hmat_s_step"])
p("C24","Octagon closure yields the tightest bounds",
"With exact numbers every finite bound of the closed octagon is attained by one of its points and every infinite bound means values are unbounded.",
"all satisfiable octagons and all dimensions",
"Optimality over all points.",
["octagons/oct_closure.c:hmat_close"])
p("C25","Incremental octagon closure equals full closure",
"After modifying only the constraints of one variable in a closed octagon, the incremental closure gives the same set of points, emptiness answer and tight bounds as the full closure.",
"all closed octagons, variables, modifications",
"Unbounded matrices.",
["octagons/oct_closure.c:hmat_close_incremental"])
p("C26","Octagon is_leq / is_eq / is_bottom / is_top decide the set relations",
"With exact numbers the answers are true iff the inclusion/equality/emptiness/universality of the denoted sets of points holds; with rounding a true answer is always right.",
"all octagons, all dimensions",
"All points.",
["octagons/oct_predicate.c"])
p("C27","Octagon meet is exact and join is the best octagon",
"Points of meet(A,B) are the common points; join contains both and (exact numbers) is contained in every octagon containing both.",
"all octagons, dimensions",
"Best approximation quantifies over all octagons.",
["octagons/oct_nary.c:oct_meet,oct_join"])
p("C28","Octagon widening is sound and terminates whatever closures happen in between",
"The widening contains both arguments; every infinite sequence of widenings with arbitrary right arguments is ultimately stationary, even if read-only queries are interleaved.",
"all infinite histories",
"Infinite histories; well-known failure when the left argument gets closed.",
["octagons/oct_nary.c:oct_widening","octagons/oct_representation.c:oct_cache_closure"])
p("C29","Octagon forget is the exact projection",
"Forgetting variables yields exactly the points that agree with a point of the argument on the other variables (project: and which are zero on the forgotten ones).",
"all octagons, variable lists",
"Existential over real values for all points.",
["octagons/oct_resize.c:oct_forget_array"])
p("C30","Octagon dimension operations act on points as documented",
"Adding dimensions gives exactly the points whose old coordinates form a point of the argument (new coordinates arbitrary, or 0 when projecting). Removing dimensions keeps every projected point, and with exact numbers gives exactly the projection. Permuting gives exactly the permuted points.",
"all octagons, valid dimchanges/permutations",
"Index arithmetic with unbounded dims.",
["octagons/oct_resize.c"])
p("C31","Meeting an octagon with linear constraints keeps every solution",
"The result contains each point of the argument satisfying the constraint, for all (interval) linear constraints of any shape (strict constraints: for integer-valued integer variables and coefficients representable in the number type); for octagonal constraints it is exactly the intersection. It never contains a point which is not in the argument.",
"all octagons, constraints, points",
"Constraint classification with many cases; general-case uses accumulated infinite terms.",
["octagons/oct_transfer.c:hmat_add_lincons"])
p("C32","Octagon assignment is sound",
"The result of assigning an (interval) linear expression to a variable contains every point obtained by updating a point of the argument with a possible value of the expression. When several variables are assigned at once, all the expressions are evaluated in the point of the argument, before any variable is changed.",
"all octagons, expressions, points",
"General non-octagonal expressions with unbounded terms; the defect shows only when exactly one term is unbounded.",
["octagons/oct_transfer.c:hmat_assign","octagons/oct_transfer.c:oct_assign_linexpr_array"])
p("C33","Octagon substitution is sound",
"The result contains each point whose update by the expression is in the argument. The same holds for several variables substituted at once, the expressions being evaluated in the point of the result.",
"all octagons, expressions, points",
"As above.",
["octagons/oct_transfer.c:hmat_subst","octagons/oct_transfer.c:oct_substitute_linexpr_array"])
p("C34","Octagon sat/bound queries are sound and, for octagonal queries, complete",
"sat_lincons true implies all points satisfy it; bound_linexpr/bound_dimension contain all values; bound_dimension is tight with exact numbers.",
"all octagons, constraints",
"All points.",
["octagons/oct_predicate.c","octagons/oct_transfer.c:bounds_of_expr"])
p("C35","Octagon constraint export/import round-trips",
"The constraints returned for an octagon have exactly its points as solutions.",
"all octagons",
"All points, unbounded dims.",
["octagons/oct_nary.c / oct_representation.c: oct_to_lincons_array"])
p("C36","Octagons from boxes and to boxes",
"of_box denotes exactly the box; to_box is the smallest box containing the octagon (exact numbers).",
"all boxes/octagons",
"All points.",
["octagons/oct_representation.c:oct_of_box","octagons/oct_predicate.c:oct_to_box"])
p("C37","Octagon expand is exact and fold is sound and best",
"expand(A,x,n) contains exactly the points such that the value of x or of any of its copies completes the other coordinates into a point of A; fold contains each point obtained by keeping one of the folded variables, and with exact numbers is included in every octagon containing these points.",
"all octagons, n, variable lists",
"Unbounded copies.",
["octagons/oct_resize.c:oct_expand,oct_fold"])
p("C38","Removing the inverse of a dimension insertion is the identity",
"For a sorted insertion specification, inserting dimensions, then removing with the inverted specification, returns every vector and expression unchanged, and the inverted specification lists exactly the positions of the inserted dimensions.",
"all sorted dimchanges of any length, all vectors",
"Arbitrary many insertions at repeated positions.",
["apron/ap_dimension.c:ap_dimchange_add_invert","apron/ap_linexpr0.c:ap_linexpr0_add_dimensions"])
p("C39","Dimension permutations form a group",
"Inverting a permutation gives the two-sided inverse under composition; composition acts as successive application.",
"all permutations of any size",
"Unbounded size.",
["apron/ap_dimension.c:ap_dimperm_compose,ap_dimperm_invert"])
p("C40","Coefficient access in linear expressions behaves as a map",
"After setting a coefficient, reading returns it, other coefficients are unchanged, sparse terms stay sorted without duplicates, for dense and sparse expressions of any length (linear or binary search).",
"all expressions, sequences of get/set",
"Unbounded histories and sizes (binary search kicks in above 10 terms).",
["apron/ap_linexpr0.c:ap_linexpr0_coeffref,ap_linexpr0_get_coeff,index_of_or_after_dim"])
p("C41","Linear expression equality/compare/hash are coherent",
"equal answers true iff all coefficients are equal; comparing in swapped order gives opposite results; equal expressions hash equally and hashing does not modify the expression.",
"all pairs of expressions",
"All pairs.",
["apron/ap_linexpr0.c:ap_linexpr0_equal,ap_linexpr0_compare,ap_linexpr0_hash"])
p("C42","Adding/permuting dimensions in expressions preserves meaning",
"Value of the transformed linear (or tree) expression at the transformed point equals the original value at the original point.",
"all expressions, dimchanges, permutations, points",
"Unbounded.",
["apron/ap_linexpr0.c:ap_linexpr0_add_dimensions_with,ap_linexpr0_permute_dimensions","apron/ap_texpr0.c:ap_texpr0_add_dimensions,permute"])
p("C43","Substitution in tree expressions is semantic substitution",
"Evaluating the substituted tree equals evaluating the original tree with the variable bound to the value of the substituted tree; a tree in which a dimension does not occur does not depend on it; the reported set of dimensions is exactly the set of dims occurring.",
"all trees, points",
"Unbounded depth.",
["apron/ap_texpr0.c:ap_texpr0_substitute,ap_texpr0_has_dim,ap_texpr0_max_dim,ap_texpr0_get_dim"])
p("C44","Environment operations are set operations on names",
"Adding/removing variables, least common environment and inclusion tests on environments correspond to disjoint union, difference, union and subset of the variable sets, keep names sorted and unique, and fail exactly on the documented conflicts.",
"all environments of any size",
"Unbounded merges of sorted arrays.",
["apron/ap_environment.c:ap_environment_add,ap_environment_remove,ap_environment_lce,ap_environment_is_leq"])
p("C45","Environment conversions preserve the value of every variable",
"The dimension change (or permutation) produced by dimchange, lce, add_perm or rename moves the coordinate of each variable to the place of the same variable in the target environment; non-inclusion is reported.",
"all pairs of environments, all points",
"Unbounded.",
["apron/ap_environment.c:ap_environment_dimchange,ap_environment_lce,ap_environment_add_perm,ap_environment_rename"])
p("C46","Trivial satisfiability tests of constraints are sound",
"A constraint reported trivially unsatisfiable has no solution; one reported trivially satisfied holds at each point.",
"all constraints",
"All points.",
["apron/ap_lincons0.c:ap_lincons0_is_unsat,ap_lincons0_is_sat"])
p("C47","Argument validation accepts only well-formed requests",
"Dimension changes, permutations and expressions accepted by the generic front-end are sorted, in range, duplicate-free; others raise an invalid-argument exception.",
"all arguments",
"All arrays of any length.",
["apron/ap_abstract0.c:ap_abstract0_check_*"])
p("C48","Interval and scalar comparison are coherent orders",
"Scalar comparison is a total order on extended rationals; interval inclusion is a preorder that agrees with sets; interval comparison returns 0 exactly on equal intervals and the sign swaps with arguments. A coefficient is reported to be zero exactly when it denotes 0 and nothing else, and equal to an integer exactly when it denotes that integer.",
"all scalars / intervals",
"All triples.",
["apron/ap_scalar.c:ap_scalar_cmp","apron/ap_interval.c:ap_interval_cmp,ap_interval_is_leq,ap_interval_equal","apron/ap_coeff.c:ap_coeff_zero,ap_coeff_equal_int"])
p("C49","Widening with thresholds is sound for every domain",
"For any abstract domain whose widening, sat test and meet are sound, the generic widening-with-thresholds contains the second argument; only satisfied thresholds are met.",
"all domains, values, threshold arrays of any length",
"Quantifies over domains and array permutations done in place.",
["apron/ap_abstract0.c:ap_abstract0_widening_threshold"])
p("C50","Generic parallel assignment/substitution is sound for every domain",
"For any domain with sound add/permute/remove/meet operations, the generic parallel assignment built from primed copies contains the simultaneous update of every point, and substitution its inverse image.",
"all domains, expression arrays with distinct targets",
"Quantifies over domains and all index patterns.",
["apron/ap_generic.c:ap_generic_asssub_linexpr_array"])
p("C51","Reduced product is sound if its components are",
"Concretisation = intersection of component concretisations; inclusion/emptiness/sat/bounds/meet/join/assign computed componentwise are sound, early exits on bottom included.",
"all component domains and values",
"Quantifies over domains.",
["apron/ap_reducedproduct.c"])
p("C52","Octagon narrowing stays between its arguments and terminates",
"Narrowing A by B keeps every common point of A and B and adds no point outside A; every infinite sequence of narrowings with arbitrary right arguments is ultimately stationary.",
"all octagons, all number types, all infinite histories",
"Infinite histories, all points.",
["octagons/oct_nary.c:oct_narrowing"])
p("C53","Octagon widening with thresholds is sound and terminates for any threshold array",
"The result contains both arguments whatever the thresholds; sequences of widenings with a fixed threshold array stabilise.",
"all octagons, threshold arrays of any length, all infinite histories",
"Infinite histories.",
["octagons/oct_nary.c:oct_widening_thresholds"])
p("C54","Epsilon-enlargement never loses points",
"add_epsilon contains its argument and add_epsilon_bin both arguments for every non-negative epsilon.",
"all octagons, all non-negative epsilon, all number types",
"Rounding in all entries, all points.",
["octagons/oct_nary.c:oct_add_epsilon,oct_add_epsilon_bin"])
p("C55","Octagon values never get corrupted by any sequence of operations",
"For every octagon obtained by any sequence of API calls (constructors, lattice operations, widening, guards, assignments, dimension changes, ...) the emptiness, inclusion and equality tests agree with the constraints it exports: with exact numbers they decide satisfiability, entailment and equivalence; with any number type a positive answer is right, and caching the closure does not change the points.",
"all operation sequences of any length, all arguments accepted by the API",
"The closed form is cached and reused by later calls; a matrix wrongly flagged as closed produces wrong answers only after some later operation.",
["octagons/oct_internal.h:oct_t","octagons/oct_representation.c:oct_cache_closure"])
p("C56","Strict constraints on integer variables keep the integer solutions for every number type",
"Meeting an octagon with a strict constraint keeps each of its points satisfying the constraint whose integer variables hold integers, even when the coefficients are not representable in the number type of the octagon.",
"all number types, octagons, constraints, points",
"Depends on the rounding of a coefficient hitting an integer in one direction only.",
["octagons/oct_transfer.c:hmat_add_lincons","octagons/oct_transfer.c:oct_uexpr_of_linexpr"])
p("C57","Library-produced linear expressions keep their terms sorted",
"Sparse linear expressions list their dimensions in strictly increasing order, as every reader of them (coefficient lookup, addition, dimension changes) expects. The sum of two sorted interval expressions is sorted, and an expression returned to the user by ap_quasilinearize_linexpr0 is sorted.",
"all boxes, all expressions",
"Only expressions with several interval coefficients, some of which vanish or are moved, exercise the re-ordering code.",
["apron/ap_linearize_aux.c:ap_quasilinearize_linexpr0","itv/itv_linearize.c:itv_quasilinearize_linexpr","itv/itv_linexpr.c:itv_linexpr_add"])
p("C58","Strengthening constraints over integer dimensions keeps the integer solutions",
"Replacing a linear constraint whose dimensions are all integer by its integer-tightened form keeps every integer point that satisfies it, and adds none.",
"all number types, integer-dimension sets, constraints, integer points",
"The tightening divides by a gcd and rounds the constant; wrong directions only show for particular residues.",
["itv/itv_linexpr.c:itv_lincons_reduce_integer","itv/itv_linexpr.c:itv_lincons_array_reduce_integer"])
p("C59","Linearising an array of constraints always returns",
"ap_quasilinearize_lincons0_array, with any option, terminates without aborting on every array of constraints.",
"all number types, boxes, arrays of constraints of all five kinds",
"Termination depends on a work list which grows while it is traversed; the aborting inputs are degenerate congruences.",
["apron/ap_linearize_aux.c:ap_quasilinearize_lincons0_array","itv/itv_linearize.c:itv_quasilinearize_lincons_array","itv/itv_linearize.c:itv_eval_cstlincons"])
p("C60","Syntactic classification of linear expressions is right",
"An expression reported linear has exactly one value at each point; quasilinear ones vary by their constant only; 'only real/integer dimensions' means that no other dimension has a non-zero coefficient; the type of an array of expressions or constraints is the least precise type of its elements.",
"all expressions (dense, sparse with holes), all arrays",
"Every combination of representation, holes and early exits of the loops matters.",
["apron/ap_linexpr0.c:ap_linexpr0_type","apron/ap_linexpr0.c:ap_linexpr0_is_real","apron/ap_linexpr0.c:ap_linexpr0_array_type","apron/ap_lincons0.c:ap_lincons0_array_type"])
p("C62","Tests of linearity, polynomiality and determinism of tree expressions are right",
"A tree expression reported interval linear (polynomial, a fraction of polynomials) denotes a set of affine (polynomial, rational) functions of the point; one reported scalar, whose roundings are determined, has at most one value at each point; an array is reported so iff each of its elements is.",
"all trees, all points",
"A wrong answer makes the linearisation use the variant which does not look at the environment, on a tree of any depth.",
["apron/ap_texpr0.c:ap_texpr0_is_interval_linear","apron/ap_texpr0.c:ap_texpr0_is_interval_polynomial","apron/ap_texpr0.c:ap_texpr0_is_interval_polyfrac","apron/ap_texpr0.c:ap_texpr0_is_scalar"])
p("C63","Conversion between constraints and generators of polyhedra is exact",
"The generators (lines, rays, vertices) which the polyhedra library computes from a system of constraints generate exactly the real points satisfying the constraints, whatever the order of the constraints; constraints dropped during the conversion were redundant. The same holds when constraints are added to a system already converted, and the saturation information returned tells which generator saturates which constraint.",
"all systems of equalities and inequalities with integer coefficients, of any size, in any number of dimensions; all real points",
"The algorithm combines pairs of rays selected by a combinatorial adjacency test; a wrong pair only matters for some degenerate systems, and the result may miss points or keep points that are not on the tests' grid.",
["newpolka/pk_cherni.c:cherni_conversion"])
p("C64","The generators of a polyhedron computed from its constraints are irredundant",
"No ray or vertex computed from constraints is superfluous: removing any one of them loses points of the polyhedron.",
"all systems of constraints",
"A superfluous generator does not change the polyhedron, so tests on its points see nothing; but widening, number of generators and later adjacency tests depend on it.",
["newpolka/pk_cherni.c:cherni_conversion"])
p("C65","Normalising a row of a polyhedron keeps its meaning",
"Dividing a constraint or generator by the gcd of its coefficients keeps its kind and its set of points, and the resulting coefficients have no common divisor.",
"all integer vectors",
"The gcd is computed by repeated remainders over the whole vector, in place; wrong results depend on the position of the minimum.",
["newpolka/pk_vector.c:vector_gcd","newpolka/pk_vector.c:vector_normalize"])
p("C66","Minimising a polyhedron detects emptiness exactly and keeps its points",
  "When a convex polyhedron given by linear constraints is minimised (canonicalisation, minimisation, or addition of constraints to a minimal polyhedron), the library reports the empty polyhedron exactly when no real point satisfies the constraints; otherwise the resulting constraints, and the resulting generators, describe exactly the same points as the given constraints.",
  "all numbers of dimensions and constraints, all integer coefficients, all real points",
  "Tests compare a handful of polyhedra with a handful of points; a wrong redundancy test, a wrong Gauss pivot or a wrong saturation bit only shows on particular degenerate configurations, and the number of constraints, dimensions and the size of coefficients are unbounded.",
  ["newpolka/pk_cherni.c:400-640","newpolka/pk_cherni.c:653-825","newpolka/pk_satmat.c:95-165"])
p("C67","The constraints of a minimised polyhedron are irredundant",
  "After minimisation no inequality of the polyhedron is implied by the other constraints: dropping any of them strictly enlarges the set described.",
  "all polyhedra of any dimension and number of constraints",
  "Irredundancy is a statement about all points and all subsets of the remaining constraints; tests can only inspect the output for a few inputs, and redundancy by combination of several constraints is not visible by inspection.",
  ["newpolka/pk_cherni.c:576-640","newpolka/pk_cherni.c:653-735"])
p("C68","The tests on polyhedra are exact",
  "On two convex polyhedra of the same dimensions, the inclusion test answers true exactly when every point of the first is a point of the second, whatever representation (constraints, generators or both) each of them has, and whatever the algorithm option; with a non-negative algorithm option the emptiness test answers true exactly when the polyhedron has no point and the universality test exactly when it contains every point. The tests do not change the set denoted by their arguments.",
  "all polyhedra over rational constraints, any dimension, any representation state, all options",
  "The answers quantify over all points; the shortcuts (comparing the numbers of equalities and lines) are only correct because these numbers are ranks, which no finite set of examples shows.",
  ["newpolka/pk_test.c:27-206","newpolka/pk_representation.c:157-211","newpolka/pk_constructor.c:86-150"])
p("C69","The meet of two polyhedra is exactly the intersection",
  "pk_meet returns a polyhedron whose points are exactly the points common to its two arguments, lazily or strictly, destructively or not, and the arguments which are not destroyed denote the same sets as before.",
  "all pairs of polyhedra, any representation state, lazy and strict algorithms, destructive or not",
  "The strict algorithm starts from the saturation matrix cached in one of the arguments and adds the constraints of the other; whether the cached data are consistent depends on the history of operations.",
  ["newpolka/pk_meetjoin.c:55-312","newpolka/pk_meetjoin.c:488-498"])
p("C70","The join of two polyhedra is the least polyhedron containing both",
  "pk_join returns a polyhedron which contains all the points of its two arguments, and every half-space (hence every polyhedron) containing both arguments contains the result; the arguments which are not destroyed denote the same sets as before.",
  "all pairs of polyhedra, any representation state, all options, destructive or not",
  "Minimality is a quantification over all half-spaces; soundness is over all points, including recession directions.",
  ["newpolka/pk_meetjoin.c:55-312","newpolka/pk_meetjoin.c:604-618"])
p("C71","Assignment and substitution of polyhedra are exact",
  "For one or several dimensions at once and rational linear expressions, the assignment returns the polyhedron whose points are exactly the images of the points of the argument (other dimensions unchanged, all expressions evaluated in the old point), intersected with the destination if one is given; the substitution returns exactly the points whose image is in the argument, intersected with the destination. The argument denotes the same set as before when the operation is not destructive.",
  "all polyhedra, any representation state, all linear expressions with rational coefficients, all sets of distinct dimensions, lazy and strict algorithms, with or without destination",
  "The same code works on constraints or on generators, with the expression or its inverse, depending on the representation cached and on whether the expression is invertible; equality of sets of points quantifies over all real points.",
  ["newpolka/pk_assign.c:40-440","newpolka/pk_assign.c:528-828"])
p("C73","Changes of dimensions, forgetting, expansion and folding of polyhedra",
  "Adding dimensions returns exactly the points whose old coordinates are in the argument, the new ones being free or zero; removing and forgetting return exactly the projections (forgotten dimensions being free or zero); permuting renames the coordinates; expanding requires of the dimension and of each of its copies the constraints of the dimension; folding contains every point in which one of the folded dimensions takes the place of the first, and is contained in every half space which contains these points. Adding dimensions and removing them again gives back the same set. Arguments are unchanged when the operation is not destructive, and a result reported exact contains no other point.",
  "all polyhedra, any representation state, all lists of positions, lazy and strict algorithms, destructive or not",
  "The code edits constraint and generator rows and saturation matrices in place, in an order which depends on the representation cached; equality of sets of points quantifies over all real points.",
  ["newpolka/pk_resize.c:38-470","newpolka/pk_project.c:24-140","newpolka/pk_expandfold.c:34-320"])
p("C72","Polyhedra from linear constraints, rays and boxes",
  "pk_meet_lincons_array returns a polyhedron included in its argument which contains every point of the argument satisfying the constraints (with integer values on integer dimensions); with real dimensions, scalar coefficients and equalities or large inequalities it is exactly that set, and a result reported exact contains no other point. pk_add_ray_array returns exactly the points reached from the argument along the rays (forward) and lines (both directions). pk_of_box returns a polyhedron containing the box, equal to it for real dimensions; integer dimensions are tightened to integer bounds.",
  "all polyhedra, any representation state, all user constraints and generators (dense or sparse, interval coefficients for constraints), lazy and strict algorithms, destructive or not",
  "Constraints are scaled to integers, normalised, quasilinearised against bounds of the polyhedron and tightened on integer dimensions; equality with the mathematical set quantifies over all real points.",
  ["newpolka/pk_user.c:35-320","newpolka/pk_user.c:476-530","newpolka/pk_meetjoin.c:523-592","newpolka/pk_meetjoin.c:684-740","newpolka/pk_constructor.c:158-242"])
p("C75","Bounds of a polyhedron are exact",
  "pk_bound_dimension and pk_to_box return exactly the set of values taken by each dimension at the points of the polyhedron (the empty interval for an empty polyhedron); pk_bound_linexpr returns an interval containing every value of the expression at the points of the polyhedron, whatever the choice of interval coefficients, and exactly the set of values when the coefficients are scalars. The polyhedron denotes the same set as before.",
  "all polyhedra, any representation state, all dimensions, all user linear expressions with interval coefficients",
  "The bounds are the maximum over generators, infinite when a ray or a line allows it; that they bound all real points, and that they are attained, quantifies over all convex combinations.",
  ["newpolka/pk_extract.c:22-350","newpolka/pk_extract.c:420-470"])
p("C77","Satisfaction tests of polyhedra",
  "pk_sat_interval answers true exactly when the dimension has its values in the interval at all points. pk_sat_lincons answers true only when all points satisfy the constraint for each choice of its coefficients, and does so whenever this holds for equalities and large inequalities with scalar coefficients on real dimensions, and for strict inequalities when the answer is flagged exact. The polyhedron denotes the same set as before.",
  "all polyhedra, any representation state, all user constraints and intervals",
  "The test is made on finitely many generators; that it settles all points, with strict inequalities and unbounded directions, is a quantification over convex combinations.",
  ["newpolka/pk_test.c:97-140","newpolka/pk_test.c:248-450","newpolka/pk_user.c:237-280"])
p("C74","Widening of polyhedra is sound and terminates",
  "When the first argument is included in the second, pk_widening returns a polyhedron which contains both, equal to the second when the first is empty; when the two arguments have the same points, so has the result; and every increasing iteration in which each iterate is the widening of the previous one with any polyhedron containing it becomes stationary after finitely many steps. The arguments denote the same sets as before.",
  "all polyhedra, any representation state, both algorithms (keeping the positivity constraint or not), all infinite sequences of widening steps",
  "Termination is a statement about all infinite executions; it rests on the constraints of the first argument being irredundant and on comparing saturation sets, which only a counting argument on facets of polyhedra settles.",
  ["newpolka/pk_widening.c:27-212"])
p("C76","Meet and join of arrays of polyhedra",
  "pk_meet_array returns exactly the points common to all the polyhedra of a non-empty array; pk_join_array returns a polyhedron which contains all of them and is contained in every half-space (hence every polyhedron) which contains them, whatever the number of arguments, which of them are empty, and how many times the same polyhedron occurs in the array. The arguments denote the same sets as before and other polyhedra are not touched.",
  "all arrays of any size, any representation state, all options, all aliasing patterns",
  "The general case merges all the matrices into the one of a selected argument, discards empty arguments by exchanges and removes duplicated pointers in place; the interaction of these with aliasing depends on the number and the order of the pointers.",
  ["newpolka/pk_meetjoin.c:315-480","newpolka/pk_meetjoin.c:506-515","newpolka/pk_meetjoin.c:621-676"])
p("C78","Equality of polyhedra and unconstrained dimensions",
  "pk_is_eq answers true exactly when the two polyhedra have the same points, whatever representations are present, whether the canonical forms are compared row by row or two inclusion tests are made; the canonical form computed by the library depends only on the set of points. pk_is_dimension_unconstrained answers true only when the polyhedron is closed under changing the value of the dimension, and always does so on a non-empty polyhedron of this kind. The arguments denote the same sets as before.",
  "all pairs of polyhedra of the same dimensions, any history of operations, any representation state, all options, all dimensions",
  "The comparison of sorted, reduced matrices is complete only because minimal reduced normalised systems are unique, a theorem on all polyhedra; it depends on status bits left behind by every previous operation.",
  ["newpolka/pk_test.c:206-242","newpolka/pk_test.c:470-510","newpolka/pk_representation.c:245-290","newpolka/pk_representation.c:434-457","newpolka/pk_matrix.c:138-153"])
p("C79","Conversion of polyhedra to constraints and to generators",
  "The constraints returned by pk_to_lincons_array have exactly the points of the polyhedron as solutions (an unsatisfiable constraint for an empty one), the trivial constraints being dropped; the generators returned by pk_to_generator_array generate exactly the points of the polyhedron (none for an empty one), each vertex being divided by its denominator. The argument denotes the same set as before.",
  "all polyhedra, any representation state",
  "Which rows are dropped as dummy, and the split into vertices, rays and lines, depend on the minimised matrices; equality of the two infinite sets of points cannot be tested.",
  ["newpolka/pk_extract.c:396-530","newpolka/pk_vector.c:525-558"])
p("C80","Change of environment of a value with named variables",
  "ap_abstract1_change_environment gives a value on the new environment whose valuations are exactly those which agree, on the common variables, with a valuation of the argument (and are zero on the new variables when project is set); it raises invalid-argument and returns top on the new environment exactly when a variable has two types. ap_abstract1_minimize_environment drops only variables whose value does not matter: the result has exactly the valuations of the argument.",
  "all values of the box, polyhedra and octagon domains (octagons: exactly with exact numbers and algorithm >= 0, a superset otherwise), all pairs of environments, any ordered set of names",
  "The positions to add and to remove are computed by merging sorted arrays; correctness depends on how they interact for every pair of environments and every value.",
  ["apron/ap_abstract1.c:1004-1065","apron/ap_environment.c:680-805","apron/ap_abstract0.c:1215-1273","apron/ap_abstract0.c:1497-1515"])
p("C81","Meet, join and unification of values with named variables",
  "On the same environment ap_abstract1_meet is the exact intersection and ap_abstract1_join the least value of the domain containing both; on different environments these functions and the widening raise invalid-argument and return top. ap_abstract1_unify returns a value on the union of the environments which contains exactly the valuations that belong to both arguments.",
  "all pairs of values of the box, polyhedra and octagon domains (octagons: exactly with exact numbers and algorithm >= 0, a superset otherwise), all pairs of environments without a variable of two types",
  "Two dimension changes and a meet are composed; that names are matched correctly is a statement about all pairs of environments.",
  ["apron/ap_abstract1.c:646-658","apron/ap_abstract1.c:1263-1275","apron/ap_abstract1.c:1384-1431"])
p("C82","Renaming and forgetting named variables",
  "ap_abstract1_rename_array (distinct old names of the environment, no two variables with the same new name) gives a value whose environment has the new names, with their types, and whose valuations are exactly the old ones read through the renaming, also for exchanges of names. ap_abstract1_forget_array gives exactly the valuations obtained by changing the values of the listed variables (or setting them to zero), and raises invalid-argument iff one of them is unknown.",
  "all values of the box, polyhedra and octagon domains (octagons: exactly with exact numbers and algorithm >= 0, a superset otherwise), all renamings, all lists of variables",
  "After a renaming the names are sorted again and the dimensions permuted; every permutation can occur.",
  ["apron/ap_abstract1.c:974-1001","apron/ap_abstract1.c:1067-1092","apron/ap_environment.c:1009-1110"])
p("C83","Copies and folding of named variables",
  "ap_abstract1_expand adds the given new variables, with the type of the variable copied; the valuations of the result are exactly those in which replacing the value of the variable by that of any of the copies, or leaving it, gives a valuation of the argument. ap_abstract1_fold keeps the first variable of the list, drops the others, and its result is the least value of the domain which contains all the valuations in which the kept variable has the value of one of the folded ones. Invalid arguments raise an exception and give top.",
  "all values of the box, polyhedra and octagon domains (octagons: exactly with exact numbers and algorithm >= 0, a superset otherwise), all variables, all lists of names of one type",
  "The kept variable is not the one with the smallest dimension in general: sorting, folding and a final rotation of the dimensions have to cooperate for all positions.",
  ["apron/ap_abstract1.c:1098-1256","apron/ap_abstract0.c:1297-1385"])
p("C84","Constraints and assignments on values with named variables",
  "Expressions may be on a smaller environment than the value. ap_abstract1_meet_lincons_array adds constraints with the meaning they have in their own environment: exactly, for polyhedra, real variables, rational coefficients and non strict constraints; keeping all solutions with integer values on the integer variables in general. ap_abstract1_assign_linexpr_array and ap_abstract1_substitute_linexpr_array perform all assignments at once, each expression being read in its own environment: the exact image and inverse image for polyhedra and rational coefficients, a superset for boxes; with a destination the result is met with it.",
  "all values of the box, polyhedra and octagon domains (octagons: constraints and one substitution, a superset), all environments included in that of the value, all lists of constraints, of assignments",
  "The expression is renumbered for each environment; an error in the renumbering depends on the relative positions of names.",
  ["apron/ap_abstract1.c:694-726","apron/ap_abstract1.c:798-870","apron/ap_linexpr0.c:631-690"])
p("C85","Assignment of linear expressions given by the user, in polyhedra",
  "pk_assign_linexpr_array and pk_substitute_linexpr_array with rational coefficients compute exactly the image and the inverse image of the polyhedron by the simultaneous assignment, met with the destination, for one or several assignments; with interval coefficients the result contains every (inverse) image with integer values on the integer dimensions. The argument denotes the same set as before.",
  "all polyhedra, all arrays of expressions (dense or sparse, rational or interval coefficients), all representation states",
  "Three techniques are chosen from the shape of the expressions (invertible row, projection, generic method with primed dimensions); equality of infinite sets of points.",
  ["newpolka/pk_assign.c:449-668","newpolka/pk_assign.c:840-880","apron/ap_generic.c:247-380"])
p("C86","Expression trees in polyhedra",
  "For polyhedra and tree expressions (any operators except power, any roundings): the interval returned by pk_bound_texpr contains every value of the tree at the points of the polyhedron; if pk_sat_tcons answers true for an inequality then it holds at every point for every value of the tree; pk_meet_tcons_array keeps every point that satisfies the constraints and adds none; pk_assign_texpr_array and pk_substitute_texpr_array keep every image (inverse image) by the simultaneous assignment. Integer dimensions have integer values.",
  "all polyhedra, all representation states, all trees without power, all arrays of tree constraints and of tree assignments",
  "Trees are replaced by linear expressions with interval coefficients computed from the bounds of the polyhedron; soundness is about all real points and all roundings.",
  ["newpolka/pk_extract.c:350-390","newpolka/pk_test.c:317-360","newpolka/pk_meetjoin.c:592-597","newpolka/pk_assign.c:670-757","newpolka/pk_assign.c:882-912","apron/ap_generic.c:183-214","apron/ap_generic.c:382-510"])
p("C87","Expression trees in octagons",
  "For an octagon and a tree without power: the interval given for the tree contains its values at the points of the octagon; when the satisfaction test of a tree constraint other than a disequality answers true, the constraint holds at every point of the octagon for every value of the tree; the meet with tree constraints keeps the points where each constraint has a value that satisfies it and adds no point; parallel assignment and substitution of trees, with or without destination, lose no point. For disequalities the answer true can be wrong: [-1,1] != 0 is said to hold.",
  "all octagons, all options, all number types of the octagon (trees made linear with rational numbers), all trees without power, all arrays of tree constraints and of tree assignments",
  "Trees are replaced by linear expressions with interval coefficients computed from the bounds of the octagon; soundness is about all real points and all roundings.",
  ["octagons/oct_predicate.c:327-331","octagons/oct_predicate.c:414-419","octagons/oct_transfer.c:519-527","octagons/oct_transfer.c:1186-1203","apron/ap_generic.c:183-214","apron/ap_generic.c:382-510"])
p("C88","Octagons and generators",
  "Adding an array of generators to an octagon gives an octagon that contains everything reached from its points by following the rays forwards and the lines both ways, by adding the vertices (when the octagon is not empty) and by mixing points; coefficients may be intervals, in which case all the vectors are covered. With rational numbers and the closure enabled, it is the smallest octagon with this property, and an empty octagon stays empty. The octagon built from generators contains what they generate and, with rational numbers, is the smallest one; without any vertex it is empty.",
  "all octagons (all representation states), all number types for soundness, all arrays of generators with dense or sparse expressions and scalar or interval coefficients, any content of the working space",
  "The claim is about all real combinations of arbitrarily many generators, and minimality quantifies over all octagons.",
  ["octagons/oct_internal.h:326-355","octagons/oct_transfer.c:415-465","octagons/oct_transfer.c:529-553","octagons/oct_representation.c:166-196"])
p("C89","Approximation of polyhedra",
  "Approximating a polyhedron with a limit on the number of bits of its coefficients never loses a point (removal of the constraints, with or without interval and octagonal constraints in their place, rounding of the constraints). With interval constraints the range of each dimension stays the same. After removal or plain rounding the coefficients of the inequalities are within the limit; when they already are, removal changes nothing. Tightening for integer dimensions keeps all the points with integer values on these dimensions and adds none. Without limit, for the empty polyhedron, or with an unknown algorithm number, nothing changes.",
  "all well formed polyhedra in all representation states, all limits, all algorithm numbers",
  "Whether a point is lost is a statement about all real points, and the constants come from the minimum over all generators.",
  ["newpolka/pk_approximate.c:22-459","newpolka/pk_user.c:84-133","newpolka/pk_extract.c:97-162","newpolka/pk_matrix.c:263-282"])
p("C90","The domain of linear equalities",
  "Every operation of the domain of linear equalities returns an affine space: a set closed under the lines through two of its points. Meet and equality test are exact. The join, the meet with constraints (scalar coefficients, large constraints, real dimensions), adding rays or lines, removing or folding dimensions and the conversion of a non empty box give the smallest affine space that contains the exact result. Forgetting, expanding, and assigning or substituting linear expressions are exact; assigning an expression with an interval constant loses no point. An increasing iteration with the widening is stationary within d + 3 steps for d dimensions.",
  "all values of the domain and any number of dimensions, all constraints, generators, expressions and boxes, destructive or not; all increasing sequences for the widening",
  "Smallest quantifies over all affine spaces, exactness over all real points, termination over all iteration sequences.",
  ["newpolka/pkeq.c:77-105","newpolka/pkeq.c:142-311","newpolka/pkeq.c:321-496","newpolka/pkeq.c:520-583"])
p("C91","Disjunctions of abstract values",
  "A finite disjunction stands for the union of its components. Join and join_array give exactly the union; meet contains every common point and, when there is one, nothing else, and the arguments it simplifies in place keep their points. Minimize and canonicalize keep the points and leave pairwise different non empty components (or one empty component), after which is_bottom is exact. Meets with constraints, assignments, projections and changes of dimensions are sound, respectively exact, when the operation of the underlying domain is. Saturation tests, bounds of an expression and conversion to a box hold on all the components.",
  "all underlying domains with sound (or exact) functions, all numbers of components, all values, operations and points",
  "The claims range over every underlying domain, every number and order of components, and all real points.",
  ["apron/ap_disjunction.c:57-169","apron/ap_disjunction.c:214-238","apron/ap_disjunction.c:356-582","apron/ap_disjunction.c:649-858","apron/ap_disjunction.c:871-1209"])
p("C92","Expressions and constraints over named variables",
  "The coefficients of a linear expression are read and written by name: an error exactly for a variable that is not declared, and writing one changes no other. Its values are the constant plus the sum of the coefficients times the values of the variables. Extending the environment of an expression, a constraint, an array of constraints or a tree to one with more variables keeps the coefficient of each name, gives 0 to the new ones, and keeps the values and the solutions; extending it to an environment that lacks a variable is refused. Trees built by name have the values of their parts, operators are refused exactly for different environments, substitution of a variable binds it and nothing else, has_var bounds what the values depend on, and equal trees have the same values.",
  "all environments (any names, any number of variables), expressions, constraints, trees and valuations",
  "The claims range over all orders of names and positions of the new variables, all trees and real valuations.",
  ["apron/ap_linexpr1.c:64-147","apron/ap_lincons1.c:91-114","apron/ap_lincons1.c:176-202","apron/ap_texpr1.c:104-260","apron/ap_tcons1.c:56-79"])
p("C93","Hash codes",
  "Two octagons, two boxes, or two polyhedra that are equal get the same hash code: octagons that the library finds equal (any number type and option), with exact numbers octagons with the same points whatever their representation, boxes with the same points, polyhedra with the same points obtained by any sequence of calls. The code of an octagon tells nothing else than its number of dimensions and whether it is empty: all octagons with points and the same dimensions collide. The code of a box reads at most five of its intervals, whatever the number of dimensions, and the computation returns.",
  "all octagons and polyhedra (all representation states), all boxes, any number of dimensions, any conversion of numbers to integers",
  "Equality of codes is claimed for all pairs of representations of the same set of points.",
  ["octagons/oct_representation.c:285-300","box/box_representation.c:137-152","newpolka/pk_representation.c:361-381","newpolka/pk_vector.c:591-603","itv/itv.h:462-465","num/bound_def.h:527-535"])
open('/verif/properties.jsonl','w').write(''.join(json.dumps(x)+'\n' for x in P))
print(len(P))
