# Formal model of APRON: design and trusted base

Target: APRON (antoinemine/apron), C sources in /repo, read as text only.
Prover: Coq 8.16.1, sources in `rocq/theories`, logical name `Verif`.

* `properties.jsonl`: the properties, in terms of the API (generated by `tools/gen_props.py`).
* `MANIFEST.json`: which theorems prove which property (generated by `tools/gen_manifest.py`, notes in `tools/notes.json`).
* `ASSUMPTIONS.md`: `Print Assumptions` of every theorem of the manifest (`tools/gen_assumptions.py`).
* `seeded/LOG.jsonl`: wrong programs tried against the theorems (`tools/mutate.py`).

## 1. Trusted base

1. The kernel of Coq 8.16.1 (with `vm_compute`, used to evaluate concrete cases).
2. Axioms, all from the standard library: `ClassicalDedekindReals.sig_forall_dec`,
   `ClassicalDedekindReals.sig_not_dec`, `FunctionalExtensionality.functional_extensionality_dep`
   (construction of the real numbers of the library) and, for some theorems on polyhedra and on
   floating point formats, `Classical_Prop.classic`. `ASSUMPTIONS.md` has the list per theorem.
   No axiom is declared by this development; there is no section-less `Variable`, no
   `Admitted`, no functor, and no check is switched off.
3. The model: that the definitions below describe the C code. Each definition has a comment with the
   file and the lines it models, and the header of each file says what is simplified.
4. The specifications: what `points`, `in_itv`, `sat_lincons`, ... mean. They are small definitions on real
   vectors, independent of the algorithms (`PkSpec.v`, `TexprSem.v`, first part of the `Prop*.v` files).

## 2. Numbers

APRON is compiled several times, once per number type (`NUM_MPQ`, `NUM_DOUBLE`, ...). The domains use
macros on `num` and `bound`; every arithmetic macro is exact or rounds towards +oo; overflow gives +oo.
The model computes on `Q` with two infinities (`bound`). A number type is a record `numtype` whose rounding
`rnd : Q -> bound` only has to round upwards. Soundness theorems hold for every number type, exactness and
completeness theorems for `exact_num` (MPQ). Polyhedra use unbounded integers `Z` (MPZ). Points are real valued.

Not modelled: GMP and MPFR themselves, overflow of machine integers (`NUM_LONGINT`, `NUM_LONGLONGINT`,
`Rll`), NaN, the conversions of user scalars except where the theorem says so (constants are supposed
representable in the number type in some theorems, which say it).

## 3. What is modelled

| files of the model | code | properties |
|---|---|---|
| Bound, Itv | num/bound_def.h, itv/itv.h, itv/itv.c: arithmetic, lattice, widening, division, powers, square root, bit operations on intervals | C01-C06 |
| Linexpr, ItvLin | itv/itv_linexpr.*, itv/itv_linearize.c 1-725: evaluation, quasilinearisation, linearisation, integer tightening, constraints | C07-C10, C57-C59 |
| ItvTree, ItvTreeApi, TexprSem, FloatFmt | itv/itv_linearize.c 748-1645, apron/ap_linearize_aux.c 250-530: evaluation and linearisation of trees, with floating point rounding | C11, C12 |
| Hc4 | itv/itv_linearize.c 1660-2165: forward-backward refinement | C14 |
| Box, BoxSubst, BoxGen, BoxTree | box/*.c except box_policy.c, printing, serialisation; itv/itv_linearize.c 88-414 (boxize) | C13, C15-C21 |
| OctMat, Oct, OctTransfer | octagons/oct_hmat.c, oct_closure.c, oct_representation.c, oct_predicate.c, oct_nary.c, oct_resize.c, oct_transfer.c (linear operations) | C22-C37, C52-C56 |
| ApCore, ApCheck, ApTexpr | apron/ap_coeff.c, ap_scalar.c, ap_interval.c, ap_linexpr0.c, ap_lincons0.c, ap_dimension.c, ap_texpr0.c, ap_tcons0.c, and the argument checks of ap_abstract0.c | C38-C43, C46-C48, C60, C62 |
| ApEnv | apron/ap_environment.c | C44, C45 |
| Generic | apron/ap_generic.c (linear arrays), ap_abstract0.c (composition) for any domain given by a record of operations | C49, C50 |
| Hash, PkHash | oct_representation.c 285-300 (oct_hash), box_representation.c 137-152 (box_hash), itv.h 462-465, bound_def.h 527-535, pk_representation.c 361-381 (pk_hash), pk_vector.c 591-603; int has 32 bits and wraps (signed overflow is undefined in C), the conversion of a number to an integer is a parameter that respects equality | C93 |
| RedProd | apron/ap_reducedproduct.c except printing, hash, size, serialisation, compose/decompose; the component domains and the reduction are arbitrary | C51 |
| PkVec, PkCherni, PkSimplify, PkMinimize | newpolka/pk_vector.c, pk_cherni.c (conversion, simplification, minimisation), pk_satmat.c, pk_bit.c | C63-C67 |
| PkPoly, PkArray | newpolka/pk_representation.c, pk_constructor.c, pk_test.c, pk_meetjoin.c | C68-C70, C76 |
| PkMatrix, PkOps | newpolka/pk_matrix.c, pk_assign.c, pk_resize.c, pk_project.c, pk_expandfold.c, pk_widening.c | C71, C73, C74 |
| PkUser | newpolka/pk_user.c, pk_extract.c, pk_test.c 248-450, pk_meetjoin.c 523-740, pk_constructor.c 158-242 | C72, C75, C77 |
| PkLinUser | newpolka/pk_assign.c 449-510, 529-668, 840-880 (user expressions; flags left out) | C85 |
| GenericTree | apron/ap_generic.c 30-90, 183-214, 382-510 (trees; flag best left out) | C50, C86 |
| TreeShape | (facts) shape of the expressions produced by the linearisation | C86 |
| PkTree | newpolka/pk_meetjoin.c 592-597, pk_test.c 317-360, pk_extract.c 350-390, pk_assign.c 670-757, 882-912 (flags left out) | C86 |
| OctTree | octagons/oct_predicate.c 327-331, 414-419, oct_transfer.c 519-527, 1186-1203 (flags left out; trees linearised with rational numbers) | C87 |
| OctGen | octagons/oct_internal.h 326-355, oct_transfer.c 415-465, 529-553, oct_representation.c 166-196 (flags left out) | C88 |
| PkApprox | newpolka/pk_approximate.c 22-459, pk_user.c 95-133, pk_extract.c 97-162, pk_matrix.c 263-282 (non strict mode; flags and exceptions left out) | C89 |
| PkEq | newpolka/pkeq.c 77-583 (non strict mode; flags, exceptions and sharing of matrices left out) | C90 |
| Disj, DisjFacts | apron/ap_disjunction.c 57-1386 (the functions of the underlying domain are arguments; the functions that only raise NOT_IMPLEMENTED, flags, memory management, printing left out; the empty result of meet read as the top value of the domain) | C91 |
| Named | apron/ap_linexpr1.c 64-147, ap_linexpr1.h 286-287, ap_lincons1.c 91-114, 176-202, ap_texpr1.c 104-260, ap_tcons1.c 56-79 (copying and in place versions have one model; reference counts, null arguments, printing left out) | C92 |
| BoxSubstTree | box/box_assign.c 127-150 | C19 |
| Abs1 | apron/ap_abstract1.c 96-109, 280-286, 646-726, 798-870, 974-1275, 1384-1431 and the wrappers of apron/ap_abstract0.c they call; over an arbitrary record of domain functions, instantiated by boxes (Abs1Inst), polyhedra (Abs1InstPk) and octagons (Abs1InstOct). Left out: the flag destructive, reference counts, tree expressions, arrays of values | C80-C84 |
| PkCanon | newpolka/pk_representation.c 245-290, 434-457, pk_test.c 206-242 and 470-510, pk_matrix.c 138-153, pk_extract.c 396-530 | C78, C79 |

Conventions: C arrays are lists (or functions with an explicit size); in-place functions return the new
value; the arguments which change of representation (closure of octagons, second representation of
polyhedra) are returned too; `NULL`, the dereference of a null pointer, a failed allocation size or an
`abort()` is `None`; loops are structural recursion, folds, or recursion on a fuel that the theorems show to
be sufficient. `assert`s are preconditions or are ignored. Argument checks of the user interface are
preconditions of the domain theorems, and are themselves the subject of C47.

## 4. What is not modelled

* Memory: allocation, freeing, sharing, leaks. Aliasing only where it is observable (C76 has a heap of polyhedra).
* The domains and bindings of: avoct, fppol, ppl, pplite, products (pkgrid), taylor1plus, apronxx, japron, mlapronidl.
* apron: managers and exceptions (ap_manager.c), policies, generators of level 1 (ap_generator1.c), reading of
  arguments from variadic lists, printing and parsing, serialisation.
* itv: the branch of the integer reduction specific to floating point numbers; holes inside linear expressions
  during their construction.
* box: box_policy.c, printing, serialisation.
* octagons: serialisation; `flag_exact`/`flag_best` are modelled only where a theorem mentions them.
* disjunctions: result flags, memory management, serialisation.
* newpolka: strict mode (`pk->strict`, the epsilon dimension: pk_closure.c, cherni_minimizeeps, ...), limits on the
  size of coefficients and the exceptions they raise, serialisation, `pk_widening_threshold` (dead code). The
  dichotomy in sorted saturation matrices is modelled by a search of the first equal row, the quicksorts by
  insertion sorts. Integer dimensions: the set of points of a polyhedron is a set of real points; theorems on
  constraints say what happens to the integer ones.

## 5. How the properties are proved

- C01-C05: case analysis on signs/infinities down to lemmas on `Q`, lifted to `R`.
- C06, C17, C28: a measure (number of finite bounds) decreasing at every strict change.
- C07, C09-C12: induction over term lists / trees with a denotation as sets of reals.
- C13, C14: induction over rounds; each elementary refinement keeps solutions.
- C15-C21: pointwise lifting of interval lemmas.
- C22: arithmetic on the triangular index.
- C23-C27, C29: the half-matrix Floyd-Warshall is compared to shortest paths; completeness through the extension
  lemma (a partial solution of a strongly closed coherent matrix extends to one more variable).
- C30-C37, C52-C56: case by case on the expression classification.
- C32, C33 for several variables: OctAssignArr and OctSubstArr follow one point through the enlarged matrix (temporary dimensions hold the values of the expressions); the defect of the single assignment does not occur there, since the cells it reads by mistake hold 0.
- C38-C48, C57-C62: induction on lists and trees; several are refuted, with a witness.
- C49, C50: the domain is a record of operations with soundness hypotheses, instantiated by boxes.
- C51: the meaning of an operation is a monotone function on sets of points; the loop over the components is sound for any
  such function, and exact when the function commutes with intersections. The hypotheses are met by boxes and polyhedra.
- C63-C67: invariant of the double description method (each minimal ray is identified by the constraints it
  saturates); Farkas' lemma and Steinitz' exchange lemma are proved in PkFarkas.v, PkRank.v.
- C68-C77: a polyhedron is well formed when its two representations form a minimal double description; every
  operation is shown to keep this and to compute the set it should. C74 (termination of the widening): a measure
  (dimension of the affine hull, dimension of the lineality space, number of facets) in lexicographic order.
- C78: minimal, reduced and normalised systems of the same cone have the same rows (PkCanonUniq.v), hence sorted
  ones are equal; an invariant on the status flags (PkCanonHon.v) gives the hypotheses; every call of the library keeps
  it (PkCanonClos, PkCanonOps, PkCanonOps2, PkCanonAdd, PkCanonArr, collected in PropPkBuilt.v).
- C80-C84: a domain is a record of functions with a specification (`dspec`); a valuation of names is read as a point
  through the sorted names of the environment; the dimension changes computed by ap_environment.c (C44, C45) are
  shown to move each coordinate where its name goes.
- C85: from C71 (expressions as integer rows) and C50 (generic method).
- C86: linearisation of trees (C11, C12), then C72, C75, C77, C85 and the generic method on trees (C50).
- C87: as C86, with C31, C34, C36 for octagons and the generic method on trees (C50); C31_meet_lincons_below by induction on the constraints (every update is a minimum).
- C88: every cell of the half matrix is visited once (each_cell_at); soundness by induction on the generated set; minimality from the tightness of closed matrices and from the vectors of a generator that reach its bounds.
- C89: removal keeps a subset of the rows (drop_in); interval rows are those of the ranges given by C75; a rounded row has as constant the floor of the minimum over the generators (rounded_spec, from bound_loop_spec); integer tightening row by row from norm_int_spec; algorithm 3 refuted by computation.
- C90: every point on the equality rows lies on a line through two points of the polyhedron (equalities_hull: a strictly interior point exists, move slightly towards the target), hence equality_reduce gives the affine hull (reduce_repr); the operations follow from the theorems for polyhedra; widening: the equality rows are independent (minimal form), a larger space has its rows in the span of the smaller's, Steinitz exchange bounds the chain (eqs_count).
- C91: the loops over arrays with NULL entries (indices of the bottom and top entries) are restated as filters on lists (nbt_eq, elim_eq); the set of points is then followed through the filters; the restated loops are also used for irredundancy; bounds by induction on the components; refutations on boxes of one dimension.
- C92: names are turned into dimensions by C44, the dimension change of C45 moves each name to its new place, the level 0 theorems (C40, C42, C43) give the values; refutations

Properties found to be false of the code are proved as `..._refuted` with a concrete witness, next to a theorem
with the side condition under which the claim does hold (suffix `_partial` when it is the main statement).
