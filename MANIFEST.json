{
 "claims": [
  {
   "property": "C01",
   "status": "proved",
   "theorems": [
    "C01_ones"
   ],
   "note": "every 64-bit argument"
  },
  {
   "property": "C02",
   "status": "proved",
   "theorems": [
    "C02_swaps"
   ],
   "note": "every pair of 64-bit blades"
  },
  {
   "property": "C03",
   "status": "proved",
   "theorems": [
    "C03_successor",
    "C03_first",
    "C03_enumeration"
   ],
   "note": "spaces of up to 63 dimensions (the bitset mask of a 64-dimensional space overflows the successor's addition)"
  },
  {
   "property": "C04",
   "status": "proved",
   "theorems": [
    "C04_lowest",
    "C04_index",
    "C04_visit"
   ],
   "note": "every 64-bit argument and every visitor"
  },
  {
   "property": "C05",
   "status": "partial",
   "theorems": [
    "C05_highest_partial",
    "C05_highest_refuted",
    "C05_highest_exact"
   ],
   "note": "holds for arguments below 2^8, and exactly for the words without a gap of seven zeros (C05_highest_exact); refuted otherwise: the code shifts by 1 at every doubling step, so e.g. 2^8 gives 2^8-1. Missing: the full statement is false of the code"
  },
  {
   "property": "C06",
   "status": "proved",
   "theorems": [
    "C06_gcd",
    "C06_ipow",
    "C06_isqrt"
   ],
   "note": "gcd on non-negative arguments (the only use), ipow for non-negative exponents, isqrt = floor"
  },
  {
   "property": "C07",
   "status": "proved",
   "theorems": [
    "C07_sum"
   ],
   "note": "every pair of well-formed expressions (the shape every library-built expression has, which the result keeps), whenever the template recursion terminates"
  },
  {
   "property": "C08",
   "status": "proved",
   "theorems": [
    "C08_product"
   ],
   "note": "as C07"
  },
  {
   "property": "C09",
   "status": "partial",
   "theorems": [
    "C09_power_partial",
    "C09_power_refuted"
   ],
   "note": "proved when the base is atomic, the exponent value is an integer, or the factors of the base are non-negative; refuted otherwise (sqrt(x^2) becomes x). Missing: the unconditional statement is false of the code"
  },
  {
   "property": "C10",
   "status": "partial",
   "theorems": [
    "C10_exact",
    "C10_value",
    "C10_product_lowest",
    "C10_sum_lowest_partial",
    "C10_sum_lowest_refuted"
   ],
   "note": "exactness proved for all; lowest terms proved for products and for sums except integer + fraction, where the code leaves a sum (refuted by 1 + 3/2)"
  },
  {
   "property": "C11",
   "status": "partial",
   "theorems": [
    "C11_range",
    "C11_no_overflow",
    "C11_eval_float_partial",
    "C11_eval_partial",
    "C11_eval_refuted"
   ],
   "note": "proved for every expression without a quotient of two integral operands, up to reported integer overflow; refuted for 3/2, which evaluates to 1; integral results are 64-bit numbers (C11_range, for sums, products, powers, absolute values, signs and selections); no overflow without integer arithmetic (C11_no_overflow, C11_eval_float_partial)"
  },
  {
   "property": "C12",
   "status": "proved",
   "theorems": [
    "C12_sum",
    "C12_negation",
    "C12_difference"
   ],
   "note": "every pair of well-formed multivector expressions (constant or run-time blades), whenever the template recursion terminates; negation and difference for blades of at most 63 basis vectors"
  },
  {
   "property": "C13",
   "status": "partial",
   "theorems": [
    "C13_order",
    "C13_commutes_partial",
    "C13_plus"
   ],
   "note": "order, uniqueness and the exact list of blades proved for every pair; equality of the two operand orders proved when a+b and b+a of the coefficients of common blades simplify to the constant 0 together (missing: that this is always so); for multivectors that store their coefficients A + B and B + A are the same object (C13_plus); C54_refuted shows that it is not: one order may not compile while the other gives a result"
  },
  {
   "property": "C14",
   "status": "proved",
   "theorems": [
    "C14_gp",
    "C14_coefficients",
    "C14_gp_scalar"
   ],
   "note": "every signature of at most 63 dimensions, every pair of well-formed multivector expressions; also scalar arguments, for which the library uses another metric"
  },
  {
   "property": "C15",
   "status": "proved",
   "theorems": [
    "C15_associative",
    "C15_distributive",
    "C15_distributive_left",
    "C15_unit",
    "C15_squares",
    "C15_anticommute"
   ],
   "note": "as C14"
  },
  {
   "property": "C16",
   "status": "proved",
   "theorems": [
    "C16_op",
    "C16_associative",
    "C16_vector_square",
    "C16_commute",
    "C16_grades",
    "C16_metric_free"
   ],
   "note": "every dimension up to 63"
  },
  {
   "property": "C17",
   "status": "proved",
   "theorems": [
    "C17_lcont",
    "C17_rcont",
    "C17_sp",
    "C17_dot",
    "C17_hip",
    "C17_grade_parts",
    "C17_lcont_of_gp"
   ],
   "note": "as C14; bilinearity is part of is_product"
  },
  {
   "property": "C18",
   "status": "proved",
   "theorems": [
    "C18_rp",
    "C18_unit",
    "C18_associative",
    "C18_dual"
   ],
   "note": "every dimension up to 63; also associativity and duality with the exterior product"
  },
  {
   "property": "C19",
   "status": "proved",
   "theorems": [
    "C19_reversion",
    "C19_involution",
    "C19_conjugation",
    "C19_reverse_twice",
    "C19_involute_twice",
    "C19_conjugate_twice",
    "C19_reverse_product",
    "C19_involute_product",
    "C19_conjugate_composes"
   ],
   "note": "every dimension up to 63"
  },
  {
   "property": "C20",
   "status": "proved",
   "theorems": [
    "C20_gp",
    "C20_lcont",
    "C20_rcont",
    "C20_sp",
    "C20_dot",
    "C20_hip",
    "C20_op",
    "C20_rp"
   ],
   "note": "every product and signature; operands are arbitrary multivectors mixing compile-time and run-time blades"
  },
  {
   "property": "C21",
   "status": "proved",
   "theorems": [
    "C21_lazy_eval"
   ],
   "note": "every canonical expression with compile-time blades whose coefficients are built from the context's getters, integers, sums, products, powers and one-argument functions without a division of two integers; a signed integer overflow is reported as such"
  },
  {
   "property": "C22",
   "status": "proved",
   "theorems": [
    "C22_arguments"
   ],
   "note": "every list of inputs, also with run-time blades and getters of enclosing contexts (tags as unbounded numbers; the code's 16-bit tags wrap after 65535)"
  },
  {
   "property": "C23",
   "status": "partial",
   "theorems": [
    "C23_refuted",
    "C23_storage_refuted",
    "C23_order_refuted"
   ],
   "note": "false of the code: three refutations (values lost, storage overflow, stored values exchanged). Missing: the full statement cannot hold"
  },
  {
   "property": "C24",
   "status": "proved",
   "theorems": [
    "C24_gp",
    "C24_lcont",
    "C24_rcont",
    "C24_sp",
    "C24_dot",
    "C24_hip",
    "C24_outer",
    "C24_regressive",
    "C24_plus",
    "C24_minus",
    "C24_neg",
    "C24_reverse",
    "C24_involute",
    "C24_conjugate",
    "C24_gp_scalar",
    "C24_gp_rational"
   ],
   "note": "every signature of at most 63 dimensions; objects with compile-time blades whose coefficients are stored or integer constants (results are again such objects); a run that overflows 64-bit integers is reported as such; that a call compiles is a hypothesis"
  },
  {
   "property": "C25",
   "status": "proved",
   "theorems": [
    "C25_inv",
    "C25_law",
    "C25_inverse",
    "C25_igp",
    "C25_divide"
   ],
   "note": "objects with compile-time blades and stored or rational coefficients, signed spaces up to 63 dimensions; [exact] excludes calls whose evaluation computes a quotient of two integers (C11)"
  },
  {
   "property": "C26",
   "status": "partial",
   "theorems": [
    "C26_rnorm_sqr",
    "C26_euclidean",
    "C26_rnorm_partial",
    "C26_rnorm_refuted"
   ],
   "note": "rnorm_sqr for every object. rnorm: a square root of rnorm_sqr when rnorm_sqr is a sum, a stored value or a sure non-negative power, and the non-negative one in the first two cases (multivectors with two or more stored coefficients); refuted for one stored coefficient: rnorm(x e1) is x also for x < 0"
  },
  {
   "property": "C27",
   "status": "proved",
   "theorems": [
    "C27_dual",
    "C27_undual",
    "C27_undual_dual",
    "C27_dual_undual",
    "C27_exchange"
   ],
   "note": "objects as in C25; every non-zero multiple of the pseudoscalar of a non-degenerate signed space"
  },
  {
   "property": "C28",
   "status": "proved",
   "theorems": [
    "C28_even",
    "C28_odd",
    "C28_rotor",
    "C28_even_laws",
    "C28_odd_laws",
    "C28_rotor_laws"
   ],
   "note": "objects as in C25; the laws hold for every V such that V reverse(V) is a non-zero scalar"
  },
  {
   "property": "C29",
   "status": "proved",
   "theorems": [
    "C29_take_grade",
    "C29_take_negative",
    "C29_take_grade_runtime",
    "C29_take_grade_type",
    "C29_sum",
    "C29_grade",
    "C29_grade_homogeneous",
    "C29_largest_grade",
    "C29_take_largest_grade"
   ],
   "note": "take_grade: objects with stored or rational coefficients, constant grades, and (stored or integer coefficients) run-time grades; every expression with run-time blades at type level; grade, largest_grade, take_largest_grade: stored or integer coefficients, stored tolerance"
  },
  {
   "property": "C30",
   "status": "partial",
   "theorems": [
    "C30_runtime_copy",
    "C30_runtime_checked",
    "C30_constants",
    "C30_copy_partial",
    "C30_checked_partial",
    "C30_compiles_partial"
   ],
   "note": "compile-time blades with stored, integer or exactly computed constant coefficients, of any coefficient types, including which copies compile; run-time blades with stored and integer coefficients: every component is copied, a checked copy leaves out coefficients up to the tolerance only. Missing: map storage, the state of the destination after an exception, which copies of run-time blades compile"
  },
  {
   "property": "C31",
   "status": "partial",
   "theorems": [
    "C31_visits_partial",
    "C31_visits_value_partial",
    "C31_refuted"
   ],
   "note": "every type, compile-time or stored blades, whose coefficients are stored, integers, or constants of an object with a non-integral coefficient type. Refuted otherwise: a constant fraction of an object with an integral coefficient type is cast, so c<1>/c<2> is visited as 0. Map storage is not modelled"
  },
  {
   "property": "C32",
   "status": "proved",
   "theorems": [
    "C32_determinant"
   ],
   "note": "the minor selected by any two blades of equal grade, of any matrix whose entries are well formed expressions with values"
  },
  {
   "property": "C33",
   "status": "partial",
   "theorems": [
    "C33_exists",
    "C33_unique",
    "C33_orthogonal",
    "C33_gp_partial",
    "C33_lcont_partial",
    "C33_rcont_partial",
    "C33_sp_partial",
    "C33_dot_partial",
    "C33_hip_partial",
    "C33_vectors",
    "C33_vectors_sp",
    "C33_refuted"
   ],
   "note": "conformal spaces and symmetric integer matrices of any dimension up to 63; the law of two vectors (C33_vectors) is proved in full; the products of multivectors are proved for every left factor and right factors with components of grade at most 7 (at most 8 if the left factor has grade at most 7) and refuted for right factors of grade 9; the product is characterised by axioms (unit, associativity, vector times blade) shown to have exactly one solution; entries that are run-time values are not covered at the level of objects"
  },
  {
   "property": "C34",
   "status": "proved",
   "theorems": [
    "C34_conformal_point",
    "C34_conformal_distance",
    "C34_conformal_null",
    "C34_minkowski_point",
    "C34_minkowski_distance",
    "C34_minkowski_null",
    "C34_homogeneous_point",
    "C34_translate",
    "C34_translate_point",
    "C34_translate_direction",
    "C34_translate_blade",
    "C34_translate_flat",
    "C34_translate_twice",
    "C34_euclidean_vector",
    "C34_iterators"
   ],
   "note": "native coordinates (built-in integers or floating point), every dimension up to the limit; homogeneous translations of every multivector"
  },
  {
   "property": "C35",
   "status": "partial",
   "theorems": [
    "C35_origin_refuted",
    "C35_is_null",
    "C35_is_unit",
    "C35_is_zero_partial",
    "C35_is_zero_constants_partial",
    "C35_refuted"
   ],
   "note": "is_null and is_unit for every object with stored and integer coefficients; is_zero for objects with compile-time blades, same coefficients as C31; refuted for constant fractions: is_zero(c<1>/c<2>) is true"
  },
  {
   "property": "C36",
   "status": "proved",
   "theorems": [
    "C36_cp",
    "C36_cp_laws",
    "C36_dp"
   ],
   "note": "cp with its laws: objects as in C25; dp: stored or integer coefficients, stored tolerance, product types whose constant coefficients are integers"
  },
  {
   "property": "C37",
   "status": "proved",
   "theorems": [
    "C37_exp",
    "C37_series",
    "C37_blade",
    "C37_inverse"
   ],
   "note": "objects with stored and integer coefficients whose square depends on the stored values or is an integer, and whose result type has no quotient of two integers (C11); the tolerance is honoured; the power series and exp(B) exp(-B) = 1 for every multivector of scalar square"
  },
  {
   "property": "C38",
   "status": "partial",
   "theorems": [
    "C38_abs_partial",
    "C38_abs_refuted",
    "C38_even_refuted"
   ],
   "note": "proved for expressions of settled sign, rational constants, and non-constant expressions the library does not consider non-negative; refuted for abs(exp(c<1>)), which is -exp(1), and for abs(pow(x, pow(y, 2))), which is taken for non-negative"
  },
  {
   "property": "C39",
   "status": "partial",
   "theorems": [
    "C39_partial",
    "C39_refuted"
   ],
   "note": "refuted: e(i) + e(j) with run-time indices writes past its storage. Proved: negation, multiples and sums of run-time vectors and bivectors with scalars and with one another (C39_partial). Missing: the full statement is false of the code; sums of longer multivectors"
  },
  {
   "property": "C40",
   "status": "proved",
   "theorems": [
    "C40_vector",
    "C40_full_multivector",
    "C40_derived",
    "C40_grade_range",
    "C40_basis_blade",
    "C40_basis_blade_refuted",
    "C40_pseudoscalar"
   ],
   "note": "every dimension up to 63; coordinates: native numbers or scalars whose coefficient is stored or an integer constant; a template recursion depth that suffices exists for every full type. Also derived types, grade ranges, index lists, pseudoscalar; a repeated index in an index list is refuted"
  },
  {
   "property": "C41",
   "status": "partial",
   "theorems": [
    "C41_sign",
    "C41_count",
    "C41_shift",
    "C41_negation",
    "C41_bitwise",
    "C41_logic",
    "C41_exp_log",
    "C41_equal_partial",
    "C41_equal_refuted"
   ],
   "note": "proved for all but equality of two constant non-integer expressions, where types are compared instead of values (refuted: 1 + 3/2 versus 5/2)"
  },
  {
   "property": "C42",
   "status": "proved",
   "theorems": [
    "C42_deterministic"
   ],
   "note": "every pair of expressions and all recursion depths"
  },
  {
   "property": "C43",
   "status": "proved",
   "theorems": [
    "C43_cbrt",
    "C43_functions",
    "C43_roots"
   ],
   "note": "cbrt is proved for every sign (C43_cbrt), with the cube as its specification"
  },
  {
   "property": "C44",
   "status": "partial",
   "theorems": [
    "C44_unit_partial",
    "C44_unit_scalar",
    "C44_orientation_refuted"
   ],
   "note": "A divided by a square root of |A ~A|, of squared norm 1 or -1; the root may be the negative one (refuted: unit(x e1) is e1 for x < 0); scalars keep their sign"
  },
  {
   "property": "C45",
   "status": "partial",
   "theorems": [
    "C45_round_location",
    "C45_round_size_sqr",
    "C45_dual_round_size_sqr",
    "C45_round_direction",
    "C45_tangent_direction",
    "C45_tangent_location",
    "C45_flat_direction",
    "C45_flat_location",
    "C45_dual_flat_location"
   ],
   "note": "conformal model of dimension at most 5 (from 7 on products are wrong, C33_refuted) and Minkowski variant of every dimension; objects with stored and rational coefficients and no quotient of two integers in the result type (C11); the location of a flat is the vector no + x + |x|^2 ni, which is not the point no + x + |x|^2/2 ni; dual_{flat,round,tangent}_direction call a function that does not exist and are not modelled"
  },
  {
   "property": "C46",
   "status": "proved",
   "theorems": [
    "C46_flat_direction",
    "C46_flat_moment",
    "C46_flat_support_vector",
    "C46_flat_unit_support_point"
   ],
   "note": "objects with stored and rational coefficients and no quotient of two integers in the result type (C11)"
  },
  {
   "property": "C47",
   "status": "partial",
   "theorems": [
    "C47_inv",
    "C47_igp",
    "C47_dual",
    "C47_undual",
    "C47_even",
    "C47_odd",
    "C47_rotor",
    "C47_laws"
   ],
   "note": "spaces of dimension at most 7 (C33_refuted), metric matrices of integer constants; objects as in C25"
  },
  {
   "property": "C48",
   "status": "proved",
   "theorems": [
    "C48_project",
    "C48_reject"
   ],
   "note": "objects as in C25; the attitude of the subspace is any homogeneous multivector of non-zero square"
  },
  {
   "property": "C49",
   "status": "partial",
   "theorems": [
    "C49_fast_join_partial",
    "C49_high_grades_refuted",
    "C49_swap"
   ],
   "note": "blades of grade at most 7 (from 8 on the join type is too small: refuted), stored and integer coefficients, not both arguments of integral types, coefficients above the tolerance, and no integer quotient in the unit multivectors (C44); overflow of 64-bit integers is an outcome; the orientation is stated for exchanged arguments of different grades only (C49_swap)"
  },
  {
   "property": "C50",
   "status": "partial",
   "theorems": [
    "C50_fast_meet_partial"
   ],
   "note": "as C49, and the inverse of the join is computed without a quotient of two integers"
  },
  {
   "property": "C51",
   "status": "partial",
   "theorems": [
    "C51_fast_plunge_partial",
    "C51_plunge_partial"
   ],
   "note": "as C49 for fast_plunge and as C52 for plunge, and the duals are computed without a quotient of two integers; the Euclidean metric only"
  },
  {
   "property": "C52",
   "status": "partial",
   "theorems": [
    "C52_meet_and_join_partial",
    "C52_refuted"
   ],
   "note": "grades up to 7 (see C49); inverses and duals computed without a quotient of two integers; a call that returns: the returned meet or join may be zero; with a positive tolerance containment instead of equality; refuted without 'a call that returns': the meet of (e1 + e2)^e3 with itself in four dimensions divides by zero"
  },
  {
   "property": "C53",
   "status": "proved",
   "theorems": [
    "C53_text",
    "C53_unambiguous",
    "C53_faithful"
   ],
   "note": "stored or integer coefficients, stored or compile-time blades; numbers and basis vectors printed as non-empty words without spaces, brackets and carets"
  },
  {
   "property": "C54",
   "status": "partial",
   "theorems": [
    "C54_refuted",
    "C54_negative_refuted",
    "C54_gp",
    "C54_lcont",
    "C54_rcont",
    "C54_sp",
    "C54_dot",
    "C54_hip",
    "C54_outer",
    "C54_regressive",
    "C54_plus",
    "C54_reverse",
    "C54_involute",
    "C54_conjugate",
    "C54_neg",
    "C54_minus",
    "C54_scale",
    "C54_blade_right",
    "C54_blade_left",
    "C54_formula"
   ],
   "note": "refuted in general (C54_refuted): (-x + 3/2 x) + (x - 3/2 x) inside a lazy context recurses forever, the opposite order gives 0; -pow(c<-3>, c<-1>) does not compile (C54_negative_refuted); proved for multivectors that store all their coefficients, with an explicit recursion depth that depends on the dimension only; products with a constant basis blade included; missing: other objects with constant coefficients, run-time blades"
  },
  {
   "property": "C55",
   "status": "proved",
   "theorems": [
    "C55_conformal_axes",
    "C55_minkowski_axes",
    "C55_conformal_Ie",
    "C55_minkowski_Ie",
    "C55_homogeneous_Ie",
    "C55_compiles",
    "C55_plane_based"
   ],
   "note": "the conformal products are proved for every dimension in which they compile and shown to compile for one to five base dimensions (the library defines one to three)"
  },
  {
   "property": "C56",
   "status": "partial",
   "theorems": [
    "C56_vectors_partial",
    "C56_bivectors_partial",
    "C56_inner_partial",
    "C56_small_partial",
    "C56_signs_partial",
    "C56_grades_partial"
   ],
   "note": "run-time vectors: geometric products in Euclidean metrics and in metrics whose last basis vector squares to -1 or to 0, and outer products (C56_vectors_partial); a run-time vector with a run-time bivector, in both orders: Euclidean geometric products and outer products (C56_bivectors_partial); C56_small_partial adds the spaces with fewer dimensions, whose types differ; contractions and scalar products of run-time vectors and bivectors in Euclidean metrics (C56_inner_partial); reversion, involution and conjugation of a run-time blade of any grade (C56_signs_partial); Euclidean geometric products, outer products and contractions of a run-time vector with a run-time blade of any grade, in both orders (C56_grades_partial). All up to 63 dimensions. Missing: products of two blades of grades above 2, other metrics, the remaining products"
  }
 ]
}