{"id": "C01", "title": "Population count is exact", "statement": "The bit-trick population count used for grades returns the number of set bits of its 64-bit argument.", "quantifier": "every 64-bit word", "why_tests_cant": "2^64 inputs; the SWAR masks and the multiply-by-0x01.. step can be wrong for a few words only", "anchors": ["cpp/include/gatl/ga/core/constexpr.hpp: ones"]}
{"id": "C02", "title": "Sign of a blade product", "statement": "The sign the library attaches to the product of two basis blades is (-1)^s where s is the number of pairs (p in left blade, q in right blade) with p > q, i.e. the number of swaps needed to bring the concatenated factors into canonical order.", "quantifier": "every pair of basis blades of every dimension up to 64", "why_tests_cant": "pairs of blades grow as 4^n; tests tabulate n <= 3 only", "anchors": ["cpp/include/gatl/ga/core/constexpr.hpp: swaps_count", "cpp/include/gatl/ga/core/expression.hpp: reordering_sign"]}
{"id": "C03", "title": "Combination enumeration", "statement": "Starting from the first k-subset of an n-element basis, the successor function visits every bitset with exactly k ones below 2^n exactly once, in increasing order, and then reports the end; it is what fixes which blade each coordinate of a k-vector belongs to.", "quantifier": "every n <= 63 and every k <= n", "why_tests_cant": "binomial(63,k) subsets for each k; a carry bug would only show for particular bit patterns", "anchors": ["cpp/include/gatl/ga/core/constexpr.hpp: first_combination, next_combination", "cpp/include/gatl/ga/util/multivector.hpp: make_kvector_expression"]}
{"id": "C04", "title": "Lowest factor / factor index", "statement": "The lowest-factor bit trick returns the lowest set bit, and the index function returns its position, so that iterating over the basis vectors of a blade visits each factor exactly once in increasing order and stops early exactly when told to.", "quantifier": "every 64-bit blade and every visitor", "why_tests_cant": "all 2^64 blades and all early-stop behaviours of the visitor", "anchors": ["cpp/include/gatl/ga/core/constexpr.hpp: rightmost_set_bit, set_bit_index", "cpp/include/gatl/ga/util/for_each_basis_vector.hpp"]}
{"id": "C05", "title": "Highest possible grade", "statement": "The highest-set-bit function, used to bound the largest possible grade of an expression, returns the highest set bit of its argument.", "quantifier": "every 64-bit word", "why_tests_cant": "the shipped tests only use small grades; the doubling loop must be right for all positions of the top bit", "anchors": ["cpp/include/gatl/ga/core/constexpr.hpp: leftmost_set_bit", "cpp/include/gatl/ga/core/general_metric_mapping.hpp"]}
{"id": "C06", "title": "Exact compile-time integer helpers", "statement": "gcd, integer power and integer square root return the mathematical value for all arguments in their domain (isqrt returns the floor of the root).", "quantifier": "every integer argument in the domain", "why_tests_cant": "infinitely many arguments; the simplifier silently produces wrong constants if one is off", "anchors": ["cpp/include/gatl/ga/core/constexpr.hpp: gcd, ipow, isqrt"]}
{"id": "C07", "title": "Sum simplification preserves value", "statement": "The expression the library builds for a + b evaluates, for every value of the run-time coefficients for which a and b are defined, to value(a) + value(b).", "quantifier": "every pair of well-formed coefficient expressions and every assignment of the run-time values", "why_tests_cant": "the rewriting is over all expression types, an infinite set; tests compare a few printed types", "anchors": ["cpp/include/gatl/ga/core/expression_simplification_addition_values.hpp"]}
{"id": "C08", "title": "Product simplification preserves value", "statement": "The expression the library builds for a * b evaluates, for every assignment for which a and b are defined, to value(a) * value(b).", "quantifier": "every pair of well-formed coefficient expressions and every assignment of the run-time values", "why_tests_cant": "infinite set of expression types and real assignments", "anchors": ["cpp/include/gatl/ga/core/expression_simplification_product_values.hpp"]}
{"id": "C09", "title": "Power simplification preserves value", "statement": "The expression the library builds for pow(a, b) (and sqrt, inv, cbrt which are powers) evaluates to value(a)^value(b) whenever that real power is defined.", "quantifier": "every pair of well-formed expressions and every assignment", "why_tests_cant": "rewriting (A*B)^C and (A^B)^C is right for some signs and wrong for others; a finite test cannot cover the sign combinations of all expression shapes", "anchors": ["cpp/include/gatl/ga/core/expression_simplification_power.hpp", "cpp/include/gatl/ga/core/math.hpp"]}
{"id": "C10", "title": "Compile-time rational arithmetic is exact", "statement": "Sums and products of compile-time rational constants c<p>/c<q> denote the exact rational result, and results are kept as an integer or as a fraction in lowest terms with positive denominator.", "quantifier": "every pair of rational constants whose int64 intermediate values do not overflow", "why_tests_cant": "all pairs of int64 numerators and denominators", "anchors": ["cpp/include/gatl/ga/core/expression_simplification_product_values.hpp: _simpler_rational_constant", "cpp/include/gatl/ga/core/expression_simplification_addition_values.hpp: constants cases"]}
{"id": "C11", "title": "Evaluating a coefficient computes its meaning", "statement": "Run-time evaluation of a simplified coefficient expression yields the real number the expression denotes.", "quantifier": "every coefficient expression and every assignment of the run-time values", "why_tests_cant": "evaluation specialisations (a-b, a/b, square, sqrt, ...) are selected by expression shape; infinitely many shapes", "anchors": ["cpp/include/gatl/ga/core/expression.hpp: power/mul/add eval"]}
{"id": "C12", "title": "Multivector sum", "statement": "A + B has, on every basis blade, the sum of the coefficients of A and B; likewise A - B and -A.", "quantifier": "every pair of multivector expressions, every dimension, every run-time coefficients", "why_tests_cant": "all multivector types and values", "anchors": ["cpp/include/gatl/ga/core/expression_simplification_addition_components.hpp", "cpp/include/gatl/ga/core/arithmetic_operators.hpp"]}
{"id": "C13", "title": "Canonical component order", "statement": "The components of a sum of constant-blade multivectors are strictly ordered by grade and then bitset with no blade repeated, for every operand order, so that A + B and B + A list the same blades in the same order.", "quantifier": "every pair of canonically ordered multivectors", "why_tests_cant": "all component lists; a merge bug only shows for particular interleavings", "anchors": ["cpp/include/gatl/ga/core/expression_relational_operators.hpp", "cpp/include/gatl/ga/core/expression_simplification_addition_components.hpp"]}
{"id": "C14", "title": "Geometric product in an orthogonal metric", "statement": "For all multivectors A, B of a signed metric space the coefficient of gp(A,B) on blade K is the sum over blades I xor J = K of A_I B_J times the reordering sign times the product of the squares of the common basis vectors.", "quantifier": "every signature, every pair of multivectors, every run-time coefficients", "why_tests_cant": "tests tabulate basis blades for n <= 3 and only Euclidean metrics", "anchors": ["cpp/include/gatl/ga/core/geometric_product.hpp", "cpp/include/gatl/ga/core/orthogonal_metric_mapping.hpp", "cpp/include/gatl/ga/model/signed/metric_space.hpp"]}
{"id": "C15", "title": "Clifford algebra laws", "statement": "gp is associative, distributes over sums, has unit 1, squares each basis vector to its metric sign and anticommutes distinct basis vectors.", "quantifier": "every signature and all multivectors", "why_tests_cant": "universally quantified algebraic identities", "anchors": ["cpp/include/gatl/ga/core/geometric_product.hpp", "cpp/include/gatl/ga/core/orthogonal_metric_mapping.hpp"]}
{"id": "C16", "title": "Outer product", "statement": "op(A,B) is the exterior product: coefficientwise the part of the product of disjoint blades; it is associative, v^v = 0 for vectors, grades add, and it does not depend on the metric.", "quantifier": "all multivectors of every dimension", "why_tests_cant": "universally quantified identities", "anchors": ["cpp/include/gatl/ga/core/outer_product.hpp", "cpp/include/gatl/ga/core/exterior_product_mapping.hpp"]}
{"id": "C17", "title": "Inner products are grade parts of gp", "statement": "lcont, rcont, sp, dot and hip return, for homogeneous arguments of grade r and s, exactly the grade s-r, r-s, 0, |r-s| and (|r-s|, zero when r or s is 0) part of gp, extended bilinearly.", "quantifier": "every signature, all multivectors", "why_tests_cant": "all pairs of blades in every dimension", "anchors": ["cpp/include/gatl/ga/core/left_contraction.hpp", "cpp/include/gatl/ga/core/right_contraction.hpp", "cpp/include/gatl/ga/core/scalar_product.hpp", "cpp/include/gatl/ga/core/dot_product.hpp", "cpp/include/gatl/ga/core/hestenes_inner_product.hpp"]}
{"id": "C18", "title": "Regressive product", "statement": "rp(A,B) in an n-dimensional space is non-zero on a pair of blades only if together they span the space, results in their common factors, and has the pseudoscalar as two-sided unit.", "quantifier": "every n and all multivectors", "why_tests_cant": "all pairs of blades in every dimension", "anchors": ["cpp/include/gatl/ga/core/regressive_product.hpp", "cpp/include/gatl/ga/core/regressive_product_mapping.hpp"]}
{"id": "C19", "title": "Reversion, involution, conjugation", "statement": "reversion, involution and conjugation multiply the grade-k part by (-1)^(k(k-1)/2), (-1)^k and (-1)^(k(k+1)/2); each is its own inverse; reversion reverses gp products, involution distributes over them, conjugation is their composition.", "quantifier": "all multivectors of every dimension", "why_tests_cant": "bit masks 0xAAAA.., 0xCCCC.., 0x6666.. must be right for all 64 grades; algebraic identities over all multivectors", "anchors": ["cpp/include/gatl/ga/core/expression_graded_unary_minus.hpp", "cpp/include/gatl/ga/core/reversion.hpp", "cpp/include/gatl/ga/core/involution.hpp", "cpp/include/gatl/ga/core/conjugation.hpp"]}
{"id": "C20", "title": "Run-time blades agree with compile-time blades", "statement": "Multiplying components whose basis blade is only known at run time gives the same coefficient and blade as multiplying the same components with compile-time blades, for each product.", "quantifier": "every product, every signature, every pair of blades", "why_tests_cant": "the run-time path is a separate symbolic formula with grade tests; 4^n blade pairs for each n", "anchors": ["cpp/include/gatl/ga/core/orthogonal_metric_mapping.hpp", "cpp/include/gatl/ga/core/exterior_product_mapping.hpp", "cpp/include/gatl/ga/core/expression_traits.hpp: deduce_basis_blade"]}
{"id": "C21", "title": "Lazy evaluation equals its meaning", "statement": "lazy.eval(E) returns a multivector whose stored coefficients, read in component order, give exactly the value of E at the inputs bound to the context.", "quantifier": "every expression over the context's arguments with compile-time blades, every input", "why_tests_cant": "infinite set of expressions; storage order is a traversal-order invariant", "anchors": ["cpp/include/gatl/ga/core/lazy_context.hpp"]}
{"id": "C22", "title": "Context arguments do not capture each other", "statement": "A lazy context gives each stored input a fresh tag, larger than any tag occurring in its inputs, so that every argument reads back exactly the values of its own input, also when contexts are nested.", "quantifier": "every list of inputs", "why_tests_cant": "all nestings of contexts", "anchors": ["cpp/include/gatl/ga/core/lazy_context.hpp: greater_id, tag_variables, _super_lazy_context"]}
{"id": "C23", "title": "Run-time values mixed into an outer lazy expression", "statement": "Combining plain run-time values with the arguments of an enclosing lazy context gives the same result as binding these values in the context.", "quantifier": "every expression", "why_tests_cant": "only some expression shapes trigger the re-ordering or merging of stored values", "anchors": ["cpp/include/gatl/ga/core/lazy_context.hpp: eval_clifford_expression"]}
{"id": "C24", "title": "End-to-end products of stored multivectors", "statement": "Calling a product, sum or sign-change on multivectors with stored coefficients returns a multivector whose stored coefficients are those of the mathematical result.", "quantifier": "every signature, all multivectors with compile-time blades, all stored values", "why_tests_cant": "all types and values", "anchors": ["cpp/include/gatl/ga/core/lazy_context.hpp", "cpp/include/gatl/ga/core/geometric_product.hpp", "cpp/include/gatl/ga/core/clifford_expression.hpp"]}
{"id": "C25", "title": "Inverse of a versor", "statement": "inv(V) = reverse(V) / rnorm_sqr(V); whenever V reverse(V) is a non-zero scalar, gp(V, inv(V)) = gp(inv(V), V) = 1.", "quantifier": "every signature, every such V", "why_tests_cant": "identity over all versors", "anchors": ["cpp/include/gatl/ga/extra/versor_inverse.hpp", "cpp/include/gatl/ga/extra/reverse_norm.hpp"]}
{"id": "C26", "title": "Reverse norm", "statement": "rnorm_sqr(A) = sp(A, reverse A); in a Euclidean space it is the sum of the squared coefficients, hence non-negative and zero only for A = 0; rnorm(A) is its non-negative square root.", "quantifier": "all multivectors", "why_tests_cant": "all values, including negative coefficients of single-component multivectors", "anchors": ["cpp/include/gatl/ga/extra/reverse_norm.hpp"]}
{"id": "C27", "title": "Dual and undual", "statement": "undual(dual(A)) = A and dual(undual(A)) = A in every space with invertible pseudoscalar; duality exchanges op and lcont.", "quantifier": "every non-degenerate signature, all multivectors", "why_tests_cant": "identity over all multivectors", "anchors": ["cpp/include/gatl/ga/extra/dualization.hpp"]}
{"id": "C28", "title": "Versor application", "statement": "apply_even_versor / apply_rotor / apply_odd_versor are linear, send 1 to 1 (up to the involution sign), and the even versor sandwich distributes over gp, hence preserves scalar products.", "quantifier": "every signature, all versors and multivectors", "why_tests_cant": "identity over all multivectors", "anchors": ["cpp/include/gatl/ga/extra/apply_versor.hpp"]}
{"id": "C29", "title": "Grade extraction", "statement": "take_grade(A,k) keeps exactly the grade-k coefficients; summing over k gives A back; the grade query reports the grade of a homogeneous argument.", "quantifier": "all multivectors and grades", "why_tests_cant": "all multivectors", "anchors": ["cpp/include/gatl/ga/extra/take_grade.hpp", "cpp/include/gatl/ga/extra/grade.hpp"]}
{"id": "C30", "title": "Trivial copy preserves the value", "statement": "Copying a multivector into a variable of another type stores exactly the source's coefficients and zeroes the rest; the checked variant throws exactly when a non-zero coefficient has no place in the destination.", "quantifier": "every pair of types, every value", "why_tests_cant": "all pairs of component lists", "anchors": ["cpp/include/gatl/ga/core/trivial_copy.hpp"]}
{"id": "C31", "title": "Component visitor", "statement": "for_each_component visits every component once, in order, passing its blade and coefficient, and stops as soon as the visitor says so.", "quantifier": "every multivector and visitor", "why_tests_cant": "all multivectors and stop points", "anchors": ["cpp/include/gatl/ga/util/for_each_component.hpp"]}
{"id": "C32", "title": "Determinant", "statement": "The compile-time determinant used for non-orthogonal metrics is the Leibniz determinant of the selected minor.", "quantifier": "every square matrix of every size", "why_tests_cant": "all sizes and entries", "anchors": ["cpp/include/gatl/ga/core/general_metric_mapping.hpp"]}
{"id": "C33", "title": "Products in a general metric", "statement": "For an arbitrary symmetric metric matrix, gp of vectors satisfies uv + vu = 2 (u.v), and gp of two blades is the sum over orders of the minors times signs times remaining factors.", "quantifier": "every dimension and metric", "why_tests_cant": "all metrics", "anchors": ["cpp/include/gatl/ga/core/general_metric_mapping.hpp", "cpp/include/gatl/ga/model/general/metric_space.hpp", "cpp/include/gatl/ga/model/conformal/metric_space.hpp"]}
{"id": "C34", "title": "Conformal and homogeneous points", "statement": "Points of the conformal model are null and sp(P,Q) = -|p-q|^2/2; Minkowski points likewise; homogeneous points translate as expected: the flat spanned by points and directions is moved to the flat spanned by the moved points and the same directions, translations compose by the addition of their directions, and the opposite direction undoes a translation. Points and vectors made from a range of iterators equal those made from its elements.", "quantifier": "every dimension and all coordinates; flats spanned by any number of points and directions", "why_tests_cant": "all real coordinates", "anchors": ["cpp/include/gatl/ga/model/conformal/point.hpp", "cpp/include/gatl/ga/model/signed/minkowski/point.hpp", "cpp/include/gatl/ga/model/signed/homogeneous", "cpp/include/gatl/ga/model/signed/plane_based/euclidean_vector.hpp"]}
{"id": "C35", "title": "Zero test", "statement": "is_zero(A) holds exactly when every coefficient of A is within the tolerance of zero; is_null(A) exactly when |A ~A| is; is_unit(A) exactly when ||A ~A| - 1| is.", "quantifier": "all multivectors", "why_tests_cant": "all coefficient expressions, including compile-time fractions", "anchors": ["cpp/include/gatl/ga/extra/tests.hpp"]}
{"id": "C36", "title": "Commutator and delta products", "statement": "cp(A,B) = (AB - BA)/2 satisfies antisymmetry and the Jacobi identity; dp(A,B) is the highest non-zero grade part of gp(A,B).", "quantifier": "all multivectors", "why_tests_cant": "identities over all multivectors", "anchors": ["cpp/include/gatl/ga/extra/commutator_product.hpp", "cpp/include/gatl/ga/extra/delta_product.hpp"]}
{"id": "C37", "title": "Exponential of a blade", "statement": "exp(B) for a blade whose square is the scalar a equals cos/cosh/1 plus B times sin/sinh ratio according to the sign of a, and exp(B) exp(-B) = 1.", "quantifier": "all blades", "why_tests_cant": "all real coefficients", "anchors": ["cpp/include/gatl/ga/extra/blade_exponential.hpp"]}
{"id": "C38", "title": "Absolute value", "statement": "abs(x) of a coefficient expression evaluates to |value(x)|.", "quantifier": "every coefficient expression and assignment", "why_tests_cant": "the decision is by expression shape", "anchors": ["cpp/include/gatl/ga/core/expression.hpp: absolute", "cpp/include/gatl/ga/core/expression_traits.hpp: is_non_negative, is_even"]}
{"id": "C39", "title": "Sums of run-time blades", "statement": "Adding two multivectors whose basis blades are only known at run time gives the multivector sum.", "quantifier": "every pair of run-time blades", "why_tests_cant": "the stored layout depends on the type order after evaluation", "anchors": ["cpp/include/gatl/ga/core/lazy_context.hpp", "cpp/include/gatl/ga/core/expression_simplification_addition_components.hpp"]}
{"id": "C40", "title": "Vector and multivector construction", "statement": "vector(x1..xn) puts coordinate i on basis vector i; the full multivector / k-vector types list every blade of the requested grades exactly once, in canonical order.", "quantifier": "every n, all coordinates", "why_tests_cant": "all n", "anchors": ["cpp/include/gatl/ga/util/vector.hpp", "cpp/include/gatl/ga/util/multivector.hpp"]}
{"id": "C41", "title": "Bitset, comparison and selection expressions", "statement": "The expression built for the sign of a blade product, a population count, a shift, a bitwise operation, a comparison, a logical connective, a selection, an exponential or a logarithm has, whenever the operation is defined on the operand values, the value of that operation.", "quantifier": "every operand expression and every assignment of the run-time values", "why_tests_cant": "every function type has its own partial specialisations, selected by operand shape", "anchors": ["cpp/include/gatl/ga/core/expression.hpp: reordering_sign_t ... logarithm_t"]}
{"id": "C42", "title": "Simplification is deterministic", "statement": "The simplified type of a + b, a * b and pow(a, b) is a function of the operand types alone; it does not depend on how deep the compiler may recurse, provided it finishes.", "quantifier": "every pair of expressions and every recursion limit", "why_tests_cant": "all limits", "anchors": ["cpp/include/gatl/ga/core/rules.hpp", "cpp/include/gatl/ga/core/expression_simplification_addition_values.hpp"]}
{"id": "C43", "title": "Functions of scalars", "statement": "abs of a scalar multivector, and exp, log, cos, sin, tan, cosh, sinh, tanh, sqrt and cbrt of a stored scalar, have the value of the real function wherever it is defined (sqrt: of a non-negative argument; cbrt: of any argument).", "quantifier": "every object with one scalar component, every stored value", "why_tests_cant": "all real arguments; the result type depends on the argument type", "anchors": ["cpp/include/gatl/ga/core/math.hpp"]}
{"id": "C44", "title": "Unit multivectors", "statement": "unit(A) is A divided by the positive square root of |A ~A|, so its squared norm is 1 or -1 and it has the orientation of A.", "quantifier": "every multivector with A ~A <> 0, every signature", "why_tests_cant": "all coefficient values and types", "anchors": ["cpp/include/gatl/ga/extra/unit.hpp"]}
{"id": "C45", "title": "Parameters of rounds, tangents and flats", "statement": "In the conformal model and its Minkowski variant, the location, squared size and direction functions of rounds and tangents, and the direction and location functions of flats, return the parameters the object was built from: for the round of centre p, squared radius r and attitude A they return p, r and A ^ ni, whatever the scale of A.", "quantifier": "both models, every dimension, every centre, radius and attitude of every grade, all stored values", "why_tests_cant": "all objects and dimensions; the formulas divide by computed squared norms", "anchors": ["cpp/include/gatl/ga/model/conformal/round_location.hpp", "cpp/include/gatl/ga/model/conformal/round_size_sqr.hpp", "cpp/include/gatl/ga/model/conformal/round_direction.hpp", "cpp/include/gatl/ga/model/conformal/tangent_location.hpp", "cpp/include/gatl/ga/model/conformal/tangent_direction.hpp", "cpp/include/gatl/ga/model/conformal/flat_location.hpp", "cpp/include/gatl/ga/model/conformal/flat_direction.hpp", "cpp/include/gatl/ga/model/signed/minkowski/round_location.hpp"]}
{"id": "C46", "title": "Parameters of flats of the homogeneous model", "statement": "For the flat (x + e) ^ A, where A is orthogonal to the support vector x, flat_direction, flat_moment, flat_support_vector and flat_unit_support_point return A, x ^ A, x and x + e.", "quantifier": "every dimension, every support vector and attitude", "why_tests_cant": "all flats of all dimensions", "anchors": ["cpp/include/gatl/ga/model/signed/homogeneous/flat_direction.hpp", "cpp/include/gatl/ga/model/signed/homogeneous/flat_moment.hpp", "cpp/include/gatl/ga/model/signed/homogeneous/flat_support_vector.hpp", "cpp/include/gatl/ga/model/signed/homogeneous/flat_unit_support_point.hpp"]}
{"id": "C47", "title": "Inverse, duality and versors in a general metric", "statement": "In a space with any symmetric metric matrix, inv, igp, dual, undual and the versor functions have the values of the algebra of that metric; the inverse of a versor is two-sided, and its sandwich is linear, distributes over the geometric product and preserves the inner products of vectors.", "quantifier": "every metric matrix, all multivectors and versors", "why_tests_cant": "all metrics and values", "anchors": ["cpp/include/gatl/ga/extra/versor_inverse.hpp", "cpp/include/gatl/ga/extra/inverse_geometric_product.hpp", "cpp/include/gatl/ga/extra/dualization.hpp", "cpp/include/gatl/ga/extra/apply_versor.hpp", "cpp/include/gatl/ga/model/conformal/metric_space.hpp", "cpp/include/gatl/ga/model/general/metric_space.hpp"]}
{"id": "C48", "title": "Projection and rejection", "statement": "In a Euclidean space, project(x + y, B) = x and reject(x + y, B) = y for every vector x in the subspace of the blade B and every y orthogonal to it.", "quantifier": "every dimension, every blade, every vector", "why_tests_cant": "all vectors and subspaces", "anchors": ["cpp/include/gatl/ga/model/signed/euclidean/orthogonal_projection.hpp", "cpp/include/gatl/ga/model/signed/euclidean/rejection.hpp"]}
{"id": "C49", "title": "Join of two blades", "statement": "fast_join(A, B, tol, mtr) of two blades returns a blade of unit norm that stands for the sum of the subspaces of A and B (with a positive tolerance: a subspace of the sum that contains the argument of higher grade), without exception.", "quantifier": "every dimension, every pair of blades of every grade, all coefficients and tolerances", "why_tests_cant": "all pairs of subspaces in every relative position; the loop projects basis vectors chosen by the largest coefficient", "anchors": ["cpp/include/gatl/ga/extra/fast_meet_and_join.hpp: fast_join", "cpp/include/gatl/ga/extra/unit.hpp", "cpp/include/gatl/ga/core/trivial_copy.hpp: checked_trivial_copy"]}
{"id": "C50", "title": "Meet of two blades", "statement": "fast_meet_and_join(A, B, tol, mtr) of two blades returns their join J and the meet (B J^-1) A; with the tolerance 0 the meet is a nonzero blade that stands for the intersection of the subspaces of A and B.", "quantifier": "every dimension, every pair of blades, all coefficients", "why_tests_cant": "all pairs of subspaces in every relative position", "anchors": ["cpp/include/gatl/ga/extra/fast_meet_and_join.hpp: fast_meet_and_join", "cpp/include/gatl/ga/extra/versor_inverse.hpp: inv"]}
{"id": "C51", "title": "Plunge of two blades", "statement": "fast_plunge(A, B, tol, mtr) and plunge(A, B, tol, mtr) in a Euclidean space are (B J^-1) ^ (A J^-1), with J the join of A and B; with the tolerance 0 this is a nonzero blade that stands for the sum of the orthogonal complements of A and of B inside the sum of their subspaces.", "quantifier": "every dimension, every pair of blades, all coefficients", "why_tests_cant": "all pairs of subspaces in every relative position", "anchors": ["cpp/include/gatl/ga/extra/fast_plunge.hpp: fast_plunge", "cpp/include/gatl/ga/extra/plunge.hpp: plunge", "cpp/include/gatl/ga/extra/dualization.hpp: dual"]}
{"id": "C52", "title": "Meet and join of two blades from their delta product", "statement": "meet_and_join(A, B, tol) of two blades returns a blade that stands for the intersection of their subspaces and a blade that stands for the sum of their subspaces.", "quantifier": "every dimension, every pair of blades, all coefficients, every tolerance below the coefficients", "why_tests_cant": "all pairs of subspaces in every relative position; the loop over basis vectors depends on the coefficients", "anchors": ["cpp/include/gatl/ga/extra/meet_and_join.hpp: meet_and_join, _meet_and_join_impl, project_vector", "cpp/include/gatl/ga/extra/delta_product.hpp: dp"]}
{"id": "C53", "title": "The text of a multivector", "statement": "write and operator << print the components of a multivector in order, each with its coefficient and the names of its basis vectors in increasing order, and two multivectors with the same text have the same blades and coefficients that are printed alike.", "quantifier": "every multivector with stored or integer coefficients and stored or compile-time blades, every list of names, every format of numbers", "why_tests_cant": "all multivectors and all pairs of multivectors; the names and the number format are arbitrary", "anchors": ["cpp/include/gatl/ga/extra/write.hpp: write, write_expression, write_basis_blade", "cpp/include/gatl/ga/extra/macro_for_algebra_overload.hpp: operator <<"]}
{"id": "C54", "title": "Sums and products compile, in every order", "statement": "Every formula of sums, products, reversions, involutions and conjugations of multivectors compiles, whatever the order of its operands: the recursive simplification of types ends, and the evaluated result is the multivector the formula denotes, again one that can be used in such formulas.", "quantifier": "every signature, every formula of every size, all multivectors with any set of components", "why_tests_cant": "all formulas and all types; each is a different instantiation of recursive templates whose termination no test settles", "anchors": ["cpp/include/gatl/ga/core/expression_simplification_addition_values.hpp", "cpp/include/gatl/ga/core/expression_simplification_addition_components.hpp", "cpp/include/gatl/ga/core/expression_simplification_product_values.hpp", "cpp/include/gatl/ga/core/expression_simplification_product_components.hpp", "cpp/include/gatl/ga/core/lazy_context.hpp: eval_clifford_expression", "cpp/include/gatl/ga/core/expression_graded_unary_minus.hpp"]}
{"id": "C55", "title": "The named constants of the algebras", "statement": "In every conformal algebra ep and em are ni/2 - no and ni/2 + no, with scalar products sp(ep,ep) = 1, sp(em,em) = -1 and sp(ep,em) = 0; in every Minkowski algebra no and ni are null with sp(no,ni) = -1; in every plane-based algebra e0 is the last basis vector and its square is 0; and in the conformal, Minkowski and homogeneous algebras Ie is e1^...^eD with the coefficient 1, the pseudoscalar of the base space with its orientation.", "quantifier": "every number D of base dimensions", "why_tests_cant": "every dimension is another instantiation of the templates; the sign of Ie depends on reordering signs and on the metric", "anchors": ["cpp/include/gatl/ga/model/conformal/macro_for_algebra_definition.hpp", "cpp/include/gatl/ga/model/signed/minkowski/macro_for_algebra_definition.hpp", "cpp/include/gatl/ga/model/signed/homogeneous/macro_for_algebra_definition.hpp", "cpp/include/gatl/ga/model/signed/plane_based/macro_for_algebra_definition.hpp"]}
{"id": "C56", "title": "Products of run-time blades", "statement": "The geometric, outer and inner products of two multiples of basis blades that are only known at run time compile, and have the value of the product whatever the two blades turn out to be: equal or not, in order or not; so do the reversion, the involution and the conjugation of one such blade.", "quantifier": "every dimension, every pair of run-time blades, all coefficients", "why_tests_cant": "the sign, the metric factor and the blade of the result are computed at run time from all pairs of bitsets", "anchors": ["cpp/include/gatl/ga/core/exterior_product_mapping.hpp", "cpp/include/gatl/ga/core/mapping.hpp", "cpp/include/gatl/ga/core/lazy_context.hpp", "cpp/include/gatl/ga/core/expression.hpp: reordering_sign"]}
