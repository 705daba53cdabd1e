#!/usr/bin/env python3
"""Writes /verif/properties.jsonl (one JSON object per line)."""
import json, os
P = []
def p(id, title, statement, quantifier, why, anchors):
    P.append(dict(id=id, title=title, statement=statement, quantifier=quantifier,
                  why_tests_cant=why, anchors=anchors))
G = "cpp/include/gatl/ga/"
p("C01","Population count is exact","The bit-trick population count used for grades returns the number of set bits of its 64-bit argument.","every 64-bit word","2^64 inputs; the SWAR masks and the multiply-by-0x01.. step can be wrong for a few words only",[G+"core/constexpr.hpp: ones"])
p("C02","Sign of a blade product","The sign the library attaches to the product of two basis blades is (-1)^s where s is the number of pairs (p in left blade, q in right blade) with p > q, i.e. the number of swaps needed to bring the concatenated factors into canonical order.","every pair of basis blades of every dimension up to 64","pairs of blades grow as 4^n; tests tabulate n <= 3 only",[G+"core/constexpr.hpp: swaps_count",G+"core/expression.hpp: reordering_sign"])
p("C03","Combination enumeration","Starting from the first k-subset of an n-element basis, the successor function visits every bitset with exactly k ones below 2^n exactly once, in increasing order, and then reports the end; it is what fixes which blade each coordinate of a k-vector belongs to.","every n <= 63 and every k <= n","binomial(63,k) subsets for each k; a carry bug would only show for particular bit patterns",[G+"core/constexpr.hpp: first_combination, next_combination",G+"util/multivector.hpp: make_kvector_expression"])
p("C04","Lowest factor / factor index","The lowest-factor bit trick returns the lowest set bit, and the index function returns its position, so that iterating over the basis vectors of a blade visits each factor exactly once in increasing order and stops early exactly when told to.","every 64-bit blade and every visitor","all 2^64 blades and all early-stop behaviours of the visitor",[G+"core/constexpr.hpp: rightmost_set_bit, set_bit_index",G+"util/for_each_basis_vector.hpp"])
p("C05","Highest possible grade","The highest-set-bit function, used to bound the largest possible grade of an expression, returns the highest set bit of its argument.","every 64-bit word","the shipped tests only use small grades; the doubling loop must be right for all positions of the top bit",[G+"core/constexpr.hpp: leftmost_set_bit",G+"core/general_metric_mapping.hpp"])
p("C06","Exact compile-time integer helpers","gcd, integer power and integer square root return the mathematical value for all arguments in their domain (isqrt returns the floor of the root).","every integer argument in the domain","infinitely many arguments; the simplifier silently produces wrong constants if one is off",[G+"core/constexpr.hpp: gcd, ipow, isqrt"])
p("C07","Sum simplification preserves value","The expression the library builds for a + b evaluates, for every value of the run-time coefficients for which a and b are defined, to value(a) + value(b).","every pair of well-formed coefficient expressions and every assignment of the run-time values","the rewriting is over all expression types, an infinite set; tests compare a few printed types",[G+"core/expression_simplification_addition_values.hpp"])
p("C08","Product simplification preserves value","The expression the library builds for a * b evaluates, for every assignment for which a and b are defined, to value(a) * value(b).","every pair of well-formed coefficient expressions and every assignment of the run-time values","infinite set of expression types and real assignments",[G+"core/expression_simplification_product_values.hpp"])
p("C09","Power simplification preserves value","The expression the library builds for pow(a, b) (and sqrt, inv, cbrt which are powers) evaluates to value(a)^value(b) whenever that real power is defined.","every pair of well-formed expressions and every assignment","rewriting (A*B)^C and (A^B)^C is right for some signs and wrong for others; a finite test cannot cover the sign combinations of all expression shapes",[G+"core/expression_simplification_power.hpp",G+"core/math.hpp"])
p("C10","Compile-time rational arithmetic is exact","Sums and products of compile-time rational constants c<p>/c<q> denote the exact rational result, and results are kept as an integer or as a fraction in lowest terms with positive denominator.","every pair of rational constants whose int64 intermediate values do not overflow","all pairs of int64 numerators and denominators",[G+"core/expression_simplification_product_values.hpp: _simpler_rational_constant",G+"core/expression_simplification_addition_values.hpp: constants cases"])
p("C11","Evaluating a coefficient computes its meaning","Run-time evaluation of a simplified coefficient expression yields the real number the expression denotes.","every coefficient expression and every assignment of the run-time values","evaluation specialisations (a-b, a/b, square, sqrt, ...) are selected by expression shape; infinitely many shapes",[G+"core/expression.hpp: power/mul/add eval"])
p("C12","Multivector sum","A + B has, on every basis blade, the sum of the coefficients of A and B; likewise A - B and -A.","every pair of multivector expressions, every dimension, every run-time coefficients","all multivector types and values",[G+"core/expression_simplification_addition_components.hpp",G+"core/arithmetic_operators.hpp"])
p("C13","Canonical component order","The components of a sum of constant-blade multivectors are strictly ordered by grade and then bitset with no blade repeated, for every operand order, so that A + B and B + A list the same blades in the same order.","every pair of canonically ordered multivectors","all component lists; a merge bug only shows for particular interleavings",[G+"core/expression_relational_operators.hpp",G+"core/expression_simplification_addition_components.hpp"])
p("C14","Geometric product in an orthogonal metric","For all multivectors A, B of a signed metric space the coefficient of gp(A,B) on blade K is the sum over blades I xor J = K of A_I B_J times the reordering sign times the product of the squares of the common basis vectors.","every signature, every pair of multivectors, every run-time coefficients","tests tabulate basis blades for n <= 3 and only Euclidean metrics",[G+"core/geometric_product.hpp",G+"core/orthogonal_metric_mapping.hpp",G+"model/signed/metric_space.hpp"])
p("C15","Clifford algebra laws","gp is associative, distributes over sums, has unit 1, squares each basis vector to its metric sign and anticommutes distinct basis vectors.","every signature and all multivectors","universally quantified algebraic identities",[G+"core/geometric_product.hpp",G+"core/orthogonal_metric_mapping.hpp"])
p("C16","Outer product","op(A,B) is the exterior product: coefficientwise the part of the product of disjoint blades; it is associative, v^v = 0 for vectors, grades add, and it does not depend on the metric.","all multivectors of every dimension","universally quantified identities",[G+"core/outer_product.hpp",G+"core/exterior_product_mapping.hpp"])
p("C17","Inner products are grade parts of gp","lcont, rcont, sp, dot and hip return, for homogeneous arguments of grade r and s, exactly the grade s-r, r-s, 0, |r-s| and (|r-s|, zero when r or s is 0) part of gp, extended bilinearly.","every signature, all multivectors","all pairs of blades in every dimension",[G+"core/left_contraction.hpp",G+"core/right_contraction.hpp",G+"core/scalar_product.hpp",G+"core/dot_product.hpp",G+"core/hestenes_inner_product.hpp"])
p("C18","Regressive product","rp(A,B) in an n-dimensional space is non-zero on a pair of blades only if together they span the space, results in their common factors, and has the pseudoscalar as two-sided unit.","every n and all multivectors","all pairs of blades in every dimension",[G+"core/regressive_product.hpp",G+"core/regressive_product_mapping.hpp"])
p("C19","Reversion, involution, conjugation","reversion, involution and conjugation multiply the grade-k part by (-1)^(k(k-1)/2), (-1)^k and (-1)^(k(k+1)/2); each is its own inverse; reversion reverses gp products, involution distributes over them, conjugation is their composition.","all multivectors of every dimension","bit masks 0xAAAA.., 0xCCCC.., 0x6666.. must be right for all 64 grades; algebraic identities over all multivectors",[G+"core/expression_graded_unary_minus.hpp",G+"core/reversion.hpp",G+"core/involution.hpp",G+"core/conjugation.hpp"])
p("C20","Run-time blades agree with compile-time blades","Multiplying components whose basis blade is only known at run time gives the same coefficient and blade as multiplying the same components with compile-time blades, for each product.","every product, every signature, every pair of blades","the run-time path is a separate symbolic formula with grade tests; 4^n blade pairs for each n",[G+"core/orthogonal_metric_mapping.hpp",G+"core/exterior_product_mapping.hpp",G+"core/expression_traits.hpp: deduce_basis_blade"])
p("C21","Lazy evaluation equals its meaning","lazy.eval(E) returns a multivector whose stored coefficients, read in component order, give exactly the value of E at the inputs bound to the context.","every expression over the context's arguments with compile-time blades, every input","infinite set of expressions; storage order is a traversal-order invariant",[G+"core/lazy_context.hpp"])
p("C22","Context arguments do not capture each other","A lazy context gives each stored input a fresh tag, larger than any tag occurring in its inputs, so that every argument reads back exactly the values of its own input, also when contexts are nested.","every list of inputs","all nestings of contexts",[G+"core/lazy_context.hpp: greater_id, tag_variables, _super_lazy_context"])
p("C23","Run-time values mixed into an outer lazy expression","Combining plain run-time values with the arguments of an enclosing lazy context gives the same result as binding these values in the context.","every expression","only some expression shapes trigger the re-ordering or merging of stored values",[G+"core/lazy_context.hpp: eval_clifford_expression"])
p("C24","End-to-end products of stored multivectors","Calling a product, sum or sign-change on multivectors with stored coefficients returns a multivector whose stored coefficients are those of the mathematical result.","every signature, all multivectors with compile-time blades, all stored values","all types and values",[G+"core/lazy_context.hpp",G+"core/geometric_product.hpp",G+"core/clifford_expression.hpp"])
p("C25","Inverse of a versor","inv(V) = reverse(V) / rnorm_sqr(V); whenever V reverse(V) is a non-zero scalar, gp(V, inv(V)) = gp(inv(V), V) = 1.","every signature, every such V","identity over all versors",[G+"extra/versor_inverse.hpp",G+"extra/reverse_norm.hpp"])
p("C26","Reverse norm","rnorm_sqr(A) = sp(A, reverse A); in a Euclidean space it is the sum of the squared coefficients, hence non-negative and zero only for A = 0; rnorm(A) is its non-negative square root.","all multivectors","all values, including negative coefficients of single-component multivectors",[G+"extra/reverse_norm.hpp"])
p("C27","Dual and undual","undual(dual(A)) = A and dual(undual(A)) = A in every space with invertible pseudoscalar; duality exchanges op and lcont.","every non-degenerate signature, all multivectors","identity over all multivectors",[G+"extra/dualization.hpp"])
p("C28","Versor application","apply_even_versor / apply_rotor / apply_odd_versor are linear, send 1 to 1 (up to the involution sign), and the even versor sandwich distributes over gp, hence preserves scalar products.","every signature, all versors and multivectors","identity over all multivectors",[G+"extra/apply_versor.hpp"])
p("C29","Grade extraction","take_grade(A,k) keeps exactly the grade-k coefficients; summing over k gives A back; the grade query reports the grade of a homogeneous argument.","all multivectors and grades","all multivectors",[G+"extra/take_grade.hpp",G+"extra/grade.hpp"])
p("C30","Trivial copy preserves the value","Copying a multivector into a variable of another type stores exactly the source's coefficients and zeroes the rest; the checked variant throws exactly when a non-zero coefficient has no place in the destination.","every pair of types, every value","all pairs of component lists",[G+"core/trivial_copy.hpp"])
p("C31","Component visitor","for_each_component visits every component once, in order, passing its blade and coefficient, and stops as soon as the visitor says so.","every multivector and visitor","all multivectors and stop points",[G+"util/for_each_component.hpp"])
p("C32","Determinant","The compile-time determinant used for non-orthogonal metrics is the Leibniz determinant of the selected minor.","every square matrix of every size","all sizes and entries",[G+"core/general_metric_mapping.hpp"])
p("C33","Products in a general metric","For an arbitrary symmetric metric matrix, gp of vectors satisfies uv + vu = 2 (u.v), and gp of two blades is the sum over orders of the minors times signs times remaining factors.","every dimension and metric","all metrics",[G+"core/general_metric_mapping.hpp",G+"model/general/metric_space.hpp",G+"model/conformal/metric_space.hpp"])
p("C34","Conformal and homogeneous points","Points of the conformal model are null and sp(P,Q) = -|p-q|^2/2; Minkowski points likewise; homogeneous points translate as expected: the flat spanned by points and directions is moved to the flat spanned by the moved points and the same directions, translations compose by the addition of their directions, and the opposite direction undoes a translation. Points and vectors made from a range of iterators equal those made from its elements.","every dimension and all coordinates; flats spanned by any number of points and directions","all real coordinates",[G+"model/conformal/point.hpp",G+"model/signed/minkowski/point.hpp",G+"model/signed/homogeneous",G+"model/signed/plane_based/euclidean_vector.hpp"])
p("C35","Zero test","is_zero(A) holds exactly when every coefficient of A is within the tolerance of zero; is_null(A) exactly when |A ~A| is; is_unit(A) exactly when ||A ~A| - 1| is.","all multivectors","all coefficient expressions, including compile-time fractions",[G+"extra/tests.hpp"])
p("C36","Commutator and delta products","cp(A,B) = (AB - BA)/2 satisfies antisymmetry and the Jacobi identity; dp(A,B) is the highest non-zero grade part of gp(A,B).","all multivectors","identities over all multivectors",[G+"extra/commutator_product.hpp",G+"extra/delta_product.hpp"])
p("C37","Exponential of a blade","exp(B) for a blade whose square is the scalar a equals cos/cosh/1 plus B times sin/sinh ratio according to the sign of a, and exp(B) exp(-B) = 1.","all blades","all real coefficients",[G+"extra/blade_exponential.hpp"])
p("C38","Absolute value","abs(x) of a coefficient expression evaluates to |value(x)|.","every coefficient expression and assignment","the decision is by expression shape",[G+"core/expression.hpp: absolute",G+"core/expression_traits.hpp: is_non_negative, is_even"])
p("C39","Sums of run-time blades","Adding two multivectors whose basis blades are only known at run time gives the multivector sum.","every pair of run-time blades","the stored layout depends on the type order after evaluation",[G+"core/lazy_context.hpp",G+"core/expression_simplification_addition_components.hpp"])
p("C40","Vector and multivector construction","vector(x1..xn) puts coordinate i on basis vector i; the full multivector / k-vector types list every blade of the requested grades exactly once, in canonical order.","every n, all coordinates","all n",[G+"util/vector.hpp",G+"util/multivector.hpp"])
p("C41","Bitset, comparison and selection expressions","The expression built for the sign of a blade product, a population count, a shift, a bitwise operation, a comparison, a logical connective, a selection, an exponential or a logarithm has, whenever the operation is defined on the operand values, the value of that operation.","every operand expression and every assignment of the run-time values","every function type has its own partial specialisations, selected by operand shape",[G+"core/expression.hpp: reordering_sign_t ... logarithm_t"])
p("C42","Simplification is deterministic","The simplified type of a + b, a * b and pow(a, b) is a function of the operand types alone; it does not depend on how deep the compiler may recurse, provided it finishes.","every pair of expressions and every recursion limit","all limits",[G+"core/rules.hpp",G+"core/expression_simplification_addition_values.hpp"])
p("C43","Functions of scalars","abs of a scalar multivector, and exp, log, cos, sin, tan, cosh, sinh, tanh, sqrt and cbrt of a stored scalar, have the value of the real function wherever it is defined (sqrt: of a non-negative argument; cbrt: of any argument).","every object with one scalar component, every stored value","all real arguments; the result type depends on the argument type",[G+"core/math.hpp"])
p("C44","Unit multivectors","unit(A) is A divided by the positive square root of |A ~A|, so its squared norm is 1 or -1 and it has the orientation of A.","every multivector with A ~A <> 0, every signature","all coefficient values and types",[G+"extra/unit.hpp"])
p("C45","Parameters of rounds, tangents and flats","In the conformal model and its Minkowski variant, the location, squared size and direction functions of rounds and tangents, and the direction and location functions of flats, return the parameters the object was built from: for the round of centre p, squared radius r and attitude A they return p, r and A ^ ni, whatever the scale of A.","both models, every dimension, every centre, radius and attitude of every grade, all stored values","all objects and dimensions; the formulas divide by computed squared norms",[G+"model/conformal/round_location.hpp",G+"model/conformal/round_size_sqr.hpp",G+"model/conformal/round_direction.hpp",G+"model/conformal/tangent_location.hpp",G+"model/conformal/tangent_direction.hpp",G+"model/conformal/flat_location.hpp",G+"model/conformal/flat_direction.hpp",G+"model/signed/minkowski/round_location.hpp"])
p("C46","Parameters of flats of the homogeneous model","For the flat (x + e) ^ A, where A is orthogonal to the support vector x, flat_direction, flat_moment, flat_support_vector and flat_unit_support_point return A, x ^ A, x and x + e.","every dimension, every support vector and attitude","all flats of all dimensions",[G+"model/signed/homogeneous/flat_direction.hpp",G+"model/signed/homogeneous/flat_moment.hpp",G+"model/signed/homogeneous/flat_support_vector.hpp",G+"model/signed/homogeneous/flat_unit_support_point.hpp"])
p("C47","Inverse, duality and versors in a general metric","In a space with any symmetric metric matrix, inv, igp, dual, undual and the versor functions have the values of the algebra of that metric; the inverse of a versor is two-sided, and its sandwich is linear, distributes over the geometric product and preserves the inner products of vectors.","every metric matrix, all multivectors and versors","all metrics and values",[G+"extra/versor_inverse.hpp",G+"extra/inverse_geometric_product.hpp",G+"extra/dualization.hpp",G+"extra/apply_versor.hpp",G+"model/conformal/metric_space.hpp",G+"model/general/metric_space.hpp"])
p("C48","Projection and rejection","In a Euclidean space, project(x + y, B) = x and reject(x + y, B) = y for every vector x in the subspace of the blade B and every y orthogonal to it.","every dimension, every blade, every vector","all vectors and subspaces",[G+"model/signed/euclidean/orthogonal_projection.hpp",G+"model/signed/euclidean/rejection.hpp"])
p("C49","Join of two blades","fast_join(A, B, tol, mtr) of two blades returns a blade of unit norm that stands for the sum of the subspaces of A and B (with a positive tolerance: a subspace of the sum that contains the argument of higher grade), without exception.","every dimension, every pair of blades of every grade, all coefficients and tolerances","all pairs of subspaces in every relative position; the loop projects basis vectors chosen by the largest coefficient",[G+"extra/fast_meet_and_join.hpp: fast_join",G+"extra/unit.hpp",G+"core/trivial_copy.hpp: checked_trivial_copy"])
p("C50","Meet of two blades","fast_meet_and_join(A, B, tol, mtr) of two blades returns their join J and the meet (B J^-1) A; with the tolerance 0 the meet is a nonzero blade that stands for the intersection of the subspaces of A and B.","every dimension, every pair of blades, all coefficients","all pairs of subspaces in every relative position",[G+"extra/fast_meet_and_join.hpp: fast_meet_and_join",G+"extra/versor_inverse.hpp: inv"])
p("C51","Plunge of two blades","fast_plunge(A, B, tol, mtr) and plunge(A, B, tol, mtr) in a Euclidean space are (B J^-1) ^ (A J^-1), with J the join of A and B; with the tolerance 0 this is a nonzero blade that stands for the sum of the orthogonal complements of A and of B inside the sum of their subspaces.","every dimension, every pair of blades, all coefficients","all pairs of subspaces in every relative position",[G+"extra/fast_plunge.hpp: fast_plunge",G+"extra/plunge.hpp: plunge",G+"extra/dualization.hpp: dual"])
p("C52","Meet and join of two blades from their delta product","meet_and_join(A, B, tol) of two blades returns a blade that stands for the intersection of their subspaces and a blade that stands for the sum of their subspaces.","every dimension, every pair of blades, all coefficients, every tolerance below the coefficients","all pairs of subspaces in every relative position; the loop over basis vectors depends on the coefficients",[G+"extra/meet_and_join.hpp: meet_and_join, _meet_and_join_impl, project_vector",G+"extra/delta_product.hpp: dp"])
p("C53","The text of a multivector","write and operator << print the components of a multivector in order, each with its coefficient and the names of its basis vectors in increasing order, and two multivectors with the same text have the same blades and coefficients that are printed alike.","every multivector with stored or integer coefficients and stored or compile-time blades, every list of names, every format of numbers","all multivectors and all pairs of multivectors; the names and the number format are arbitrary",[G+"extra/write.hpp: write, write_expression, write_basis_blade",G+"extra/macro_for_algebra_overload.hpp: operator <<"])
p("C54","Sums and products compile, in every order","Every formula of sums, products, reversions, involutions and conjugations of multivectors compiles, whatever the order of its operands: the recursive simplification of types ends, and the evaluated result is the multivector the formula denotes, again one that can be used in such formulas.","every signature, every formula of every size, all multivectors with any set of components","all formulas and all types; each is a different instantiation of recursive templates whose termination no test settles",[G+"core/expression_simplification_addition_values.hpp",G+"core/expression_simplification_addition_components.hpp",G+"core/expression_simplification_product_values.hpp",G+"core/expression_simplification_product_components.hpp",G+"core/lazy_context.hpp: eval_clifford_expression",G+"core/expression_graded_unary_minus.hpp"])
p("C55","The named constants of the algebras","In every conformal algebra ep and em are ni/2 - no and ni/2 + no, with scalar products sp(ep,ep) = 1, sp(em,em) = -1 and sp(ep,em) = 0; in every Minkowski algebra no and ni are null with sp(no,ni) = -1; in every plane-based algebra e0 is the last basis vector and its square is 0; and in the conformal, Minkowski and homogeneous algebras Ie is e1^...^eD with the coefficient 1, the pseudoscalar of the base space with its orientation.","every number D of base dimensions","every dimension is another instantiation of the templates; the sign of Ie depends on reordering signs and on the metric",[G+"model/conformal/macro_for_algebra_definition.hpp",G+"model/signed/minkowski/macro_for_algebra_definition.hpp",G+"model/signed/homogeneous/macro_for_algebra_definition.hpp",G+"model/signed/plane_based/macro_for_algebra_definition.hpp"])
p("C56","Products of run-time blades","The geometric, outer and inner products of two multiples of basis blades that are only known at run time compile, and have the value of the product whatever the two blades turn out to be: equal or not, in order or not; so do the reversion, the involution and the conjugation of one such blade.","every dimension, every pair of run-time blades, all coefficients","the sign, the metric factor and the blade of the result are computed at run time from all pairs of bitsets",[G+"core/exterior_product_mapping.hpp",G+"core/mapping.hpp",G+"core/lazy_context.hpp",G+"core/expression.hpp: reordering_sign"])
here = os.path.dirname(os.path.abspath(__file__))
with open(os.path.join(here, "..", "properties.jsonl"), "w") as f:
    for x in P: f.write(json.dumps(x) + "\n")
print(len(P))
