{
 "C01": [
  "proved",
  "every 64-bit argument"
 ],
 "C02": [
  "proved",
  "every pair of 64-bit blades"
 ],
 "C03": [
  "proved",
  "spaces of up to 63 dimensions (the bitset mask of a 64-dimensional space overflows the successor's addition)"
 ],
 "C04": [
  "proved",
  "every 64-bit argument and every visitor"
 ],
 "C05": [
  "partial",
  "holds for arguments below 2^8, and exactly for the words without a gap of seven zeros (C05_highest_exact); refuted otherwise: the code shifts by 1 at every doubling step, so e.g. 2^8 gives 2^8-1. Missing: the full statement is false of the code"
 ],
 "C06": [
  "proved",
  "gcd on non-negative arguments (the only use), ipow for non-negative exponents, isqrt = floor"
 ],
 "C07": [
  "proved",
  "every pair of well-formed expressions (the shape every library-built expression has, which the result keeps), whenever the template recursion terminates"
 ],
 "C08": [
  "proved",
  "as C07"
 ],
 "C09": [
  "partial",
  "proved when the base is atomic, the exponent value is an integer, or the factors of the base are non-negative; refuted otherwise (sqrt(x^2) becomes x). Missing: the unconditional statement is false of the code"
 ],
 "C10": [
  "partial",
  "exactness proved for all; lowest terms proved for products and for sums except integer + fraction, where the code leaves a sum (refuted by 1 + 3/2)"
 ],
 "C11": [
  "partial",
  "proved for every expression without a quotient of two integral operands, up to reported integer overflow; refuted for 3/2, which evaluates to 1; integral results are 64-bit numbers (C11_range, for sums, products, powers, absolute values, signs and selections); no overflow without integer arithmetic (C11_no_overflow, C11_eval_float_partial)"
 ],
 "C38": [
  "partial",
  "proved for expressions of settled sign, rational constants, and non-constant expressions the library does not consider non-negative; refuted for abs(exp(c<1>)), which is -exp(1), and for abs(pow(x, pow(y, 2))), which is taken for non-negative"
 ],
 "C41": [
  "partial",
  "proved for all but equality of two constant non-integer expressions, where types are compared instead of values (refuted: 1 + 3/2 versus 5/2)"
 ],
 "C42": [
  "proved",
  "every pair of expressions and all recursion depths"
 ],
 "C12": [
  "proved",
  "every pair of well-formed multivector expressions (constant or run-time blades), whenever the template recursion terminates; negation and difference for blades of at most 63 basis vectors"
 ],
 "C13": [
  "partial",
  "order, uniqueness and the exact list of blades proved for every pair; equality of the two operand orders proved when a+b and b+a of the coefficients of common blades simplify to the constant 0 together (missing: that this is always so); for multivectors that store their coefficients A + B and B + A are the same object (C13_plus); C54_refuted shows that it is not: one order may not compile while the other gives a result"
 ],
 "C14": [
  "proved",
  "every signature of at most 63 dimensions, every pair of well-formed multivector expressions; also scalar arguments, for which the library uses another metric"
 ],
 "C15": [
  "proved",
  "as C14"
 ],
 "C16": [
  "proved",
  "every dimension up to 63"
 ],
 "C17": [
  "proved",
  "as C14; bilinearity is part of is_product"
 ],
 "C18": [
  "proved",
  "every dimension up to 63; also associativity and duality with the exterior product"
 ],
 "C19": [
  "proved",
  "every dimension up to 63"
 ],
 "C20": [
  "proved",
  "every product and signature; operands are arbitrary multivectors mixing compile-time and run-time blades"
 ],
 "C21": [
  "proved",
  "every canonical expression with compile-time blades whose coefficients are built from the context's getters, integers, sums, products, powers and one-argument functions without a division of two integers; a signed integer overflow is reported as such"
 ],
 "C22": [
  "proved",
  "every list of inputs, also with run-time blades and getters of enclosing contexts (tags as unbounded numbers; the code's 16-bit tags wrap after 65535)"
 ],
 "C23": [
  "partial",
  "false of the code: three refutations (values lost, storage overflow, stored values exchanged). Missing: the full statement cannot hold"
 ],
 "C39": [
  "partial",
  "refuted: e(i) + e(j) with run-time indices writes past its storage. Proved: negation, multiples and sums of run-time vectors and bivectors with scalars and with one another (C39_partial). Missing: the full statement is false of the code; sums of longer multivectors"
 ],
 "C24": [
  "proved",
  "every signature of at most 63 dimensions; objects with compile-time blades whose coefficients are stored or integer constants (results are again such objects); a run that overflows 64-bit integers is reported as such; that a call compiles is a hypothesis"
 ],
 "C25": [
  "proved",
  "objects with compile-time blades and stored or rational coefficients, signed spaces up to 63 dimensions; [exact] excludes calls whose evaluation computes a quotient of two integers (C11)"
 ],
 "C26": [
  "partial",
  "rnorm_sqr for every object. rnorm: a square root of rnorm_sqr when rnorm_sqr is a sum, a stored value or a sure non-negative power, and the non-negative one in the first two cases (multivectors with two or more stored coefficients); refuted for one stored coefficient: rnorm(x e1) is x also for x < 0"
 ],
 "C27": [
  "proved",
  "objects as in C25; every non-zero multiple of the pseudoscalar of a non-degenerate signed space"
 ],
 "C28": [
  "proved",
  "objects as in C25; the laws hold for every V such that V reverse(V) is a non-zero scalar"
 ],
 "C36": [
  "proved",
  "cp with its laws: objects as in C25; dp: stored or integer coefficients, stored tolerance, product types whose constant coefficients are integers"
 ],
 "C30": [
  "partial",
  "compile-time blades with stored, integer or exactly computed constant coefficients, of any coefficient types, including which copies compile; run-time blades with stored and integer coefficients: every component is copied, a checked copy leaves out coefficients up to the tolerance only. Missing: map storage, the state of the destination after an exception, which copies of run-time blades compile"
 ],
 "C31": [
  "partial",
  "every type, compile-time or stored blades, whose coefficients are stored, integers, or constants of an object with a non-integral coefficient type. Refuted otherwise: a constant fraction of an object with an integral coefficient type is cast, so c<1>/c<2> is visited as 0. Map storage is not modelled"
 ],
 "C35": [
  "partial",
  "is_null and is_unit for every object with stored and integer coefficients; is_zero for objects with compile-time blades, same coefficients as C31; refuted for constant fractions: is_zero(c<1>/c<2>) is true"
 ],
 "C40": [
  "proved",
  "every dimension up to 63; coordinates: native numbers or scalars whose coefficient is stored or an integer constant; a template recursion depth that suffices exists for every full type. Also derived types, grade ranges, index lists, pseudoscalar; a repeated index in an index list is refuted"
 ],
 "C32": [
  "proved",
  "the minor selected by any two blades of equal grade, of any matrix whose entries are well formed expressions with values"
 ],
 "C33": [
  "partial",
  "conformal spaces and symmetric integer matrices of any dimension up to 63; the law of two vectors (C33_vectors) is proved in full; the products of multivectors are proved for every left factor and right factors with components of grade at most 7 (at most 8 if the left factor has grade at most 7) and refuted for right factors of grade 9; the product is characterised by axioms (unit, associativity, vector times blade) shown to have exactly one solution; entries that are run-time values are not covered at the level of objects"
 ],
 "C34": [
  "proved",
  "native coordinates (built-in integers or floating point), every dimension up to the limit; homogeneous translations of every multivector"
 ],
 "C29": [
  "proved",
  "take_grade: objects with stored or rational coefficients, constant grades, and (stored or integer coefficients) run-time grades; every expression with run-time blades at type level; grade, largest_grade, take_largest_grade: stored or integer coefficients, stored tolerance"
 ],
 "C37": [
  "proved",
  "objects with stored and integer coefficients whose square depends on the stored values or is an integer, and whose result type has no quotient of two integers (C11); the tolerance is honoured; the power series and exp(B) exp(-B) = 1 for every multivector of scalar square"
 ],
 "C43": [
  "proved",
  "cbrt is proved for every sign (C43_cbrt), with the cube as its specification"
 ],
 "C44": [
  "partial",
  "A divided by a square root of |A ~A|, of squared norm 1 or -1; the root may be the negative one (refuted: unit(x e1) is e1 for x < 0); scalars keep their sign"
 ],
 "C45": [
  "partial",
  "conformal model of dimension at most 5 (from 7 on products are wrong, C33_refuted) and Minkowski variant of every dimension; objects with stored and rational coefficients and no quotient of two integers in the result type (C11); the location of a flat is the vector no + x + |x|^2 ni, which is not the point no + x + |x|^2/2 ni; dual_{flat,round,tangent}_direction call a function that does not exist and are not modelled"
 ],
 "C46": [
  "proved",
  "objects with stored and rational coefficients and no quotient of two integers in the result type (C11)"
 ],
 "C47": [
  "partial",
  "spaces of dimension at most 7 (C33_refuted), metric matrices of integer constants; objects as in C25"
 ],
 "C48": [
  "proved",
  "objects as in C25; the attitude of the subspace is any homogeneous multivector of non-zero square"
 ],
 "C49": [
  "partial",
  "blades of grade at most 7 (from 8 on the join type is too small: refuted), stored and integer coefficients, not both arguments of integral types, coefficients above the tolerance, and no integer quotient in the unit multivectors (C44); overflow of 64-bit integers is an outcome; the orientation is stated for exchanged arguments of different grades only (C49_swap)"
 ],
 "C50": [
  "partial",
  "as C49, and the inverse of the join is computed without a quotient of two integers"
 ],
 "C51": [
  "partial",
  "as C49 for fast_plunge and as C52 for plunge, and the duals are computed without a quotient of two integers; the Euclidean metric only"
 ],
 "C52": [
  "partial",
  "grades up to 7 (see C49); inverses and duals computed without a quotient of two integers; a call that returns: the returned meet or join may be zero; with a positive tolerance containment instead of equality; refuted without 'a call that returns': the meet of (e1 + e2)^e3 with itself in four dimensions divides by zero"
 ],
 "C53": [
  "proved",
  "stored or integer coefficients, stored or compile-time blades; numbers and basis vectors printed as non-empty words without spaces, brackets and carets"
 ],
 "C54": [
  "partial",
  "refuted in general (C54_refuted): (-x + 3/2 x) + (x - 3/2 x) inside a lazy context recurses forever, the opposite order gives 0; -pow(c<-3>, c<-1>) does not compile (C54_negative_refuted); proved for multivectors that store all their coefficients, with an explicit recursion depth that depends on the dimension only; products with a constant basis blade included; missing: other objects with constant coefficients, run-time blades"
 ],
 "C55": [
  "proved",
  "the conformal products are proved for every dimension in which they compile and shown to compile for one to five base dimensions (the library defines one to three)"
 ],
 "C56": [
  "partial",
  "run-time vectors: geometric products in Euclidean metrics and in metrics whose last basis vector squares to -1 or to 0, and outer products (C56_vectors_partial); a run-time vector with a run-time bivector, in both orders: Euclidean geometric products and outer products (C56_bivectors_partial); C56_small_partial adds the spaces with fewer dimensions, whose types differ; contractions and scalar products of run-time vectors and bivectors in Euclidean metrics (C56_inner_partial); reversion, involution and conjugation of a run-time blade of any grade (C56_signs_partial); Euclidean geometric products, outer products and contractions of a run-time vector with a run-time blade of any grade, in both orders (C56_grades_partial). All up to 63 dimensions. Missing: products of two blades of grades above 2, other metrics, the remaining products"
 ]
}