# Formal model of GATL in Coq - design

The plan per property (last section but two) was written before the proofs; the other sections are
kept current.

## What GATL is and what is modelled

GATL (/repo/cpp) is a C++17 header-only template library. A multivector is a
`clifford_expression<CoefficientType, Expression>`: the *type* `Expression` is a symbolic sum of
components (coefficient expression x basis blade), the *object* stores run-time coefficients and
run-time blade bitsets. Every operation
1. opens a *lazy context* (stored entries become tagged variables),
2. builds the result expression symbolically with ordered rewrite rules (`rules<...>`),
3. evaluates it and stores the values.

The model is a set of total Gallina functions over one inductive type `expr` mirroring the C++
expression types, one Gallina function per C++ template or function:

| layer | model (theories/) | C++ (cpp/include/gatl/ga) | specification | statements |
|---|---|---|---|---|
| 64-bit tricks, loops over them | `Bits.v`, `Visit.v` | core/constexpr.hpp, util/for_each_basis_vector.hpp | `SpecBits.v` | `PropBits.v` |
| expression types, traits, order | `Expr.v` | core/expression.hpp, expression_traits.hpp, expression_relational_operators.hpp | `Sem.v`, `Wf.v` | `PropSimp.v` |
| smart constructors and value rewriting | `Simp.v` | core/rules.hpp, expression_simplification_{addition_values,product_values,power}.hpp | `Sem.v`, `SpecRat.v`, `SpecAbs.v` | `PropSimp.v` |
| evaluation | `EvalC.v` | `eval` members of core/expression.hpp | `SpecEval.v` | `PropSimp.v`, `PropEval.v`, `PropEval2.v` |
| components, mappings, signs | `Comp.v`, `Mapping.v`, `Ops.v` | expression_simplification_{addition,product}_components.hpp, *_mapping.hpp, *_product.hpp, *_contraction.hpp, expression_graded_unary_minus.hpp | `SpecMv.v`, `SpecAlg.v`, `SpecProd.v`, `SpecOrder.v` | `PropComp.v`, `PropProducts.v` |
| lazy contexts | `Lazy.v` | core/lazy_context.hpp, clifford_expression.hpp | `SpecLazy.v` | `PropLazy.v`, `PropDyn.v`, `PropDyn2.v`, `PropDyn3.v`, `PropDyn4.v`, `PropDyn5.v` |
| core functions on objects | `Api.v` | core/*.hpp | `SpecApi.v` | `PropApi.v` |
| norm, inverse, duality, versors, commutator | `Extra.v` | extra/*.hpp | `SpecExtra.v` | `PropExtra.v` |
| grades, delta product | `Grade.v` | extra/{take_grade,grade,delta_product}.hpp | `SpecGrade.v` | `PropGrade.v` |
| functions of scalars, norm, unit, exponential, null and unit tests | `Norm.v` | core/math.hpp, extra/{reverse_norm,unit,blade_exponential,tests}.hpp | `SpecNorm.v` | `PropNorm.v` |
| visitor, zero test, copies, construction | `ForEach.v`, `Copy.v`, `Build.v` | util/*.hpp, extra/tests.hpp, core/trivial_copy.hpp | `SpecUtil.v`, `SpecCopy.v` | `PropUtil.v`, `PropCopy.v` |
| join, meet and plunge of blades | `Meet.v` | extra/{fast_meet_and_join,fast_plunge,meet_and_join,plunge}.hpp | `SpecMeet.v`, `SpecMeet2.v` | `PropMeet.v` to `PropMeet6.v` |
| termination | (the models of sums, products, evaluation and calls) | addition_*.hpp, product_*.hpp, lazy_context.hpp | `SpecTotal.v` | `PropTerm.v` |
| printing | `Write.v` | extra/write.hpp | `SpecWrite.v` | `PropWrite.v` |
| general metrics, determinant | `General.v`, `Spaces.v` | core/general_metric_mapping.hpp, core/determinant.hpp, model/{general,conformal}/metric_space.hpp | `SpecGeneral.v`, `SpecSpaces.v` | `PropGeneral.v` |
| points and translations | `Models.v` | model/{conformal,signed/minkowski,signed/homogeneous,signed/plane_based,signed/euclidean}/*.hpp | `SpecSpaces.v`, `SpecMeet.v` | `PropGeneral.v`, `PropTranslate.v` |
| compositions of products of any metric; flats, rounds, tangents; projection | `Geo.v` | extra/{reverse_norm,versor_inverse,inverse_geometric_product,dualization,apply_versor}.hpp, model/{conformal,signed/minkowski,signed/homogeneous,signed/euclidean}/*.hpp | `SpecGeo.v` | `PropGeo.v`, `PropGeo2.v` |
| constants of the algebra definitions | `Algebras.v` | model/{conformal,signed/minkowski,signed/homogeneous}/macro_for_algebra_definition.hpp | `SpecGeo.v` | `PropAlgebras.v` |

Every other file contains proofs only.

Recursion of C++ templates that is not structural (the rewrite engine) is modelled with fuel and
an `option` result: `None` = the C++ template recursion did not finish / the program is ill-formed.
Theorems read "if the compiler produced a type, then ..."; C42 shows that the fuel does not matter,
and an `Example` beside each theorem exhibits calls that do compile.

A call on objects has the outcome `None` (does not compile), `Some (Done object)`, `Some Ovf` (signed
64-bit overflow in the evaluation: undefined behaviour in C++), `Some Bad` (undefined arithmetic, or
storage overrun: undefined behaviour). The API theorems show that a call ends in `Done` with the right
value or in `Ovf`; `Bad` is excluded.

Specifications are separate, small files (`Spec*.v`, `Sem.v`, `Wf.v`): multivectors are formal sums of
(real coefficient, blade bitset) compared by their coefficients (`meq`), the reordering sign is a count of
inversions, the metric a product of squares, the determinant the Leibniz sum over permutations.

## Semantics

* `sem g e` (Sem.v) - meaning of a coefficient expression over the real numbers (stdlib `R`), with an
  explicit undefined outcome (`None`): division by zero, even root of a negative number, log of a
  non-positive number, missing variable.
* `run` (EvalC.v) - the evaluation the C++ code performs, following its specialisations (`a - b`,
  `a / b` with *integer* division when both operands are integers, `sqrt`, `cbrt`, ...), with exact
  real arithmetic in place of floating point and with overflow of 64-bit integers as an outcome.

## Trusted base

* Coq 8.16.1: kernel, and `vm_compute` (used in examples and a few decision procedures; its results are
  checked by the kernel's conversion).
* Axioms listed by `Print Assumptions` (run beside every property theorem): none for most of C01-C06;
  otherwise some of the axioms of the standard library of real numbers and classical logic:
  `ClassicalDedekindReals.sig_forall_dec`, `ClassicalDedekindReals.sig_not_dec`,
  `FunctionalExtensionality.functional_extensionality_dep`, `Classical_Prop.classic`.
  No axiom is added; no section-less Variable or Hypothesis; no functor or module type.
* The reading of the C++ sources: the model was written by hand from /repo; nothing checks it against a
  C++ compiler. Every definition of the model cites the lines it models.
* The property statements (`Prop*.v`) and the `Spec*.v` files.

## Simplifications and parts not modelled

* Floating-point numbers are real numbers: no rounding, infinities, NaN. An operation without exact
  result is `Undef`.
* `bitset_t` is the 64-bit variant (GA_MAX_BASIS_VECTOR_INDEX >= 32; the default is 63). Integers are 64-bit; narrower
  built-in integer types and `abs` of the least integer are not modelled, nor are conversions of
  out-of-range numbers to integers.
* Tags of lazy contexts are unbounded numbers (the code's `tag_t` is 16 bits wide and wraps after 65535).
* Map storage (`stored_map_values` and friends, "not supported yet" in the code).
* Checked numbers / other coefficient types than built-in numbers.
* `noexcept`, move semantics, the state of a destination after a throwing checked copy.
* `isqrt` in `general_metric_space` (the dimension is a parameter of the model) and metric matrices with
  run-time entries.
* The conversion of a `grade_result` to a coefficient type, and its flag.
* The default tolerances (core/default_tolerance.hpp): the tolerance is an argument.
* Meet.v looks at the calls that are executed only; in C++ the other branches must compile as well.
* The state and errors of streams: the text is the result of the model, and how a stream prints a number is a
  parameter.
* The dual_{flat,round,tangent}_direction functions (they do not compile).

## Findings (properties the code violates; each `_refuted` theorem is a witness)

Proved of the model:
* C05: the highest-set-bit function shifts by one in every round, so it is wrong from 2^8 on.
  Consequence (C33_refuted): in spaces with a non-orthogonal metric, products with right factors of grade 9 or
  more lose terms; in `conformal_metric_space<7>`, e2 times the pseudoscalar is 0.
* C09: (A^B)^C becomes A^(B C) and (A B)^C becomes A^C B^C also for fractional C: sqrt(x^2) is x.
* C10: the sum of an integer and a fraction is left as it is (1 + 3/2).
* C11: a constant fraction inside an evaluated expression is computed with integer division: x + 3/2 adds 1.
* C23: combining run-time values with the arguments of an enclosing context may lose values
  (2.0 * a + 3.0 * a), overrun the storage or exchange stored values (pow(2.0, h) + pow(3.0, g)).
* C26, C44 (consequences of C09): rnorm(x e1) is x, negative for negative x; unit(x e1) is e1 for negative x.
* C49 (consequence of C05): the join of a blade of grade 8 or more has a type that is too small; the join of
  e1^...^e8 and e9 is not found (the checked copy does not compile, or throws).
* C52: meet_and_join counts the grade of the meet up for every projected basis vector, also when the product with the
  meet is zero: the meet of (e1 + e2)^e3 with itself in four dimensions is the inverse of zero (NaN).
* C54: inside a lazy context, (-x + 3/2 x) + (x - 3/2 x) does not compile (the simplification recurses forever),
  although both operands and the sum in the other order do: 1 + 3/2 is not simplified (C10), and neither head precedes
  the other. -pow(c<-3>, c<-1>) does not compile either (1 * 1/3 is rejected by a static_assert).
* C31, C35: `for_each_component` casts a constant fraction to the coefficient type:
  is_zero(c<1>/c<2>) is true, and so is is_zero(no) for the constant no = (em - ep)/2 of every Minkowski algebra
  (C35_origin_refuted).
* C38: abs(exp(c<1>)) is -exp(1); abs(pow(x, pow(y, 2))) is pow(x, pow(y, 2)), -1 for x = -1 and y = 1 (a power counts as
  even when its exponent does).
* C39: e(i) + e(j) with run-time indices writes past its storage.
* C40: a repeated index in an index list is accepted silently.
* C41: equality of two constants compares types: 1 + 3/2 differs from 5/2.

Seen while reading, not stated as theorems:
* `0^X -> 0` for X whose sign is unknown; A^(1/3) A^(1/3) -> A^(2/3) is NaN for negative A.
* `exp(log x) -> x` also for x <= 0.
* lazy.eval ignores the storage of its argument: lazy.eval(a + 2.0 * e1) shifts coefficients, lazy.eval(scalar(2.0)) is 0.
* A lazily evaluated `if_else` drops the false value when the condition mixes getters of an outer context.
* `uminus`/`dec` of a stored bitset becomes a stored value, so the rightmost-one expression of a stored blade is
  read from the wrong list; `stored_bitset::type` is `stored_value` (expression.hpp:212-214).
* `trivial_copy` from a run-time blade to a map does not advance the value iterator; the converting constructors are
  `noexcept` although the checked copy throws.
* The sum of two components lacks a fallback when their order is undecided (does not compile).
* `vector(...)`: the `const &&` overload of make_values_tuple loses overload resolution for a non-const constant.
* Mappings check the grade of a blade, not its basis vectors: blades outside the space pass.
* `scaled_constant_basis_blade_t<1, 1>` is e2.
* dual_flat_direction, dual_round_direction and dual_tangent_direction call `undual(a, mtr)`, an overload that does not exist.
* The location of a flat (C45_flat_location) is no + x + |x|^2 ni, not the point no + x + |x|^2/2 ni closest to the origin.
* meet_and_join does not test that the projected vector enlarges the meet (A = B = (e1 + e2)^e3: the meet becomes
  0 and is inverted), and with arguments of decreasing grades it negates meet and join (A = e1^e2^e3, B = e4).
* The orientation of fast_join(A, B) of disjoint blades is that of A^B only up to a sign of the coefficients of B.
* take_grade of a run-time blade with a constant grade outside 0..63 does not compile.

## Plan per property
* C01 `ones` as written, on N with wrap-around mod 2^64; proved equal to a bit-count by bit-slicing lemmas.
* C02 `swaps_count` as written; spec = inversions count; induction on the left blade.
* C03 `first/next_combination` as written; spec = filter popcount k over all numbers below 2^n; proved through the algebraic form of Gosper's step.
* C04 as written; spec = least set bit; `for_each_basis_vector` as a loop with a visitor monad.
* C05 as written; expected to be refuted for arguments above 2^7 (the loop always shifts by one); partial theorem below that.
* C06 as written; induction / Z library.
* C07-C10, C41, C42 the rewrite engine with fuel; soundness by induction on fuel, one lemma per rule; C09 expected to hold only for integer exponents or non-negative bases, general form refuted.
* C11 evalC refines evalR when no integer/integer division happens; refuted otherwise.
* C12, C13 component engine; denotation as formal sums; sortedness invariant.
* C14-C18 mappings as functions on blade expressions; denotation equals the spec product of formal sums; laws proved on the spec and transported.
* C19 masks proved for all grades; algebra on the spec.
* C20 the mapping theorem is proved for run-time blades too, so both agree.
* C21-C24, C39 lazy context model with explicit storage lists; storage overflow is undefined behaviour (None); refutations by witness.
* C25-C28, C36 derived functions as compositions of modelled functions.
* C29-C31, C40 structural recursion over components.
* C45-C48 compositions of the products over an arbitrary geometric product (its laws from C33); the attitude is an abstract homogeneous multivector, the values follow from the vector identities u A = u ^ A + u . A.
* C49 the loop as written, over an invariant: the join is a blade of unit norm whose span grows by the projected vectors;
  the projections of the factors of the largest component span the second blade.
* C50, C51 the values from C25-C27 over the blade of C49; the subspaces from the Leibniz rule of the contraction and
  Gram-Schmidt (MeetMath.v): contracting a blade on a blade that contains it gives the orthogonal complement.
* C52 the loop as written, over an invariant: the meet is a blade inside both subspaces or zero, the join one that contains
  both or zero; the delta product is a blade whose span is the orthogonal complement of the intersection inside the sum,
  so its dual projects each basis vector to the intersection plus the complement of the sum (MeetMath2-4.v).
* C53 the text as the result of a function that reads the storage; unambiguous by splitting at spaces and carets.
* C54 sums of products of getters in increasing order merge with a bounded recursion (TotalProofs.v), hence sums and
  products of multivectors whose coefficients are such sums (2-4), their evaluation (5-6), calls and formulas (7-8), negation and subtraction (9),
  products with a constant basis blade (10-12), the two orders of a sum (13, for C13).
* C55 the values from C25, C33 and C45; the sign of Ie from the contraction of A ^ E on E, with E the wedge of the two extra basis
  vectors (AlgebraProofs.v); the types of the constants by evaluation of the model in each of the 62 dimensions.
* C56 the types of the products are computed for each dimension; their values follow from C14, C16, C17 and C11_eval_partial, with a proof that the integer factors do not overflow.
* C32-C34 Laplace expansion vs Leibniz; general metric mapping.
* C35, C37, C38, C43, C44 as written; the series of C37 from the standard library's series of cos, sin and exp.
