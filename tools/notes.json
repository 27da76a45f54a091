{
 "C06": {
  "note": "The property is false of the code: c06_*_refuted exhibit silently wrong debug sums/differences; c06_debug_exact_below_two63 is the strongest guarded version that holds."
 },
 "C17": {
  "note": "Sign of nonzero numbers proved; the zero cases are refuted by witness."
 },
 "C20": {
  "note": "Proved for every well-formed expression under the stated guard (avoids_bad_rules) and for every expression without powers and cosines unconditionally; lossless run = Strict, which both builds then match."
 },
 "C21": {
  "note": "The property is false of the code: refuted for 0^r, 1^r, ln(u)^r and cos(pi); c21_wrong_rules says what the rules do for all exponents."
 },
 "C22": {
  "note": "The property is false of the code (c22_refuted, c22_wrong_rules, c22_reciprocal_of_undefined); c22_same_domain and c22_number_is_value are the guarded version that holds for every expression and point, and c22_guards_needed shows that breaking a guard at the root gives a value to an expression without one. c22_debug_integers discharges the guards from the shape of the expression, for debug builds."
 },
 "C25": {
  "note": "Idempotence is false in general (witness 0-(-x)); proved without subtraction, and the fixpoint bound proved for all."
 },
 "C35": {
  "note": "The property is false of the code: in a release build for every power x^k, k >= 2, at 0 and at 1 (c35_all_powers_refuted), and for every expansion of u^k where u simplifies to 0 or 1 (c35_constant_coefficient, both builds); C32 is the guarded version that holds."
 },
 "C36": {
  "note": "Proved for every filter under the stated exception; the exception is shown necessary for * by witness."
 },
 "C37": {
  "note": "False of the code (Infinitesimal+Infinity); proved that this is the only exception and that * commutes."
 },
 "C39": {
  "note": "Full soundness with L'Hopital proved from first principles; guards stated through the relation `asks`, shown satisfiable on sin(x)/x."
 },
 "C40": {
  "note": "False of the code at target 0 (witness sin(y)); proved correct at every other target."
 },
 "C45": {
  "note": "False of the code: three witnesses; C39 is the guarded version that holds."
 },
 "C43": {
  "note": "The property is false of the code: four witnesses; the readable fragment on which it holds is proved (lexing and parsing of the printed text are injective there)."
 },
 "C41": {
  "note": "Also shows that hand-made operator nodes without operands do panic."
 },
 "C13": {
  "note": "Reduced to IEEE round-to-nearest-even through Flocq's proofs about SpecFloat."
 },
 "C15": {
  "note": "The symmetry part is false of the code (witness); soundness and completeness up to one f64 proved for f64 and in-range integer operands."
 },
 "C46": {
  "note": "Nearest-f64 is false of the code (witness c46_double_rounding_refuted); relative error 2^-51 proved for all."
 },
 "C51": {
  "note": "full; c51_not_associative is a witness of the limit of the claim"
 },
 "C52": {
  "note": "full; c52_release_refuted is a witness that release builds can return an undefined fraction"
 },
 "C53": {
  "note": "full: all well-formed trees; no axioms. Proof: measures on derivative chains (LimTerm..LimTerm4)."
 },
 "C54": {
  "note": "the expectation is false of the code; the theorem is the general negative statement, the Example shows x*(1/x)."
 },
 "C55": {
  "note": "residual: both builds, all points, no axioms; exactness: Strict run (so order <= 20), guard taylor_regular as in C32."
 },
 "C56": {
  "note": "full; with the matching lower bound for a family (c56_quadratic)."
 },
 "C57": {
  "note": "full, on all trees."
 },
 "C58": {
  "note": "full for the class `entire` of SpecLim2.v."
 },
 "C59": {
  "note": "full; the exception (variable names) is shown to be real by an Example."
 },
 "C60": {
  "note": "full under the regularity guards of C29/C32 (whose necessity is shown by C21/C35)."
 },
 "C61": {
  "note": "full, on all trees and any stack depth."
 },
 "C62": {
  "note": "full."
 },
 "C63": {
  "note": "full under the regularity guard of C29 for both variables."
 },
 "C64": {
  "note": "full under the regularity guard of C29 for every variable."
 },
 "C65": {
  "note": "full under the regularity guard of C29."
 },
 "C66": {
  "note": "full for the stated class; with powers under the condition of C29 on power bases (c66_derivative_powers)."
 },
 "C67": {
  "note": "full for the stated class; division is excluded because its wrap-around is not modular."
 },
 "C68": {
  "note": "full; the exception for exp is proved as c68_exp_refuted."
 },
 "C69": {
  "note": "under the C32 condition (Strict run: no wrap-around, truncation or rounding; C66 gives it for integer expressions in debug builds)."
 },
 "C70": {
  "note": "full; the failure of the additive laws of fractions is proved as the two _refuted theorems."
 },
 "C71": {
  "note": "full; for stack exhaustion on very deep trees see C97."
 },
 "C72": {
  "note": "full; println! to a closed stdout is not modelled."
 },
 "C73": {
  "note": "under the C32 condition (Strict runs: no wrap-around, truncation or rounding)."
 },
 "C74": {
  "note": "full for +, *, / expressions; that the answer is the limit is refuted. c74_answer_has_value: the answer is defined exactly where the expression is; c74_every_pole_refuted: poles away from 0 are answered with a number that has no value."
 },
 "C75": {
  "note": "full; both exceptions have witnesses."
 },
 "C76": {
  "note": "full; NaN payloads are not modelled."
 },
 "C77": {
  "note": "under the C32 condition (Strict runs)."
 },
 "C78": {
  "note": "full; the exclusion of subtractions is necessary (c78_subtraction_refuted)."
 },
 "C79": {
  "note": "full."
 },
 "C80": {
  "note": "full for debug builds (a release build may wrap coefficients)."
 },
 "C81": {
  "note": "full."
 },
 "C82": {
  "note": "full; sufficient bounds, with a witness that weight 2^63 already panics."
 },
 "C83": {
  "note": "full; sufficient bound, with a witness above it."
 },
 "C84": {
  "note": "full; witnesses in the file (a harmonic sum, a rational function around 1/2)."
 },
 "C85": {
  "note": "full; the failure for two derivatives is proved too."
 },
 "C86": {
  "note": "full."
 },
 "C87": {
  "note": "full."
 },
 "C88": {
  "note": "full; the cancelling case is refuted by a witness."
 },
 "C89": {
  "note": "full; the conditions are shown necessary by c89_conditions_refuted."
 },
 "C90": {
  "note": "full for debug builds (overflow panics); release builds are covered by C33/C34 under their range conditions."
 },
 "C91": {
  "note": "full; extends C66 and C90; the condition is shown necessary by c91_exponent_one_refuted."
 },
 "C92": {
  "note": "full for the class stated (no subtraction or division: there cancellation makes a relative bound false)."
 },
 "C93": {
  "note": "full for the class stated (no division or powers)."
 },
 "C94": {
  "note": "full."
 },
 "C95": {
  "note": "full; \"NaN always survives\" refuted with a witness."
 },
 "C96": {
  "note": "full; powers refuted with a witness (C21)."
 },
 "C97": {
  "note": "full; for limit the explicit bound covers the class of C58 only (elsewhere: some bound exists); the size of a stack frame in bytes is not modelled."
 },
 "C98": {
  "note": "full; the time of clone and of the arithmetic itself is not counted; limit is not covered."
 },
 "C99": {
  "note": "full for ASCII names; the text core::fmt prints for an f64 is a parameter with two stated properties, not modelled."
 },
 "C100": {
  "note": "All expressions, valuations and orders of the class; conditional on the debug build returning."
 },
 "C101": {
  "note": "All expressions of the class; conditional on the debug build returning. (2) under quotient_regular, stated on the quotients actually met."
 },
 "C102": {
  "note": "c102_usual for all expressions of the usual form; c102_reading_unique: the grammar is unambiguous; c102_taylor: printed expansions; c102_refuted: eleven misprinted expressions and an unreadable one."
 },
 "C103": {
  "note": "c103_refuted is for every integer point k <= 0 and order; c103_coefficient_defined is the guarded version."
 },
 "C104": {
  "note": "c104_derivative_domain and c104_same_domain are the guarded versions; c104_refuted (ln x at every a < 0) and c104_constants_refuted show that the guards are needed. c104_quotient discharges the guards for quotients of trigonometric integer polynomials in debug builds."
 }
}