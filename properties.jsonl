{"id": "C01", "title": "Reducing a fraction is canonical", "statement": "RationalNum::reduce returns a fraction of the same value and sign whose numerator and denominator have no common factor; reducing twice is the same as reducing once; a nonzero denominator never becomes zero; reduce never divides by zero (0/0 included); both parts are divided by one positive number whatever they are, so n/0 becomes 1/0 and 0/0 stays.", "quantifier": "every (sign, nominator, denominator) triple of machine integers", "why_tests_cant": "The Euclidean recursion must terminate and be right on all 2^128 numerator/denominator pairs.", "anchors": ["src/smart_num/rational.rs: RationalNum::reduce, gcd"]}
{"id": "C02", "title": "Rational equality is numeric equality", "statement": "For fractions with sign +1/-1 and nonzero denominator, a == b holds exactly when the two fractions denote the same rational number; it identifies +0/n with -0/m. On every value of the type (any sign field, zero denominators) == is reflexive, symmetric and transitive.", "quantifier": "all pairs (triples for transitivity) of fractions", "why_tests_cant": "Equality of two unreduced representations is a statement about every pair.", "anchors": ["src/smart_num/rational.rs: PartialEq for RationalNum"]}
{"id": "C03", "title": "Fraction constructor accepts exactly valid fractions", "statement": "RationalNum::new(s,n,d) returns a fraction holding exactly these fields iff s is 1 or -1 and d is nonzero, and otherwise returns None; the single exception is s = i64::MIN, where a debug build panics instead of returning None.", "quantifier": "every i64 sign and u64 numerator/denominator, both builds", "why_tests_cant": "The exceptional input is one value out of 2^192.", "anchors": ["src/smart_num/rational.rs: RationalNum::new, new_positive, new_negative"]}
{"id": "C04", "title": "Rational product and quotient are exact or panic (debug)", "statement": "In a debug build x*y and x/y either panic or return a fraction in lowest terms whose value is exactly the product/quotient (division by a zero fraction excepted); they panic exactly when a 64-bit product of the fields overflows. A release build returns the same value whenever the debug build returns.", "quantifier": "all pairs of valid fractions", "why_tests_cant": "Overflow boundaries depend on all four 64-bit fields.", "anchors": ["src/smart_num/rational.rs: Mul for RationalNum, Div for RationalNum"]}
{"id": "C05", "title": "Rational sum and difference are exact in range", "statement": "If both cross products are below 2^63, their sum/difference is in the i64 range (and not i64::MIN) and the product of denominators fits u64, then x+y and x-y return in both builds a fraction in lowest terms with exactly the right value (sign 0 when it is zero). With cross products below 2^63 these bounds are also necessary in debug builds: outside them x+y and x-y panic.", "quantifier": "all pairs of valid fractions meeting the bounds, both builds", "why_tests_cant": "Needs exactness for every pair in a 2^256-element domain.", "anchors": ["src/smart_num/rational.rs: Add for RationalNum, Sub for RationalNum"]}
{"id": "C06", "title": "Rational sum and difference never silently wrong (violated)", "statement": "In a debug build x+y and x-y should either panic or return the exact sum/difference. This is FALSE: the cross product is cast with `as i64`, which wraps silently from 2^63 on, so a debug build returns a number of the wrong sign and magnitude. Exactly: the debug build panics iff a cross product reaches 2^64, or is 2^63 with a negative sign, or the (wrapped) sum reaches 2^63 in absolute value, or the product of the denominators reaches 2^64; otherwise the result is a fraction in lowest terms off by exactly 2^64/(d1*d2) per wrapped cross product, and right iff these losses cancel.", "quantifier": "all pairs of valid fractions, debug builds", "why_tests_cant": "The failing inputs start at 2^63; no existing test goes beyond 100.", "anchors": ["src/smart_num/rational.rs: Add for RationalNum, Sub for RationalNum"]}
{"id": "C07", "title": "Number tags are truthful", "statement": "For every number obtainable through the public API (conversions, new_rational, pi, e, and any sequence of +,-,*,/ and negation): is_zero() is true iff it is the exact number 0, is_one() iff it is the exact number 1, is_pi()/is_e() only for the constants themselves; f64-backed numbers are never is_zero/is_one.", "quantifier": "every number reachable by any finite sequence of API operations, both builds", "why_tests_cant": "Invariant over unbounded operation histories.", "anchors": ["src/smart_num/mod.rs: SmartNum, wrap_val, From<T> for SmartNum", "src/smart_num/val_holder.rs: is_zero, is_one"]}
{"id": "C08", "title": "Integer arithmetic is exact or panics in debug, wraps in release", "statement": "On integer numbers +,-,*,negation return the exact integer when it fits i64 (so to_i64 gives it back); otherwise the debug build panics and the release build returns the value modulo 2^64.", "quantifier": "all pairs of i64, both builds", "why_tests_cant": "Boundary cases of 2^128 pairs.", "anchors": ["src/smart_num/mod.rs: Add/Sub/Mul/Neg for SmartNum", "src/smart_num/val_holder.rs: Add/Sub/Mul/Neg for SmartNumVal"]}
{"id": "C09", "title": "Mixed exact arithmetic is exact when nothing is lost", "statement": "For any two numbers (integer, rational or finite f64, in any mix), if the operation performs no overflow, no lossy cast and no inexact f64 rounding, then x+y, x-y, x*y, x/y (divisor nonzero) and -x return a number whose exact value is the sum, difference, product, quotient or negation.", "quantifier": "all pairs of API-reachable numbers", "why_tests_cant": "Nine representation pairs per operator, each over an unbounded-looking value range.", "anchors": ["src/smart_num/val_holder.rs: Add, Sub, Mul, Div, Neg for SmartNumVal", "src/smart_num/mod.rs: Add..Neg for SmartNum"]}
{"id": "C10", "title": "Identity and annihilator laws", "statement": "x+0 and x-0 return x itself (same representation and tag) when x is nonzero, 0+x returns x, 0-x returns -x; 1*x and x*1 return x when x is nonzero and not itself a one (if both are ones the right one is returned); 0*x and x*0 are the exact 0 and 0/x is the exact 0 for every x, including infinities, NaN and zero. None of these can panic except the negation of i64::MIN.", "quantifier": "every API-reachable number x, any representation of 0 and 1, both builds", "why_tests_cant": "Must hold for every representation of every number.", "anchors": ["src/smart_num/mod.rs: Add, Sub, Mul, Div for SmartNum"]}
{"id": "C11", "title": "Division by zero never panics", "statement": "x/0 for integer or rational x never panics except for i64::MIN and a numerator product of 2^64 or more in debug; it yields the exact 0 when x is zero, otherwise a number with zero denominator that is neither is_zero nor is_one. Such a number stays undefined under negation, under + and - with any exact number, under * with a nonzero one, and when it is divided by an exact number; but dividing a nonzero ordinary number by it (numerator nonzero) silently gives the exact 0, and so does multiplying it by 0. In release builds +, -, *, / and negation of any numbers never panic; with an f64 operand they never panic in any build.", "quantifier": "every integer/rational x and every representation of zero", "why_tests_cant": "Corner case over all numerators.", "anchors": ["src/smart_num/val_holder.rs: Div for SmartNumVal", "src/smart_num/rational.rs: Div for RationalNum"]}
{"id": "C12", "title": "Debug and release builds agree whenever debug does not panic", "statement": "For every operation of the library (number arithmetic, constructors and conversions, is_close, near, num_aggregate, derivative, taylor_expansion, limit, formatting): if the debug build returns a result then the release build returns the identical result; and a run with no lossy machine arithmetic returns the identical result in both builds.", "quantifier": "all inputs of all modelled operations", "why_tests_cant": "Relates two compilations on all inputs.", "anchors": ["src/compute/num_aggregate/mod.rs: num_aggregate", "src/compute/derivative/mod.rs: derivative", "src/compute/taylor_expansion/partial_expansion.rs: taylor_expansion", "src/compute/limit/mod.rs: limit"]}
{"id": "C13", "title": "f64 arithmetic is correctly rounded", "statement": "When at least one operand is f64-backed and both converted operands are finite, the result of +,-,* (and / by nonzero) is the IEEE round-to-nearest-even of the exact real result of the converted operands (or an infinity if that overflows); an integer operand is first converted to its nearest f64. With NaN, infinite operands or a zero divisor the result is the one IEEE-754 prescribes, except where the exact 0 and 1 shortcuts of C10 apply.", "quantifier": "all pairs of API-reachable numbers with an f64 among them, both builds", "why_tests_cant": "Rounding over all 2^128 operand pairs.", "anchors": ["src/smart_num/val_holder.rs: Add..Div for SmartNumVal"]}
{"id": "C14", "title": "is_close is symmetric, and reflexive on finite numbers", "statement": "x.is_close(y,eps) always returns and equals y.is_close(x,eps) for all numbers (NaN and infinities included) and all eps; x.is_close(x,eps) holds for every number with finite f64 value and finite eps > 0; a NaN or infinity is close to nothing. For finite values the answer is sound (yes implies the exact distance of the two f64 values is below eps) and complete up to one f64 step (if some f64 lies between the distance and eps, the answer is yes).", "quantifier": "all pairs of numbers, all f64 eps", "why_tests_cant": "Relational law over all floats.", "anchors": ["src/smart_num/val_holder.rs: IsClose", "src/smart_num/mod.rs: IsClose"]}
{"id": "C15", "title": "Expression::near is an equality test up to eps (asymmetry found)", "statement": "near(a,b,eps) returns Err exactly when one side is not a number. With an f64 on one side, or for integers whose difference fits i64, it returns, says yes only if the exact distance is below eps, and says yes whenever an f64 separates the distance from eps. Symmetry is FALSE in debug builds: near(0, i64::MIN) panics while near(i64::MIN, 0) returns; in release builds near(i64::MAX, i64::MIN, 2.0) is true. For exact integers and fractions compared without loss, the answer is right whenever the exact distance differs from eps by more than a factor 1 +- 2^-51.", "quantifier": "all pairs of expressions and eps", "why_tests_cant": "Existential/universal over all number pairs.", "anchors": ["src/ast/tree.rs: Expression::near"]}
{"id": "C16", "title": "Conversions into numbers preserve the value", "statement": "Converting any i64 (or narrower integer) gives a number whose to_i64 returns it and whose is_zero/is_one answer correctly; converting an f64 or f32 preserves its exact value. Converting a u64 preserves the value iff it is below 2^63; from 2^63 on the number silently becomes v-2^64.", "quantifier": "every machine value of each source type", "why_tests_cant": "Exhaustive over 2^64 values per type.", "anchors": ["src/smart_num/val_holder.rs: From<i64>, From<u64>, From<f64>, From<f32>"]}
{"id": "C17", "title": "sign() reports the sign of the number", "statement": "For integers sign() is -1/0/1 as the value is negative/zero/positive; for nonzero fractions it is the sign of the value; for an f64 it is 0 for NaN and otherwise +1/-1 by the sign bit (also of infinities). It is NOT reliable for zero fractions (new_rational(-1,0,5).sign() = -1) or f64 zeros (+0.0 gives 1).", "quantifier": "every API-reachable number", "why_tests_cant": "All numbers of three representations.", "anchors": ["src/smart_num/mod.rs: SmartNum::sign"]}
{"id": "C18", "title": "Only arity-correct trees are built", "statement": "Every expression built with the public builders (variables, numbers, + - * / negation, sin cos exp ln pow) has the right number of children at every node; num_aggregate, derivative, substitute and every Taylor coefficient/residual preserve this; therefore none of the internal unwraps on child vectors can panic on them.", "quantifier": "every expression obtainable by any finite sequence of builder/transform calls, both builds", "why_tests_cant": "Invariant over unbounded histories of API calls.", "anchors": ["src/ast/tree.rs: Expression", "src/math_op", "src/compute"]}
{"id": "C19", "title": "num_aggregate always returns in release builds", "statement": "On every well-formed expression num_aggregate returns (never panics) in a release build; in a debug build the only possible panic is integer overflow (of i64/u64 arithmetic on literals).", "quantifier": "every well-formed expression", "why_tests_cant": "Totality over infinitely many trees.", "anchors": ["src/compute/num_aggregate/mod.rs: num_aggregate"]}
{"id": "C20", "title": "num_aggregate preserves the value", "statement": "Wherever the expression is defined (denominators nonzero, ln arguments positive, powers meaningful), num_aggregate returns an expression that is defined there and has exactly the same real value, provided the run performs no lossy machine arithmetic and no power base simplifies to 0, 1 or a logarithm and no cosine argument simplifies to the constant pi (those rules are wrong, see the violated properties).", "quantifier": "every well-formed expression and every assignment of reals to its variables", "why_tests_cant": "All trees times all real assignments.", "anchors": ["src/compute/num_aggregate/mod.rs: num_aggregate", "src/compute/num_aggregate/rules/*.rs"]}
{"id": "C21", "title": "num_aggregate of powers and cos(pi) preserves the value (violated)", "statement": "num_aggregate should preserve the value of every defined expression. FALSE: 0^r becomes 1, 1^r becomes r, ln(u)^r becomes u, and cos(pi) becomes 1.", "quantifier": "every defined expression", "why_tests_cant": "Counterexamples at specific shapes not covered by tests.", "anchors": ["src/compute/num_aggregate/rules/pow.rs: pow_eval_rule", "src/compute/num_aggregate/rules/cos.rs: cos_eval_rule"]}
{"id": "C22", "title": "num_aggregate never invents definedness for numbers (violated)", "statement": "If num_aggregate turns an expression into a number, the expression should have been defined. FALSE: 0/0 becomes 0, exp(ln(-1)) becomes -1, 1/(1/0) becomes 0. Guarded version that holds: for every expression on which the wrong power/cosine rules (C21) do not fire, and where every operand that a rule drops has a value (b in 0*b and b*0; b, nonzero, in 0/b; u in exp(ln u); b in a/b when b becomes a number), the simplified expression has at every point exactly the value of the input, and none where the input has none; so a number with a value is the value of the input. Each guard is needed: broken at the root, the result has a value and the input has none. In particular, in a debug build an integer expression whose factors contain no division, logarithm or power, whose dividends do not become 0, and whose exponents and power bases contain no logarithm, simplifies to an expression with the same value at every point, and with none where it has none.", "quantifier": "every expression", "why_tests_cant": "Existential over trees.", "anchors": ["src/compute/num_aggregate/rules/div.rs", "src/compute/num_aggregate/rules/exp.rs", "src/smart_num/val_holder.rs: Div for SmartNumVal"]}
{"id": "C23", "title": "num_aggregate never grows an expression nor invents variables", "statement": "The result has at most as many nodes as the input, every variable in it occurs in the input, and every operator in it occurs in the input except that a negation may replace a subtraction 0-r.", "quantifier": "every expression on which num_aggregate returns, both builds", "why_tests_cant": "Inductive over all trees.", "anchors": ["src/compute/num_aggregate/mod.rs: num_aggregate"]}
{"id": "C24", "title": "num_aggregate folds all closed arithmetic", "statement": "If an expression is built from numbers only with + - * / and negation, num_aggregate (when it returns) returns a single number; and more generally no arithmetic node of the result has only numbers as operands.", "quantifier": "every expression on which num_aggregate returns", "why_tests_cant": "Inductive over all trees.", "anchors": ["src/compute/num_aggregate/mod.rs: num_aggregate"]}
{"id": "C25", "title": "num_aggregate is idempotent", "statement": "Aggregating an aggregated expression changes nothing. Holds for every well-formed expression without subtraction; FALSE in general: 0-(-x) becomes -(-x), which a second call turns into x. Repeated calls nevertheless always reach a fixpoint within as many calls as the expression has nodes. On an expression with k subtractions, calling num_aggregate k+1 times always gives an expression that another call returns unchanged; for every k >= 1 there is one where k calls are not enough, so no fixed number of calls is. The derivative of an expression without - and / is already in such a simplest form (false with /: 1/(-sin x)), and so are all coefficients and the last derivative of a Taylor expansion if the expression has no -, /, ^, ln and the point has no -.", "quantifier": "every well-formed expression", "why_tests_cant": "Inductive over all trees.", "anchors": ["src/compute/num_aggregate/rules/sub.rs", "src/compute/num_aggregate/rules/neg.rs"]}
{"id": "C26", "title": "Substitution is semantic substitution", "statement": "e.substitute(x, v) evaluates, under any assignment, to the value of e with x assigned the value of v (and is defined exactly when that is); occurrences of other variables are untouched.", "quantifier": "every expression, variable, replacement and assignment", "why_tests_cant": "All trees and assignments.", "anchors": ["src/compute/substitute/mod.rs: Substitute"]}
{"id": "C27", "title": "Substitution's structural laws", "statement": "substitute returns Err iff its first argument is not a variable; substituting a variable that does not occur returns the expression unchanged, substituting x by x returns it unchanged; if x does not occur in v, it does not occur in the result; two substitutions for distinct variables commute when neither replacement mentions the other's variable; node count of the result is determined by the occurrences.", "quantifier": "every expression, variable and replacement", "why_tests_cant": "All trees.", "anchors": ["src/compute/substitute/mod.rs: Substitute"]}
{"id": "C28", "title": "derivative reports errors exactly for non-variables", "statement": "derivative(e, to) returns Err iff `to` is not a variable expression, with `to` as the reported source; with a variable it returns Ok or panics only by arithmetic overflow in debug; it always returns in release.", "quantifier": "every pair of well-formed expressions, both builds", "why_tests_cant": "All trees.", "anchors": ["src/compute/derivative/mod.rs: Derivative"]}
{"id": "C29", "title": "derivative is the mathematical derivative", "statement": "At every point where the expression is defined, every power base has a nonzero value, is positive unless the exponent is free of the variable, and is either a variable or free of ln and different from 1, and no literal pi occurs inside a sine or cosine: if the run performs no lossy machine arithmetic, then the returned expression is defined there and its value is the partial derivative of the expression's value with respect to the variable.", "quantifier": "every well-formed expression, variable and real assignment meeting the guard", "why_tests_cant": "Needs calculus over all trees and reals.", "anchors": ["src/compute/derivative/mod.rs: derivative", "src/compute/derivative/rules/*.rs"]}
{"id": "C30", "title": "derivative of an expression not containing the variable is literally zero", "statement": "If x does not occur in e, then derivative(e,x), whenever it returns, returns exactly the number 0.", "quantifier": "every well-formed expression not mentioning x, both builds", "why_tests_cant": "Inductive over all trees; depends on all simplification rules cooperating.", "anchors": ["src/compute/derivative/mod.rs: derivative", "src/compute/num_aggregate/mod.rs"]}
{"id": "C31", "title": "taylor_expansion: shape of the result", "statement": "taylor_expansion(of,at,n) returns Err iff `of` is not a variable (reporting it); otherwise, when it returns, the result has order n, exactly n+1 coefficients, the given variable and point, coefficient k is the aggregate of (k-th derivative at the point)/k! and the residual is the (n+1)-th iterated derivative.", "quantifier": "every expression, variable, point and order, both builds", "why_tests_cant": "Loop of arbitrary length over arbitrary expressions.", "anchors": ["src/compute/taylor_expansion/partial_expansion.rs: taylor_expansion"]}
{"id": "C32", "title": "taylor_expansion: coefficients are f^(k)(a)/k!", "statement": "With no lossy machine arithmetic, for orders up to 20, and where the expression is defined at the expansion point, every power base has a nonzero value there, is positive unless the exponent is free of the variable, and is either another variable or free of ln and different from 1, no literal pi occurs inside a sine or cosine, and the point is free of ln and pi: the value of coefficient k is the k-th derivative of the expression at the point divided by k!.", "quantifier": "every well-formed expression, expansion point, order and assignment meeting the guard", "why_tests_cant": "Calculus over all trees, all orders.", "anchors": ["src/compute/taylor_expansion/partial_expansion.rs: taylor_expansion"]}
{"id": "C33", "title": "taylor_expansion: Lagrange remainder", "statement": "Under the same guards on the whole interval between the point a and y, f(y) equals the sum of coefficient_k*(y-a)^k for k<=n plus (y-a)^(n+1)/(n+1)! times the returned residual's value at some intermediate point.", "quantifier": "every such expression, order and real y", "why_tests_cant": "Existence of an intermediate point for each y.", "anchors": ["src/compute/taylor_expansion/partial_expansion.rs: PartialExpansion"]}
{"id": "C34", "title": "taylor_expansion order limit", "statement": "A debug build always panics for order >= 21 (21! overflows i64), whatever the expression; every returned expansion without lossy arithmetic has order <= 20. In a release build every order returns, but from index 66 on (66! is 0 modulo 2^64) a coefficient is either the number 0 or has no value, whatever the expression and point.", "quantifier": "every expression, point and order >= 21", "why_tests_cant": "Universal over expressions and orders.", "anchors": ["src/compute/taylor_expansion/partial_expansion.rs: taylor_expansion"]}
{"id": "C35", "title": "taylor_expansion of powers (violated)", "statement": "Coefficients should be f^(k)(a)/k!. FALSE for powers at 0 and 1: x^2 at 1 yields constant coefficient 2, x^2 at 0 yields constant coefficient 1 and a linear coefficient 1/0. More generally, wherever the base u of u^k (k an integer) simplifies to 1 or 0 at the point, the constant coefficient is k or 1; so in a release build every expansion of every power x^k, k >= 2, around 1 or 0 has a wrong constant coefficient.", "quantifier": "every expression and point", "why_tests_cant": "Shape-specific counterexamples.", "anchors": ["src/compute/taylor_expansion/partial_expansion.rs: taylor_expansion", "src/compute/num_aggregate/rules/pow.rs"]}
{"id": "C36", "title": "Limit algebra is sound", "statement": "Reading Infinitesimal as 'tends to 0', Infinity as 'absolute value tends to infinity', BoundedFluctuation as 'eventually bounded' and Normal(e) as 'tends to the value of e': whenever +, - or negation of limit values returns a limit value, it correctly describes the sum, difference or negation of any two functions described by the operands, along any filter. The same holds for * unless Infinity meets a Normal of value 0, and for / (denominator eventually nonzero) unless a Normal of value 0 is divided by, or is divided by Infinitesimal without being a literal zero. Without this exception it is false: Infinity * Normal(0) is Infinity.", "quantifier": "all pairs of real functions, all filters (points), all limit values", "why_tests_cant": "Quantifies over all functions.", "anchors": ["src/compute/limit/limit_expression.rs: Neg, Add, Sub, Mul, Div"]}
{"id": "C37", "title": "Limit addition is commutative in outcome (violated)", "statement": "a+b and b+a should succeed together. FALSE: Infinity+Infinitesimal is Infinity but Infinitesimal+Infinity is an error. Multiplication is commutative in outcome.", "quantifier": "all pairs of limit values", "why_tests_cant": "Full case table.", "anchors": ["src/compute/limit/limit_expression.rs: Add"]}
{"id": "C38", "title": "limit of negation, subtraction, exp, ln and pow always panics", "statement": "For every expression whose root is a negation, a subtraction, exp, ln or a power, limit panics for every variable, target and order (given enough stack); an expression that reaches such an operator through sums, products and quotients never gets a limit value; and limit panics whenever its `of` argument is not a variable.", "quantifier": "every well-formed expression of these shapes", "why_tests_cant": "Universal over sub-expressions: no input of this shape ever works.", "anchors": ["src/compute/limit/rules/neg.rs", "src/compute/limit/rules/sub.rs", "src/compute/limit/mod.rs"]}
{"id": "C39", "title": "limit is sound", "statement": "For power-free expressions without a literal pi inside a sine or cosine, in runs without lossy arithmetic: (1) if the expression has a value at the target point (and, for target 0, sine arguments vanish there), limit never reports an error and its answer is that value, which is the limit of the function; (2) at any point, provided every expression whose limit is asked for on the way (operands, the rewritings of indeterminate sums and products, the quotients of derivatives) is defined near the point, no rule is applied to a hidden zero, and trigonometric arguments are defined at the point (and vanish there for sines at 0): the answer describes the function near the point: it tends to 0, to infinity in absolute value, or to the value of the returned expression. This includes any number of applications of L'Hopital's rule.", "quantifier": "every well-formed such expression, target, order, real assignment and stack depth", "why_tests_cant": "Analysis (L'Hopital's rule) over all trees and reals.", "anchors": ["src/compute/limit/mod.rs: limit", "src/compute/limit/rules/add.rs", "src/compute/limit/rules/mul.rs", "src/compute/limit/rules/div.rs"]}
{"id": "C40", "title": "limit of sin at 0 (violated)", "statement": "limit of sin(u) at x->0 should be sin of the limit of u. FALSE: it answers 0 for every sin(...) as soon as the target is 0, e.g. for sin(x+1) and sin(y). At every other target it is correct.", "quantifier": "every expression", "why_tests_cant": "Counterexample shape not in tests.", "anchors": ["src/compute/limit/rules/sin.rs"]}
{"id": "C41", "title": "Formatting never panics on well-formed input", "statement": "to_string of every API-reachable number and every well-formed expression returns; in particular the panic branch for untagged constants is unreachable.", "quantifier": "every well-formed expression", "why_tests_cant": "All trees.", "anchors": ["src/ast/tree.rs: to_string_raw", "src/smart_num/special_const.rs: Display"]}
{"id": "C42", "title": "Number formatting is faithful", "statement": "Integers and fractions print a text that denotes exactly their value (integers their decimal numeral, fractions sign, numerator and denominator as stored), so numbers of different value print differently and n/0 differently from every number; the named constants print pi and e; other finite f64 values print with three decimals within 0.0005 of the exact value: the sign bit, then the nearest multiple of 0.001, the even one of two equally near; NaN and infinities print as such.", "quantifier": "every number", "why_tests_cant": "All numbers.", "anchors": ["src/smart_num/mod.rs: Display for SmartNum", "src/smart_num/rational.rs: Display", "src/smart_num/val_holder.rs: Display"]}
{"id": "C43", "title": "Expression formatting is unambiguous (violated), balanced", "statement": "Two expressions that print the same should have the same value. FALSE: x-(y-z) and (x-y)-z print the same, as do x/(y^2) and (x/y)^2, the literal -2 squared and -(2^2), and the variable sinx and sin(x). What holds: an operand is printed in parentheses exactly when it binds less tightly, parentheses are balanced, and among expressions without right operands of equal priority, without negative literals and with plain variable names the text determines the tree, hence (without f64 literals) the value. With sums and differences to the right of +, and products and quotients to the right of *, grouped either way, the text still determines the value, though no longer the tree. Display of an operation is made of the Display of its operator and of its operands.", "quantifier": "every pair of expressions", "why_tests_cant": "Injectivity over all pairs of trees.", "anchors": ["src/ast/tree.rs: to_string_raw"]}
{"id": "C44", "title": "limit never answers BoundedFluctuation", "statement": "Whatever the expression, variable, target and order, a successful limit is Infinitesimal, Infinity or Normal, so callers need not handle BoundedFluctuation.", "quantifier": "every expression (well-formed or not), both builds", "why_tests_cant": "Universal negative statement.", "anchors": ["src/compute/limit/mod.rs: limit", "src/compute/limit/rules/*.rs"]}
{"id": "C45", "title": "limit answers are correct without side conditions (violated)", "statement": "Whenever limit answers and the function is defined near the point, the answer should describe the function. FALSE: (1/x)*0 at 0 is answered Infinity, (x+1)/((x+1)+(-1)) at 0 is answered with the number 1/0 although the function tends to infinity, cos(x) at pi is answered 1.", "quantifier": "every well-formed expression, target, order", "why_tests_cant": "Universal; the witnesses show which side conditions C39 needs.", "anchors": ["src/compute/limit/limit_expression.rs: Mul, Div", "src/compute/limit/rules/cos.rs"]}
{"id": "C46", "title": "to_f64 of exact numbers is accurate", "statement": "For every integer or fraction with nonzero denominator, to_f64 returns a finite f64 within relative error 2^-51 of the exact value (exactly 0 for 0). It is not always the nearest f64 (9007199254740995/3).", "quantifier": "every API-reachable integer or rational number, both builds", "why_tests_cant": "Floating-point error bound over all 2^129 fractions.", "anchors": ["src/smart_num/rational.rs: to_f64", "src/smart_num/val_holder.rs: to_f64"]}
{"id": "C47", "title": "The constants pi and e are stored correctly rounded", "statement": "The f64 value of the named constants pi and e is the f64 nearest to the true mathematical constant.", "quantifier": "comparison with every f64", "why_tests_cant": "Refers to the exact real constants.", "anchors": ["src/smart_num/mod.rs: pi, e"]}
{"id": "C48", "title": "Printed Taylor expansions are the text of the polynomial", "statement": "to_string of an expansion (of order below 2^63 - 2) returned by taylor_expansion is the text of the sum of coefficient_k * (x-a)^k over the nonzero coefficients, followed by + O((x-a)^(n+1)) (only the O term if all coefficients are zero); no coefficient needs parentheses it does not get; it never panics in a release build, and in a debug build only if simplifying x-a overflows.", "quantifier": "every well-formed expression, variable, point and order, both builds", "why_tests_cant": "All expressions and orders.", "anchors": ["src/compute/taylor_expansion/partial_expansion.rs: Display for PartialExpansion"]}
{"id": "C49", "title": "to_rational and the classification functions", "statement": "to_rational of every integer or fraction returns a fraction of exactly that value with sign 1 or -1 (a fraction from new_rational comes back field by field); only i64::MIN in a debug build panics; f64-backed numbers (pi and e included), variables and compound expressions give None. is_operator/is_operand/is_num/to_smart_num and the conversion to a variable say what the expression is; is_zero/is_one hold exactly for literals of exact value 0/1, is_pi/is_e exactly for the constants, and such expressions evaluate to 0, 1, pi, e; operators compare equal exactly when they are of the same kind, and the kinds are totally ordered (Ord) in the order of their declaration, consistently with ==.", "quantifier": "all API-reachable numbers, all well-formed expressions, both builds", "why_tests_cant": "ranges over all 64-bit numbers and all expression trees", "anchors": ["src/smart_num/mod.rs: SmartNum::to_rational, is_zero, is_one, is_pi, is_e", "src/ast/tree.rs: Expression::{is_operator,is_operand,is_num,is_zero,is_one,is_pi,is_e,to_smart_num,to_rational}", "src/ast/op/operator.rs: PartialEq"]}
{"id": "C50", "title": "Error texts name the offending argument", "statement": "Calling derivative or taylor_expansion with something that is not a variable returns an error whose text contains the printed text of exactly that argument ('{} cannot be used as a variable', 'Cannot expand {} due to not a variable'); substitute's error text is fixed; printing such an error never panics for well-formed arguments.", "quantifier": "all expressions and all well-formed non-variable arguments, all orders, both builds", "why_tests_cant": "ranges over all expression trees passed as the variable", "anchors": ["src/compute/derivative/mod.rs: DerivativeError", "src/compute/taylor_expansion/partial_expansion.rs: TaylorExpansionError", "src/compute/substitute/mod.rs: SubstituteError"]}
{"id": "C51", "title": "+ and * of numbers are commutative", "statement": "For any two numbers, x + y and y + x have the same outcome in a debug and in a release build: the identical number or a panic both ways; likewise x * y and y * x. The only difference possible is between differently stored zeros (x + y with both zero) or ones (x * y with both one). Fractions (RationalNum) commute exactly. Addition is not associative: grouping can decide whether a debug build panics.", "quantifier": "all numbers (integers, fractions including undefined ones, f64 values including NaN and infinities), both builds", "why_tests_cant": "the number pairs are unboundedly many and mix three representations with overflow; tests can only sample pairs", "anchors": ["src/smart_num/mod.rs: Add, Mul for SmartNum", "src/smart_num/val_holder.rs: Add, Mul for SmartNumVal", "src/smart_num/rational.rs: Add, Mul for RationalNum"]}
{"id": "C52", "title": "Self-cancellation and double negation of numbers", "statement": "For an exact number x with a defined value, whenever a debug build returns, x - x is the zero constant and, for x not zero, x / x is the one constant; they do return when numerator and denominators are moderately sized. In a release build they may instead silently be undefined. Negating twice gives back the identical number, except that 0, 1 and -1 come back as the canonical integer and pi, e come back as plain f64 numbers that are no longer recognised as pi, e.", "quantifier": "all numbers obtainable through the public API; cancellation for all exact ones with defined value", "why_tests_cant": "must hold for all 2^64 integers and 2^128 fractions and their representations", "anchors": ["src/smart_num/mod.rs: Sub, Div, Neg for SmartNum, wrap_val", "src/smart_num/rational.rs: Sub, Div, Neg, reduce"]}
{"id": "C53", "title": "limit always terminates", "statement": "limit, on every well-formed expression, for every variable, target and order, ends after finitely many recursive calls with a value, an error or a panic: the rewritings of indeterminate sums (a+b to (a/b+1)/(1/b)) and products (a*b to a/(1/b)) and the L'Hopital iterations never call each other forever, and from some recursion depth on the outcome is the same. num_aggregate, derivative and taylor_expansion recurse on the tree only.", "quantifier": "every well-formed expression, every `of`, target and order, both builds", "why_tests_cant": "the rewritten expressions are larger than the original ones, so termination is not visible from the code; a test can only run particular inputs, and a non-terminating one would never finish", "anchors": ["src/compute/limit/mod.rs: limit", "src/compute/limit/rules/add.rs", "src/compute/limit/rules/mul.rs", "src/compute/limit/rules/div.rs"]}
{"id": "C54", "title": "limit of a product 0 * infinity (violated)", "statement": "An indeterminate product should be resolved when it has a limit. FALSE always: if limit says that a tends to 0 and b to infinity and the simplified derivative of b is not a number, then neither a*b nor b*a ever gets a value, whatever the order: limit ends in an error or a panic, because the rewriting needs the derivative of 1/b, which is a negation and negation has no limit rule. For instance x*(1/x) at 0 panics.", "quantifier": "every pair of well-formed expressions with those limits, every target and order, both builds", "why_tests_cant": "universal negative statement over all expressions", "anchors": ["src/compute/limit/rules/mul.rs", "src/compute/limit/rules/div.rs", "src/compute/limit/rules/neg.rs"]}
{"id": "C55", "title": "Taylor expansion of a polynomial is exact", "statement": "taylor_expansion of an expression written as a polynomial of degree at most d in the variable (from +, -, *, negation and division by parts free of the variable), to any order n >= d, at any point, leaves the residual literally 0, in both builds; and (when the run does not overflow, at a point with a value and without the shapes for which num_aggregate is wrong) the sum of the coefficients times (y-a)^k equals the value of the expression at every y, not only near a.", "quantifier": "every polynomial expression with arbitrary x-free parts, every degree, order >= degree, point a, assignment of the other variables and y", "why_tests_cant": "unbounded degree and expression shape, all real points", "anchors": ["src/compute/taylor_expansion/mod.rs: taylor_expansion", "src/compute/derivative"]}
{"id": "C56", "title": "Derivatives grow at most quadratically", "statement": "derivative of a well-formed expression with n nodes has at most 2*n^2 nodes and is nested at most 4 times as deep; num_aggregate never deepens; the k-fold derivative (and a Taylor residual of order k-1) has at most (2n)^(2^k)/2 nodes. The quadratic order is reached: the derivative of x*(x*(...)) with n multiplications has at least n^2 nodes. The exponential growth in k is real: the k-th derivative of exp(x)*exp(x) has exactly 6*2^k - 1 nodes, and so does the residual of its Taylor expansion of order k-1. Quotients double too: with v simplified and not a number, the k-th derivative of u/v is literally 0 or has v^(2^k), written out as a product, as its denominator, hence at least 2^k*(size of v) nodes; in a debug build the k-th derivative of 1/(1-x), the (k+1)-st of ln(1+x) and the residual of the order-k expansion of ln(1+x) have at least 4*2^k nodes. One fixed expression of three nodes outgrows every exponential: the derivative of order 2k of exp(exp(x)) has at least k! nodes, in every build.", "quantifier": "every well-formed expression, variable and iteration count, both builds", "why_tests_cant": "a resource bound over all expressions of all sizes", "anchors": ["src/compute/derivative/mod.rs: derivative", "src/compute/derivative/rules", "src/compute/num_aggregate", "src/compute/taylor_expansion/partial_expansion.rs"]}
{"id": "C57", "title": "Variable names do not matter", "statement": "Renaming the variables of all arguments by a renaming that keeps different names different, and then calling num_aggregate, substitute, derivative, taylor_expansion or limit gives exactly the renamed result of the original call (including errors and panics). For num_aggregate this holds for every renaming, even one that merges names.", "quantifier": "every tree (well-formed or not), every injective renaming, all other arguments, both builds", "why_tests_cant": "all trees and all renamings", "anchors": ["src/compute/num_aggregate/mod.rs", "src/compute/substitute/mod.rs", "src/compute/derivative/mod.rs", "src/compute/taylor_expansion/partial_expansion.rs", "src/compute/limit/mod.rs"]}
{"id": "C58", "title": "limit always answers on sums and products", "statement": "For expressions built from numbers, variables, sums, products, sines and cosines (of anything), and quotients by nonzero numbers or by variables other than the limit variable, limit in a release build always returns a value that is 0 or an expression: never an error, a panic or Infinity. In a debug build it returns such a value or panics on integer overflow, never an error. (The value is the right one by C39.)", "quantifier": "every expression of that class, every well-formed target, every order, both builds", "why_tests_cant": "universal over expressions and targets", "anchors": ["src/compute/limit/mod.rs: limit", "src/compute/limit/rules", "src/compute/limit/limit_expression.rs"]}
{"id": "C59", "title": "The text of a limit answer identifies its kind", "statement": "Formatting an answer of limit gives infinity exactly for Infinity, ~ exactly for BoundedFluctuation, and 0 exactly for Infinitesimal or the number zero, unless the answer is a variable with one of these names: no number and no composed expression prints as one of these texts.", "quantifier": "every limit answer with a well-formed expression", "why_tests_cant": "universal over all expressions and numbers and their texts", "anchors": ["src/compute/limit/limit_expression.rs: Display", "src/ast/tree.rs: Display", "src/smart_num/mod.rs: Display"]}
{"id": "C60", "title": "Derivatives and Taylor coefficients depend only on the function", "statement": "If two expressions have the same value near a point (and the conditions of C29 resp. C32 hold for both), then their derivatives have the same value at the point and their Taylor coefficients have the same values, however differently the expressions are written. In particular simplifying an expression with num_aggregate first does not change the value of its derivative.", "quantifier": "every pair of well-formed expressions, variable, point, orders, lossless runs", "why_tests_cant": "universal over pairs of syntactically different expressions and over real points", "anchors": ["src/compute/derivative/mod.rs: derivative", "src/compute/derivative/rules", "src/compute/taylor_expansion/partial_expansion.rs: taylor_expansion", "src/compute/num_aggregate/mod.rs"]}
{"id": "C61", "title": "More attempts never change a limit", "statement": "If limit finds a value with some order_try, it finds the same value with every larger order_try; so any two calls that differ only in order_try and both find a value agree.", "quantifier": "every expression (well-formed or not), variable, target, orders, both builds", "why_tests_cant": "all expressions, all pairs of orders", "anchors": ["src/compute/limit/mod.rs: limit", "src/compute/limit/rules/div.rs"]}
{"id": "C62", "title": "Taylor expansions of different orders agree", "statement": "If taylor_expansion succeeds with some order it succeeds with every smaller one, and the coefficients for the smaller order are the first ones for the larger order; the residual of order n is the derivative behind coefficient n+1, and its derivative is the residual of order n+1.", "quantifier": "every expression, variable, point and pair of orders, both builds", "why_tests_cant": "all expressions and orders", "anchors": ["src/compute/taylor_expansion/partial_expansion.rs: taylor_expansion"]}
{"id": "C63", "title": "Mixed partial derivatives agree", "statement": "Under the conditions of C29 for both variables, differentiating by x and then by y gives an expression of the same value as differentiating by y and then by x.", "quantifier": "every well-formed expression, pair of variables, real point, lossless runs", "why_tests_cant": "Schwarz's theorem over all expressions and points; the two results are different trees", "anchors": ["src/compute/derivative/mod.rs: derivative", "src/compute/derivative/rules"]}
{"id": "C64", "title": "Derivatives by all variables form the gradient", "statement": "Under the conditions of C29, moving any number of variables at once changes the value of the expression by the sum of (value of the derivative by the variable) * (change of the variable), up to an error that is smaller than any given multiple of the change when the change is small enough, and the expression stays defined.", "quantifier": "every well-formed expression, finite set of variables, real point and displacement, lossless runs", "why_tests_cant": "an epsilon-delta statement in any number of dimensions over all expressions", "anchors": ["src/compute/derivative/mod.rs: derivative", "src/compute/derivative/rules"]}
{"id": "C65", "title": "Chain rule through substitute", "statement": "Under the conditions of C29, differentiating substitute(e, x, v) by y gives the value of de/dx times the value of dv/dy plus (for y different from x) the value of de/dy, both taken at x = value of v.", "quantifier": "all well-formed e and v, all variables, real points, lossless runs", "why_tests_cant": "relates three API functions over all pairs of expressions", "anchors": ["src/compute/derivative/mod.rs: derivative", "src/compute/derivative/rules", "src/compute/substitute/mod.rs: substitute"]}
{"id": "C66", "title": "On integer expressions a debug build is right whenever it returns", "statement": "For expressions with i64 literals only (no fractions, floats, pi, e) in which denominators, power bases and arguments of exp and ln do not simplify to numbers, whatever num_aggregate or (repeated) derivative return in a debug build was computed without wrap-around, truncation or rounding. Hence, without powers, the simplified expression has the same value, every repeated derivative has the value of the mathematical derivative wherever the expression is defined; and for polynomials with sin and cos every Taylor coefficient at such a point is the exact k-th derivative divided by k!, with the Lagrange form of the remainder at every real point.", "quantifier": "every such expression, variable, real assignment, number of derivatives, order; no assumption other than that the call returns", "why_tests_cant": "all expressions and real points; rules out every silent loss of precision", "anchors": ["src/compute/derivative/mod.rs: derivative", "src/compute/derivative/rules", "src/compute/num_aggregate/mod.rs: num_aggregate", "src/compute/taylor_expansion/partial_expansion.rs: taylor_expansion"]}
{"id": "C67", "title": "Release builds compute integer polynomials modulo 2^64", "statement": "For expressions made of i64 literals, variables, + - * and negation, release-build num_aggregate always returns and the result equals the original polynomial up to 2^64 times a polynomial with integer coefficients; so at every integer point the two values agree modulo 2^64, and without variables the result is exactly the mathematical value wrapped to an i64 (the exact value whenever that fits). The same holds of the first and of every repeated derivative, relative to the mathematical derivative.", "quantifier": "every such expression of any size, every variable, every real or integer assignment, every number of derivatives", "why_tests_cant": "all expressions, all assignments, all overflow patterns inside nested sums and products", "anchors": ["src/compute/derivative/mod.rs: derivative", "src/compute/derivative/rules", "src/compute/num_aggregate/mod.rs: num_aggregate", "src/smart_num/mod.rs: SmartNum arithmetic", "src/smart_num/rational.rs: Rational arithmetic"]}
{"id": "C68", "title": "Integers and fractions never turn into floats", "statement": "Numbers built from integers and fractions with + - * / and negation are stored as integers or fractions, never as floats (so to_rational on them is never None), and sums, differences, products and negations of integers are integers; a float result needs a float operand. num_aggregate, repeated derivatives and Taylor coefficients of an expression without exp whose literals are integers or fractions contain no float either; with exp this fails (exp(1)+1 is a float).", "quantifier": "every sequence of numeric operations, every expression, derivative count and order, in debug and release builds", "why_tests_cant": "all histories of operations and all expression shapes; a single rule that goes through f64 would lose precision silently", "anchors": ["src/smart_num/mod.rs: SmartNum arithmetic", "src/smart_num/rational.rs: Rational arithmetic", "src/compute/derivative/mod.rs: derivative", "src/compute/derivative/rules", "src/compute/num_aggregate/mod.rs: num_aggregate", "src/compute/taylor_expansion/partial_expansion.rs: taylor_expansion"]}
{"id": "C69", "title": "The O((x-a)^(n+1)) of a Taylor expansion is true, and determines the coefficients", "statement": "For a Taylor expansion of order n at a returned without numeric loss, the expression and the polynomial with the returned coefficients differ by at most C*|x-a|^(n+1) for all x close enough to a; and any other polynomial of degree n with that property has the same coefficients.", "quantifier": "every expression regular at a, every expansion point, order, and competing coefficient sequence; all real x near a", "why_tests_cant": "a statement about all real points near a and all other polynomials", "anchors": ["src/compute/taylor_expansion/partial_expansion.rs: taylor_expansion", "src/compute/derivative/mod.rs: derivative", "src/compute/derivative/rules", "src/compute/num_aggregate/mod.rs: num_aggregate"]}
{"id": "C70", "title": "Algebraic laws of numbers", "statement": "i64 numbers in release builds form the ring of integers modulo 2^64: both sides of every ring law return the same number; in debug builds both sides are equal whenever both return. For integers and fractions in debug builds, products, quotients by non-zero numbers and negations that return are exact, so the multiplicative field laws ((xy)z = x(yz), (x/y)y = x, (xy)/y = x, (x/y)/z = x/(yz), (x/y)(z/w) = (xz)/(yw)) hold by value. Sums of fractions do not: because of C06 there are debug runs where (x+y)+z and x+(y+z), or a(x+y) and ax+ay, both return with opposite signs; without loss they agree.", "quantifier": "all i64 triples; all integers and fractions the API can produce; debug and release builds", "why_tests_cant": "all triples of 64-bit numbers and fractions, including all overflow patterns", "anchors": ["src/smart_num/mod.rs: SmartNum arithmetic", "src/smart_num/val_holder.rs", "src/smart_num/rational.rs: RationalNum arithmetic"]}
{"id": "C71", "title": "Hand-built trees: only the last operands count", "statement": "Expression's fields are public. num_aggregate, derivative, substitute, taylor_expansion and limit on any hand-built tree have the same outcome (result, error or panic) as on the tidy tree in which every operator keeps only its last one or two children and has its usual symbol and priority. Release builds return iff every operator that counts has enough children; to_string returns iff every operator it visits has at least one child. Nothing else is tidied: simplifying an operand returns it with whatever children it carries, and substitution changes only the nodes that are the variable.", "quantifier": "all trees of any shape, any operator record, any variable, point, order; all builds", "why_tests_cant": "all tree shapes, including malformed ones of any depth and width", "anchors": ["src/ast/tree.rs: Expression", "src/compute/num_aggregate/mod.rs", "src/compute/derivative/mod.rs", "src/compute/substitute/mod.rs", "src/compute/limit/mod.rs", "src/compute/taylor_expansion/partial_expansion.rs: taylor_expansion"]}
{"id": "C72", "title": "The demo program prints true expansions", "statement": "Both builds of the program print the same three lines; the expansion printed for exp(x) at 0 and for ln(x) at 1 approximate the real functions exp and ln with error at most a constant times |x|^6 resp. |x-1|^6 for all real arguments close enough to the point.", "quantifier": "all real arguments near the expansion points; both builds", "why_tests_cant": "the printed O(x^6) is a claim about all real x near the point", "anchors": ["src/main.rs: main", "src/compute/taylor_expansion/partial_expansion.rs: taylor_expansion"]}
{"id": "C73", "title": "Taylor expansions compose algebraically", "statement": "When expansions of f, g and f+g (f*g, f/g, -f) at the same point and order all return without numeric loss, the coefficients of f+g are the sums, those of -f the negatives, those of f*g the Cauchy products of the coefficients, and the coefficients of f/g times those of g give those of f; the expansion of the derivative of f has the coefficients (k+1)*c(k+1).", "quantifier": "all expressions regular at the point, all points, orders and indices", "why_tests_cant": "all pairs of expressions and all orders; an error in one derivative rule shows only for some shapes", "anchors": ["src/compute/taylor_expansion/partial_expansion.rs: taylor_expansion", "src/compute/derivative/rules"]}
{"id": "C74", "title": "Away from 0, limit only plugs the point in (violated)", "statement": "limit should return the limit of the function. For expressions built with +, * and / and a point that is simplified and not literally 0, limit returns exactly the simplified expression with the point in place of the variable (or panics exactly when that simplification does); L'Hopital's rule is never used, whatever order_try is. So a numerator that plugs to 0 gives the answer 0 even over a denominator that plugs to 0. FALSE as a limit: (x*x-1)/(x-1) at 1 is answered 0 for every order, the function tends to 2. The answer has exactly the value the expression has at the point, and none where it has none (guards of C22): in particular the pole of 1/(x-c) at every integer c<>0 is answered with the number 1/0, never Infinity.", "quantifier": "all rational expressions, simplified non-zero points, orders, stack depths and builds", "why_tests_cant": "all expressions and all orders; the wrong answer is not an error", "anchors": ["src/compute/limit/mod.rs: limit", "src/compute/limit/rules/div.rs", "src/compute/limit/limit_expression.rs: Div"]}
{"id": "C75", "title": "x - y is x + (-y)", "statement": "When x - y, -y and x + (-y) all return, they are the same number, representation included, for all numbers the API can produce and both builds, except when y is the integer i64::MIN (in release builds -i64::MIN wraps to itself, and a float minus it differs in sign) or y is a fraction equal to -1, where the representation may differ.", "quantifier": "all pairs of API numbers (integer, fraction, f64), both builds", "why_tests_cant": "all pairs of 64-bit numbers, fractions and floats", "anchors": ["src/smart_num/mod.rs: Sub, Add, Neg for SmartNum", "src/smart_num/val_holder.rs", "src/smart_num/rational.rs"]}
{"id": "C76", "title": "Accuracy of closed floating-point arithmetic", "statement": "num_aggregate of an expression built with +, * and / from positive f64 literals and the constants pi and e, all of whose parts have exact values between 2^-1000 and 2^1000, returns in both builds a single finite number; with k roundings piled up (at most one per operation and constant) it lies between (1-2^-53)^k times and 1/(1-2^-53)^k times the exact real value, so its relative error is at most 2k*2^-53. For sums and differences of f64 literals of any sign the error is at most ((1+2^-53)^k - 1) times the sum of the absolute values of the literals. Without the bounds it is false (underflow), and differences have no relative accuracy (cancellation): both with witnesses.", "quantifier": "all such expressions with k up to 2^40, both builds", "why_tests_cant": "error accumulation over all expressions and all f64 values", "anchors": ["src/compute/num_aggregate", "src/smart_num/val_holder.rs", "src/smart_num/mod.rs"]}
{"id": "C77", "title": "Taylor expansion of a substitution", "statement": "Without numeric loss and under the conditions of C32: if v has the value b at the point a, the expansion of substitute(e, x, v) at a is the composition of the expansion of e at b with the expansion of v at a, cut off at the order (and no other coefficients are). In particular, if v is c*x + d, coefficient k at a is c^k times coefficient k of e at c*a + d; and the odd (even) coefficients at 0 of an even (odd) function are 0.", "quantifier": "all expressions, substituted expressions, points, orders and indices", "why_tests_cant": "all pairs of expressions, all orders", "anchors": ["src/compute/taylor_expansion/partial_expansion.rs: taylor_expansion", "src/compute/substitute/mod.rs", "src/compute/derivative/rules"]}
{"id": "C78", "title": "Simplifying parts first makes no difference", "statement": "Simplifying (num_aggregate) an expression v before substituting it for a variable does not change the simplified result: num_aggregate of substitute(e, x, v) and of substitute(e, x, num_aggregate(v)) are equal, including panics, for v without subtraction; if simplifying v panics and x occurs in e, simplifying substitute(e, x, v) panics too. Likewise, simplifying the expansion point first changes neither the coefficients, the remainder and the order of a Taylor expansion nor its printed form. For v with a subtraction the first claim is false (0 - (-y) is simplified to -(-y) once and to y the second time).", "quantifier": "all expressions e and v, variables, points, orders, both builds", "why_tests_cant": "all contexts e and all parts v", "anchors": ["src/compute/num_aggregate", "src/compute/substitute/mod.rs", "src/compute/taylor_expansion/partial_expansion.rs: taylor_expansion"]}
{"id": "C79", "title": "The standard series", "statement": "Expanded at a literal 0 to any order, the coefficients of exp(x), sin(x) and cos(x) with index k <= 20 are the exact fractions 1/k! resp. 0, 1, 0, -1, ... over k!, in both builds whenever the call returns, and it returns for orders up to 20. In a release build k! is wrapped to 64 bits for larger k, so from order 21 on coefficient 21 of exp has the wrong sign, and all coefficients from index 66 on are divided by 0 (k! is divisible by 2^64).", "quantifier": "all orders, indices, literal zeros of any kind as the point, both builds", "why_tests_cant": "all orders", "anchors": ["src/compute/taylor_expansion/partial_expansion.rs: taylor_expansion", "src/compute/derivative/rules", "src/smart_num/mod.rs"]}
{"id": "C80", "title": "L'Hopital's rule is complete on positive polynomials", "statement": "For expressions p and q built with + and * from the variable and positive integer literals, with lowest terms c*x^i and d*x^j at 0: whenever limit(p/q, x, 0, order_try) returns in a debug build, the answer is an error if order_try < min(i, j); otherwise it is Infinitesimal if i > j, Infinity if i < j, and the exact number c/d if i = j. Every answer describes the function. A literal 0 as a summand breaks this: (0+x)/(0+x) is answered 0 for every order_try.", "quantifier": "all such p and q, all order_try, all literal zeros", "why_tests_cant": "all pairs of polynomials of any degree", "anchors": ["src/compute/limit/rules", "src/compute/limit", "src/compute/derivative/rules", "src/ast/tree.rs"]}
{"id": "C81", "title": "When a debug build panics on integer arithmetic", "statement": "num_aggregate of a closed expression of i64 literals under +, -, * and negation returns in a debug build exactly when the exact value of every subexpression lies between -2^63 and 2^63-1 (an overflowing part is never skipped, even when it is multiplied by 0 or cancelled). With variables, sin and cos it returns, with the right value, if every subexpression whose value is a constant integer lies in that range.", "quantifier": "all such expressions, all values of the variables", "why_tests_cant": "all expressions of any size", "anchors": ["src/compute/num_aggregate", "src/smart_num/mod.rs", "src/smart_num/val_holder.rs"]}
{"id": "C82", "title": "Explicit bounds under which a debug build never panics", "statement": "Let w be the sum of the absolute values of the coefficients of an integer polynomial (in any variables) after multiplying out, a literal 0 counting as 1, and f the largest number of factors in a product. In a debug build simplification returns if w < 2^63; the k-th derivative returns, and is the k-th derivative, if w*f^k < 2^63; the Taylor expansion of order n <= 20 at an integer polynomial (or an integer) of size a returns, with the right coefficients, if w*f^(n+1)*a^f < 2^63.", "quantifier": "all integer polynomials in any number of variables, points, k and n", "why_tests_cant": "all polynomials, any degree", "anchors": ["src/compute/num_aggregate", "src/compute/derivative/rules", "src/compute/substitute/mod.rs", "src/compute/taylor_expansion/partial_expansion.rs: taylor_expansion"]}
{"id": "C83", "title": "Explicit bounds under which fraction arithmetic is exact", "statement": "Closed arithmetic (+, -, *, /, negation) on integer and fraction literals, defined (no division by 0): let the height of a literal be the larger of its numerator and denominator, and bound the height of a product or quotient by the product of the heights and of a sum or difference by twice it. If that bound stays below 2^63, num_aggregate returns in both builds one number, whose exact value is the value of the expression and whose height is within the bound. Above it the result can be wrong in both builds without a panic: two fractions above 1 with terms below 2^32 have a negative sum.", "quantifier": "all closed expressions over exact literals, both builds", "why_tests_cant": "all expressions of any size", "anchors": ["src/compute/num_aggregate", "src/smart_num/rational.rs", "src/smart_num/val_holder.rs", "src/smart_num/mod.rs"]}
{"id": "C84", "title": "Fractions are exact while every constant part is small", "statement": "Expressions over integers and fractions (terms below 2^31) with +, -, *, /, negation, sin, cos, ln and variables. If every part of the expression whose value is a constant fraction can be written with terms below 2^31, num_aggregate returns the same expression in both builds, again with literals below 2^31, equal to the given one wherever that is defined. The same holds of derivative if the constant parts of the textbook (unsimplified) derivative are small - the result is the true derivative - and of taylor_expansion if those of the textbook derivatives and coefficients are: the coefficients are the true ones. Small literals alone do not suffice (a debug build panics on s*s for a sum s of two such fractions).", "quantifier": "all such expressions, variables, expansion points, orders, both builds", "why_tests_cant": "all expressions of any size, all points; the hypothesis is about the mathematics, not about the order in which the code simplifies", "anchors": ["src/compute/num_aggregate", "src/compute/derivative", "src/compute/taylor_expansion/partial_expansion.rs", "src/smart_num/rational.rs", "src/smart_num/mod.rs"]}
{"id": "C85", "title": "Limits of quotients with sines and cosines at 0", "statement": "Let p and q be built with + and * from the variable x, positive integers, sines and cosines of such expressions that are 0 at x = 0, and let p behave like c*x^i and q like d*x^j near 0 (c, d > 0; every such expression has such a term). If i or j is 0, or no cosine occurs and i or j is 1, then limit of p/q at 0, when a debug build returns, is an error (NoValidLimitFound) if order_try < min(i,j), otherwise 0 (Infinitesimal) if i > j, Infinity if i < j, and the number c/d if i = j; and that is the limit. Beyond one derivative this fails: sin(x)*sin(x)/(x*x) is an error for order_try 0 and 1 and panics from 2 on, in both builds.", "quantifier": "all such expressions, all spellings of the number 0, all order_try >= 0", "why_tests_cant": "all expressions of any size and depth", "anchors": ["src/compute/limit/rules/div.rs", "src/compute/limit/rules/sin.rs", "src/compute/limit/rules/cos.rs", "src/compute/limit/rules/mul.rs", "src/compute/limit/rules/add.rs", "src/compute/derivative/rules"]}
{"id": "C86", "title": "Release builds compute fractions modulo 2^64", "statement": "In a release build, for integers and fractions (at least one fraction, neither zero; for * neither one): x+y and x-y return the lowest-terms form of S/D, where S is the i64 congruent modulo 2^64 to the exact numerator n1*d2 +- n2*d1 and D the u64 congruent to d1*d2; x*y and x/y return the lowest-terms form of +-N/D with N and D the u64 congruent to the exact products (a 0 denominator gives n/0, or 0/0); -x changes only the sign.", "quantifier": "all pairs of exact API-reachable numbers, zero-denominator results included", "why_tests_cant": "all pairs of 64-bit fractions, overflowing or not", "anchors": ["src/smart_num/rational.rs", "src/smart_num/val_holder.rs", "src/smart_num/mod.rs"]}
{"id": "C87", "title": "Exactly when a debug build panics on exact numbers", "statement": "In a debug build +, -, *, / and negation of integers and fractions (undefined fractions n/0 included) either return or panic, and they panic exactly in these cases: both integers (+,-,*): the result is outside i64; otherwise (and always for /): an operand is i64::MIN, or one of the 64-bit products of the terms reaches 2^64, or for + and - a cross product is exactly 2^63 with a negative sign or the sum of the cross products (after the cast to i64) reaches 2^63 in size. The shortcuts of 0 and 1 never panic, except 0 - i64::MIN; negation panics for i64::MIN only.", "quantifier": "all pairs of exact API-reachable numbers, any representation", "why_tests_cant": "all pairs of 64-bit numbers", "anchors": ["src/smart_num/rational.rs", "src/smart_num/val_holder.rs", "src/smart_num/mod.rs"]}
{"id": "C88", "title": "Accuracy of arithmetic mixing integers, fractions and floats", "statement": "Take closed arithmetic (+, -, *, / and negation) on integers, fractions, finite f64 literals and the constants pi and e in which at least one float takes part, sums are of numbers of equal sign and differences of numbers of opposite sign (no cancellation), exact parts have a height bound below 2^63, and every part is between 2^-1000 and 2^1000 in size. Evaluating it (numeric_evaluation) gives one finite f64 of the right sign, equal to the exact value times a factor between (1-2^-53)^k and 1/(1-2^-53)^k, where k counts one rounding per stored constant, three per exact part and one per operation; so the relative error is at most 2k*2^-53.", "quantifier": "all such expressions of any depth with k up to 2^40, debug and release builds", "why_tests_cant": "unboundedly many expressions and all f64 and 64-bit literals", "anchors": ["src/smart_num/mod.rs", "src/smart_num/val_holder.rs", "src/compute/num_aggregate/mod.rs"]}
{"id": "C89", "title": "Where the plugged-in expression makes sense, limit returns it", "statement": "For expressions built from numbers and variables with +, *, quotients whose denominator does not simplify to a literal 0 at the point, cosines of any subtraction-free expression and sines of such expressions (at a literal 0 only sines whose argument simplifies to 0 there), and any simplified subtraction-free point, including 0: limit returns exactly when simplifying the expression with the point in place of the variable returns, and the answer is that simplified expression (Infinitesimal or a literal 0 if it is 0), whatever order_try is; it panics exactly when that simplification panics. Both conditions on sines and subtractions are needed.", "quantifier": "all such expressions, points, orders, debug and release builds", "why_tests_cant": "unboundedly many expressions and points", "anchors": ["src/compute/limit/mod.rs: limit", "src/compute/limit/rules", "src/compute/limit/limit_expression.rs", "src/compute/num_aggregate/mod.rs"]}
{"id": "C90", "title": "Taylor expansions of quotients and logarithms of integer expressions are right in a debug build", "statement": "For an expression that is an integer expression (i64 literals and variables under +, -, *, negation, sin, cos), a quotient of two of them or the logarithm of one, and any integer-expression expansion point where the expression is defined: whenever a debug build's taylor_expansion returns, coefficient k is exactly f^(k)(a)/k!, and the remainder formula of Lagrange holds for the residual wherever the expression is defined between the point and the argument. In particular the coefficients of 1/(1-x) at 0 are 1, 1, 1, ... and those of ln(1+x) are 0, 1, -1/2, 1/3, ..., to whatever order a debug build returns.", "quantifier": "all such expressions, variables, points, orders and valuations", "why_tests_cant": "unboundedly many expressions and orders; the value is a real number", "anchors": ["src/compute/taylor_expansion/partial_expansion.rs", "src/compute/derivative/mod.rs", "src/compute/num_aggregate/mod.rs"]}
{"id": "C91", "title": "With exponentials, a debug build is right as long as no exponent is 1", "statement": "For expressions built from i64 literals and variables with +, -, *, negation, sin, cos and exp, quotients of two of them and logarithms of one, and any expansion point of the first kind: if at some valuation no exponent has the value 1 at the point, then whatever a debug build returns is right at every valuation: simplification keeps the value, the derivative is the derivative, Taylor coefficient k is f^(k)(a)/k!, and Lagrange's remainder formula holds. The condition is needed: exp(1) becomes the stored constant e, and the very first coefficient of exp(x) at 1 is already a rounded float different from e.", "quantifier": "all such expressions, variables, points, orders and valuations", "why_tests_cant": "unboundedly many expressions and orders; the value is a real number", "anchors": ["src/compute/taylor_expansion/partial_expansion.rs", "src/compute/derivative/mod.rs", "src/compute/num_aggregate/rules/exp.rs", "src/compute/num_aggregate/rules/ln.rs"]}
{"id": "C92", "title": "Polynomials with positive float coefficients: accurate simplification, derivatives and Taylor coefficients", "statement": "For expressions built with + and * from positive f64 literals (between 2^-B and 2^B), non-negative integers (up to 2^B), pi, e and variables, in a debug build and whenever it returns: at every valuation with non-negative variables the simplified expression has the exact value up to c roundings to nearest, the n-th derivative is the true n-th derivative up to n(c+nh) roundings, and the j-th Taylor coefficient at such a number a is f^(j)(a)/j! up to (j+1)(c+jh)+3 roundings, where c (roundings of one simplification) and h (growth per differentiation) are read off the expression, provided no product can leave the f64 range (B d + l + n h <= 900). k roundings mean a relative error of at most 2k/2^53.", "quantifier": "all such expressions, variables, points, orders, and valuations >= 0", "why_tests_cant": "unboundedly many expressions, orders and floats; the exact value is a real number", "anchors": ["src/compute/taylor_expansion/partial_expansion.rs", "src/compute/derivative/mod.rs", "src/compute/num_aggregate/mod.rs", "src/smart_num/mod.rs"]}
{"id": "C93", "title": "Polynomials with float coefficients of any sign: absolute accuracy of simplification, derivatives and Taylor coefficients", "statement": "For expressions built with +, -, * and negation from f64 literals (zero, or of size between 2^-B and 2^B, either sign), integers (of size up to 2^B), pi, e and variables, in a debug build and whenever it returns: at every valuation the simplified expression differs from the exact value by at most the effect of c roundings relative to the size of the expression without cancellation (numbers and variables replaced by absolute values, differences by sums); the n-th derivative differs from the true one by at most n(c+nh) roundings relative to the n-th derivative of that size, and the j-th Taylor coefficient at such a number a from f^(j)(a)/j! by at most (j+1)(c+jh)+3 roundings relative to the same coefficient of the size at |a|; c and h are read off the expression, and no product may leave the f64 range. k roundings relative to M mean an absolute error of at most 2kM/2^53.", "quantifier": "all such expressions, points of either sign, orders and valuations", "why_tests_cant": "unboundedly many expressions, orders and floats; the exact value is a real number", "anchors": ["src/compute/taylor_expansion/partial_expansion.rs", "src/compute/derivative/mod.rs", "src/compute/num_aggregate/mod.rs", "src/smart_num/mod.rs"]}
{"id": "C94", "title": "Every call form agrees, and internal errors never surface", "statement": "num_aggregate, substitute, derivative, taylor_expansion and limit return what a statement-by-statement transcription of their bodies returns (children popped one at a time, every ?, ok_or and map_err kept), for every tree, well-formed or not, and every build. With a variable, derivative and substitute never return Err, taylor_expansion never fails with 'substitute failure' or 'derivative failure', and the arm of limit marked unreachable is unreachable. The forms taking &Variable, &Expression and Expression agree; with an expression that is not a variable, substitute, derivative and taylor_expansion return Err naming it. num_aggregate, substitute and derivative never recurse deeper than the number of nodes. A number made from u8, i8, u16, i16, u32, i32 or i64 has exactly that value; from u64 it does iff it is below 2^63 (otherwise v - 2^64). sin, cos and pow build the same tree for every argument type convertible to an expression; conversions back to numbers, negation and is_close give the same by value and by reference.", "quantifier": "all expressions (any shape), variables, points, orders, builds, all integers of each type", "why_tests_cant": "every tree and every call form; the error arms cannot be reached by any test", "anchors": ["src/compute/substitute/mod.rs", "src/compute/derivative/mod.rs", "src/compute/taylor_expansion/partial_expansion.rs", "src/compute/limit/mod.rs", "src/compute/num_aggregate/mod.rs", "src/smart_num/val_holder.rs", "src/ast/tree.rs", "src/ast/op/operand.rs", "src/math_op/sin.rs", "src/math_op/pow.rs"]}
{"id": "C95", "title": "Floats and NaN are contagious", "statement": "Simplifying a variable-free arithmetic expression (negation, + - * /) to a number gives a number stored as f64 exactly when some f64 literal (or pi or e) occurs in it that no exact-zero factor or dividend on the way up wipes out; integers and fractions alone never turn into floats. A NaN literal not wiped out makes the result NaN, in every build, and is_close to anything, with any tolerance, then answers false. That a NaN always survives is false: exact zeros wipe it out (0*NaN = 0).", "quantifier": "all closed arithmetic expressions over all numbers (well-formed), every build", "why_tests_cant": "every nesting and every position of the literal", "anchors": ["src/smart_num/val_holder.rs", "src/smart_num/mod.rs", "src/compute/num_aggregate/mod.rs"]}
{"id": "C96", "title": "Whole client programs", "statement": "Take any program that is a sequence of API calls in any order: creating variables, numbers, fractions, constants; building expressions; simplifying, substituting, differentiating, Taylor-expanding (values and text), taking limits, printing, comparing; each result kept. (1) Without limits it never panics in a release build; in a debug build it panics only where an operation loses information. (2) If it gets through in a debug build, a release build gives exactly the same results and texts, limits included. (3) It always terminates, limits included. (4) Later calls never change earlier results; everything obtained is well-formed and printable. (5) Without powers and the constant pi, and when nothing is lost to rounding or overflow, every result has the mathematical meaning of the calls that produced it (derivative, composition, f^(k)(a)/k!, ... of whatever the registers stood for), at every point where that meaning exists; integer programs (variables, integers, + - * negation, sin, cos, simplify, substitute, derive) are right whenever a debug build returns. With powers (5) is false (1^x simplifies to x). (6) Names mean nothing: giving the variables of the program other names (different ones staying different) makes it end in the same way (return, panic, ...), with the same results up to that renaming and as many texts.", "quantifier": "all call sequences, arguments and builds", "why_tests_cant": "all histories of calls: unbounded program length and unbounded expressions", "anchors": ["src/ast/tree.rs", "src/compute/num_aggregate/mod.rs", "src/compute/substitute/mod.rs", "src/compute/derivative/mod.rs", "src/compute/taylor_expansion/partial_expansion.rs", "src/compute/limit/mod.rs", "src/smart_num/mod.rs"]}
{"id": "C97", "title": "Call stack needed", "statement": "All operations are recursive, so a deep expression can overflow the call stack. Counting nested calls, with d the nesting depth of the expression: (1) num_aggregate, substitute, clone and printing need exactly d; with less they overflow (in a debug build an arithmetic panic may come first). (2) derivative never needs more than 4d and always more than d; whatever the stack, if it returns, it returns the same answer as with an unlimited stack. (3) taylor_expansion of order n never needs more than (n+2)^2 d plus the depth of the point. (4) Substitution gives a tree no deeper than the two put end to end, and the k-th derivative is at most (k+1)^2 d deep; the growth with k really is quadratic (all derivatives of exp(x*x), in closed form). (5) limit always gets by with some finite stack. (6) A small stack never changes an outcome: num_aggregate, substitute, derivative, taylor_expansion and limit either overflow it or give exactly what they give without a limit, errors and panics included. For limit on the class of C58 one nested call more than the depths of the expression and of the point together is enough.", "quantifier": "all expressions, depths, orders, points, stack sizes, both builds", "why_tests_cant": "all depths and all repetition counts; the amount of stack is not observable in a unit test that passes", "anchors": ["src/compute/num_aggregate/mod.rs", "src/compute/derivative/mod.rs", "src/compute/substitute/mod.rs", "src/compute/taylor_expansion/partial_expansion.rs", "src/ast/tree.rs"]}
{"id": "C98", "title": "Number of calls", "statement": "Count every call of num_aggregate, substitute and derivative. On an expression with n nodes: num_aggregate makes at most n calls, exactly n if it returns; substitute makes exactly n; derivative, with the simplifications it does on the way, at most 2n^3, and at least n plus the number of nodes of the result; the cubic order is reached (x*(x*(...)) with n multiplications takes at least n^3/3). taylor_expansion of order k makes at most (k+1)(2M^3 + 2Mp + M + 2) if none of the derivatives it computes has more than M nodes and the point has p, and at least as many as the residual has nodes; so exp(x)*exp(x) takes at least 2^(k+1) calls in a release build. No exponential bound in the order holds for a fixed expression: in a release build the expansion of exp(exp(x)) of order 2k+1 takes at least (k+1)! calls, around every point. limit of an expression of the class of C58 with n nodes, at a point with p nodes, makes at most 4 n^2 p calls of limit, num_aggregate, substitute and derivative in all. Forgetting the counter gives, for every expression and every stack, exactly the run of C97.", "quantifier": "all well-formed expressions, variables, points, orders, builds", "why_tests_cant": "bounds for all sizes and orders; a test measures single runs", "anchors": ["src/compute/num_aggregate/mod.rs", "src/compute/derivative/mod.rs", "src/compute/substitute/mod.rs", "src/compute/taylor_expansion/partial_expansion.rs"]}
{"id": "C99", "title": "Debug texts identify the value", "statement": "Two numbers, expressions (hand-built trees included), limit answers, derivative results or Taylor results (Ok or Err) whose {:?} texts are equal are equal, and likewise for the many-line {:#?} texts: unlike to_string (C43), {:?} never confuses two values. Variable names are ASCII, and the text of an f64 is assumed to read back and to contain no ')' (and no ',' for {:#?}).", "quantifier": "all numbers, expressions of any shape, limit answers, expansions and errors, and every injective parenthesis-free text of floats", "why_tests_cant": "injectivity over all pairs of trees", "anchors": ["src/ast/tree.rs: Expression", "src/ast/op/operand.rs", "src/ast/op/operator.rs", "src/smart_num/mod.rs", "src/smart_num/rational.rs", "src/smart_num/val_holder.rs", "src/compute/limit/limit_expression.rs", "src/compute/taylor_expansion/partial_expansion.rs"]}
{"id": "C100", "title": "With integer powers, a debug build is right as long as no power base is 0 or 1", "statement": "For expressions built from i64 literals and variables with +, -, *, negation, sin, cos, exp and powers with an i64 literal exponent (of any sign), quotients of two of them and logarithms of one: if at some valuation no power base has the value 0 or 1 and no exponent of exp the value 1 (for Taylor expansions: at the expansion point, which is an expression without powers), then whatever a debug build returns is right: simplification keeps the value wherever there is one, and at every valuation where no power base is 0 or 1 the derivative is the derivative, as is the n-th one (negative bases included), Taylor coefficient k is f^(k)(a)/k!, and Lagrange's remainder formula holds on intervals of such points. In particular the coefficients of x^m around an integer a other than 0 and 1 are the binomial ones C(m,k) a^(m-k). The condition is needed: x^2 at 1 has constant coefficient 2 (C35).", "quantifier": "all expressions of the class, all valuations, all orders", "why_tests_cant": "unboundedly many expressions, real-valued meaning, and exactness of every machine operation on the way", "anchors": ["src/compute/derivative/rules/pow.rs: pow_derivative_rule", "src/compute/num_aggregate/rules/pow.rs", "src/compute/taylor_expansion/partial_expansion.rs: taylor_expansion"]}
{"id": "C101", "title": "Limits of integer expressions and their quotients, in debug builds", "statement": "For expressions built from i64 literals and variables with +, -, *, negation, sin and cos, quotients of two of them and logarithms of one, and a point of the first kind: limit in a debug build never loses anything on its way to an answer (or refusal), so (1) where the expression has a value at the point, the answer is that value and it is the limit there (at a literal 0, provided the arguments of the sines asked for vanish: C40), and (2) at singular points, L'Hopital's rule included, the answer describes the quotient near the point (limit 0, infinite, or the value), provided the denominators met do not vanish near the point, no hidden zero is divided by and the arguments of sines vanish at 0. (3) An integer expression itself never gets an infinite answer.", "quantifier": "all expressions of the class, variables, points, orders and recursion budgets", "why_tests_cant": "unboundedly many expressions and points; the meaning is a limit of real functions", "anchors": ["src/compute/limit/mod.rs: limit", "src/compute/limit/rules/div.rs: div_limit_expr_rule", "src/compute/limit/limit_expression.rs"]}
{"id": "C102", "title": "Printed texts, read by the usual rules (violated)", "statement": "A printed expression, read by the usual rules of arithmetic (+ and - to the left, * and / tighter and to the left, ^ tightest and to the right, a leading minus looser than ^, p/q the quotient of p and q), should have the value of the expression. FALSE: -(x+y) prints -x + y, x-(y-x) prints x - y - x, x/(y/x) prints x / y / x, (x/y)^x prints x / y ^ x, (x^y)^x prints x ^ y ^ x, y^(x/y) prints y ^ x / y, the literal -2 to the power x prints -2 ^ x, for the fraction literals 1/2 and 3/2, x/(1/2) prints x / 1/2, x^(1/2) prints x ^ 1/2, (3/2)^x prints 3/2 ^ x and ln(1/2) prints ln1/2, and the sine of -2 prints sin-2, which does not read at all. What holds: these are the only ways to go wrong - an expression with plain names and number literals (no NaN or infinities) in which no negative literal is a base or the argument of a function, no fraction literal is a base, an exponent, a divisor or the argument of a function, no sum or difference is negated or to the right of -, no quotient is to the right of /, no quotient or power is a base and no quotient an exponent prints a text that reads as an expression with its value; so does a Taylor expansion whose coefficients are of this kind (before its order term); and a text has at most one reading.", "quantifier": "every expression of the class, of any depth, and every assignment of the variables; every expansion and order", "why_tests_cant": "unboundedly many expressions; every reading of every text", "anchors": ["src/ast/tree.rs: to_string_raw", "src/math_op/neg.rs", "src/math_op/add.rs", "src/math_op/sub.rs", "src/math_op/mul.rs", "src/math_op/div.rs", "src/math_op/pow.rs", "src/smart_num/rational.rs: Display", "src/compute/taylor_expansion/partial_expansion.rs: Display for PartialExpansion"]}
{"id": "C103", "title": "Taylor coefficients have a value exactly where the derivative has one (violated without a guard)", "statement": "An expansion around a point where the function has no value must not show a value. FALSE in general: in a release build the expansion of exp(ln x), of every order and around every integer k <= 0, has the constant coefficient k. Guarded version that holds: where the wrong power/cosine rules do not fire and every operand dropped by a simplification rule has a value, coefficient k of the expansion has a value exactly when the k-th derivative has one at the point, and it is that value divided by k!. In particular the constant coefficient has the value of the function at the point, and none where the function has none.", "quantifier": "every expression, point (any expression with a value), order, coefficient index and assignment of the other variables", "why_tests_cant": "Ranges over all expressions and over points outside the domain, where floating-point tests see only NaN.", "anchors": ["src/compute/taylor_expansion/partial_expansion.rs: taylor_expansion", "src/compute/num_aggregate/rules/exp.rs"]}
{"id": "C104", "title": "A derivative has a value only where the function has one (violated without guards)", "statement": "A derivative should have no value at a point where the function has none. FALSE in general, in every build: the derivative of ln x is 1/x, with the value 1/a at every a < 0, near which ln x has no value; the derivative of an expression without x is the literal 0 wherever the expression has no value. Guarded version that holds: if every number literal of the expression has a value, no logarithm in it is of a negative number at the point, and simplifying the textbook formulas on the way drops no operand without a value, then a value of the derivative implies a value of the function; together with C29 (regular expressions) the two have values at exactly the same points. In a debug build, the derivative of u/v, with u and v built from integer literals and variables by + - * negation, sin and cos and v not simplifying to a number, is the literal 0 or has a value exactly where v is not 0.", "quantifier": "every expression, variable and point, including points outside the domain", "why_tests_cant": "Ranges over all expressions and real points outside the domain.", "anchors": ["src/compute/derivative/mod.rs: derivative", "src/compute/derivative/rules/ln.rs", "src/compute/derivative/rules/div.rs"]}
