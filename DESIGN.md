# Formal model of LinHeLurking/symbolic-rust in Rocq (Coq 8.16.1)

## 1. What is modelled

| model file (rocq/theories) | /repo source |
|---|---|
| `Base.v` | Rust outcomes (return / panic), debug/release overflow, `as` casts, `Vec::pop().unwrap()` |
| `Float.v` | `f64` = IEEE binary64 via stdlib `SpecFloat`; `f64::consts`, `signum`, `as` casts |
| `Rational.v` | `src/smart_num/rational.rs` (whole file) |
| `SmartNum.v` | `src/smart_num/{special_const,val_holder,mod}.rs` (whole files) |
| `Ast.v` | `src/ast/**`, `src/math_op/**` |
| `Compute.v` | `src/compute/{num_aggregate,substitute,derivative,taylor_expansion}` |
| `Limit.v` | `src/compute/limit/**` |
| `Display.v` | every `Display`/`to_string` implementation |
| `Debug.v`, `Debug2.v` | every `#[derive(Debug)]`, `{:?}` and `{:#?}` (the text of an `f64` is a parameter) |
| `Direct.v` | `src/compute/**` a second time, statement by statement, with every call form |
| `Depth.v`, `Work.v`, `WorkLim.v` | `src/compute/**` on one call stack of given depth; with a call counter |
| `Main.v` | `src/main.rs`; error values of `to_smart_num` and `near` |
| `Sanity.v` | the repository's own unit tests replayed on the model (tests, not proofs) |

Every Rust function above has one Gallina function with a comment citing file and lines.

Modelling decisions
* **Panics** are the outcome `Panic`; `unwrap` on `None`, `todo!()`, debug overflow and
  `panic!` all map to it.  Stack overflow is modelled only in `Depth.v` (C97: nested calls, not bytes), memory not at all.
* **Builds.** `mode` is `Debug`, `Release` or `Strict`.  `Debug`/`Release` are the two real
  builds (overflow panics / wraps; casts wrap in both).  `Strict` is *not* a build: it is an
  observer that runs the same code and reports `Trap` if machine arithmetic loses information
  (overflow, value-changing cast, inexact float operation, use of the f64 approximation of a
  tagged pi/e).  "no lossy arithmetic happens" is then the hypothesis `f Strict x = Ok y`, and
  the agreement theorems (C12) say both real builds return that same `y`.
* **Integers** are `Z` with explicit range checks/wrap-around; **floats** are stdlib
  `spec_float` (one NaN: payload and sign of NaN not modelled).  Strings are byte strings.
* **Expressions** are rose trees (`root`, list of children), exactly the Rust struct, so
  malformed trees exist in the model too; `wf` picks the arity-correct ones and C18 proves that
  the API only builds those.
* `limit` is not structurally recursive; it runs on fuel (= recursion depth) and a theorem
  about its results quantifies over every fuel with which it returns.
* `Err` payloads are kept where observable (the error texts of derivative, taylor_expansion,
  substitute and limit are modelled in `Display.v`); the errors of `to_smart_num` and `near` with
  their `source` are in `Main.v`, and the rest of the model uses a version that drops them
  (c50_to_smart_num_same: the same function).
* By-reference/by-value/by-variable duplicates of a trait impl and all `Err` arms are written out
  in `Direct.v`, a second, statement-by-statement model, and proved equal to the working model
  (C94).
* Not modelled: private functions nothing calls.
  `main.rs` is modelled as the list of lines it prints (`Main.v`, C72).

## 2. Specification

The specification files do not mention the algorithms of the code (only its data types):
* `Spec.v`: `ratQ`, `val_Q`, `exact_Q`: the rational number denoted by a fraction / number;
  `api_number`, `api_expr`: what the public API can build; `wf`, `num_ok`; `subterm`, `occurs`,
  `size`, `has_op`.
* `SpecR.v`: `num_R`: the real number denoted by a number (tagged pi is `PI`, tagged e is
  `exp 1`); `eval rho e : option R`: the real value of an expression under an assignment
  (`None` where undefined: zero denominator, ln of a non-positive number, meaningless power,
  non-finite float literal); `regular`, `taylor_regular`: the guards of C29, C32, C33.
* `SpecTree.v`: normal forms, iterated derivative/aggregation, occurrence counts, shapes on
  which `limit` is stuck.
* `SpecLim.v`: `describes F rho f l`: what a limit answer says about a function along a filter
  (Coquelicot); `asks`: the expressions whose limit is needed for a limit.
* `SpecF.v`: `rounds_to r f`: f is an f64 nearest to the real r, ties to even, with IEEE
  overflow; stated by quantifying over all f64, not with a rounding function.
* `SpecDisp.v`: decimal numerals, what a printed number denotes, balanced parentheses, the
  readable expressions.
* `SpecPoly.v`: polynomials in x of degree at most d (C55). `SpecShape.v`: nesting depth,
  renaming (C56, C57). `SpecLim2.v`: the class `entire` (C58).
* `SpecMulti.v`: sums over variables, agreement near a point (C60, C64).
* `SpecInt.v`: integer expressions, polynomials with sin/cos, "does not simplify to a number" (C66).
* `SpecMod.v`: integer polynomials as expressions and as functions (C67). `SpecExact.v`: numbers that are not floats, expressions without float literals (C68). `SpecBigO.v`: "equal up to O((x-a)^n)" (C69).
* `SpecRaw.v`: hand-built trees, pruning, enough children, printable (C71). `SpecTayAlg.v`: value of a coefficient, Cauchy product (C73).
* `SpecPlug.v`: expressions built with +, *, / (C74). `SpecF2.v`: IEEE tables for NaN, infinities, division by 0 (C13).
* `SpecAcc.v`: closed float expressions and their count of roundings (C76).
* `SpecStd.v`: numerators of the standard series (C79).
* `SpecLH.v`: positive polynomials and the lowest term of a function at 0 (C80).
* `SpecPanic.v`: weight and number of factors of integer polynomials (C82).
* `SpecHeight.v`: closed arithmetic on exact literals, height (C83).
* `SpecFrac.v`: expressions over fractions, constant parts, the textbook derivative (C84).
* `SpecLHSin.v`: positive expressions with sines and cosines (C85).
* `SpecWrap.v`: congruence modulo 2^64, lowest terms (C86).
* `SpecOver.v`: the overflow conditions (C87).
* `SpecMixed.v`: mixed closed arithmetic with its rounding count (C88).
* `SpecPlug2.v`: expressions whose limit is found by plugging in, and what it means that an answer is an expression (C89).
* `SpecQuot.v`: quotients and logarithms of integer expressions, 1/(1-x), ln(1+x) and their coefficients (C90).
* `SpecExp.v`: integer expressions with exponentials, and "no exponent is 1" (C91).
* `SpecFPoly.v`: polynomials with positive float coefficients and their rounding counts (C92).
* `SpecSPoly.v`: polynomials with float coefficients of any sign, the size without cancellation (C93).
* `SpecDirect.v`: the ranges of the integer types (C94).
* `SpecNaN.v`: when a literal is exposed (C95).
* `SpecSession.v`: client programs, how they run, and their mathematical meaning (C96).
* `SpecDebug.v` — what is assumed of the text of a float (`float_text`)
* `SpecPasses.v` — number of nodes with a given operator (`count_op`)
* `SpecPow2.v`: integer expressions with exponentials and integer powers, admissible bases and exponents (C100).
* `SpecSession2.v`: renaming a client program, agreeing outcomes (C96).
* `SpecLimInt.v`: when a quotient of integer expressions is regular at a point (C101).
* `SpecDisp2.v`: expressions readable up to regrouping of sums and products (C43).
* `SpecRead.v`: tokens, their spelling and the usual grammar of arithmetic, expressions in the usual form (C102).
* `SpecUndef`: `becomes`, `becomes_0`, `becomes_number`, and `keeps_domain`: the operands that rules of num_aggregate drop have values; `total`: no division, logarithm or power (C22); `formula`: the textbook derivative formulas before simplification, and `derivation_keeps_domain` (C104).

Property theorems live in `Props*.v` (name `cNN_...` for property CNN) with `Print Assumptions`
below and an `Example` that a concrete case meets the hypotheses. Everything else
(`*Proofs*.v`, `Real*.v`, `Float*.v`, `Lim*.v`, `Disp*.v` except Display.v) is proof.

## 3. Plan per property

| id | model & proof |
|---|---|
| C01, C02 | Euclid loop = `Z.gcd` by induction; `ratQ` preserved; equality iff `Qeq` by coprime uniqueness |
| C03 | case analysis over the checks; MIN case explicit |
| C04, C05 | range analysis + `ratQ` arithmetic |
| C06 | violated: `_refuted` witness by computation |
| C07 | invariant `num_ok` over the inductive set of API-reachable numbers |
| C08 | case analysis on overflow |
| C09 | `val_Q` homomorphism under `Strict` |
| C10, C11 | case analysis under `num_ok` |
| C12 | monotonicity of every function in the order Strict <= Debug <= Release |
| C13 | bridge `SpecFloat` to Flocq's `BinarySingleNaN`, then Flocq's correctness theorems |
| C14, C15 | algebra of `SFsub`; witness for the asymmetry |
| C16, C17 | case analysis, witness for the zero cases |
| C18, C19 | induction on trees; outcome classification |
| C20 | induction on trees against `eval`; |
| C21 | violated: witnesses |
| C22 | violated: witnesses; guarded version (PropsUndef): by induction on the tree, every rule of num_aggregate gives the same option value, undefined numbers stay undefined under every operation that does not drop them; for integer expressions in debug builds the guards follow from the shape (PropsUndefInt) |
| C23, C24, C25 | induction on trees; witness for non-idempotence |
| C26, C27 | induction on trees |
| C28, C30 | induction on trees |
| C29 | induction on trees with Coquelicot `is_derive`, plus openness of the guard |
| C31 | induction on the loop |
| C32, C33 | C29 iterated to `Derive_n`, `Taylor_Lagrange` |
| C34 | invariant "factorial = k!" on the loop |
| C35 | violated: witnesses; the constant coefficient of every expansion of u^k where u simplifies to 0 or 1, from c31_shape and the exactness of k/1 (PropsTayPow) |
| C36 | Coquelicot filters; case table |
| C37, C40 | violated: witnesses (plus the positive part) |
| C38 | induction on trees / direct |
| C39 | induction on fuel using C36 |
| C41, C42, C43 | induction on trees; digit-by-digit reading of printed numerals; a parser-free injectivity proof on readable trees; witnesses for ambiguity |
| C44 | induction on fuel |
| C45 | violated: witnesses for each dropped side condition of C39 |
| C46 | Flocq relative-error bounds of the two roundings and the division; witness for double rounding |
| C47 | interval bounds of pi (Machin) and e (partial sums) in stdlib reals |
| C48 | the printer's loop equals the printer of the polynomial expression |
| C49, C50 | case analysis; printed text of the error contains the argument's text |
| C51, C52 | case analysis over the 3 x 3 representations, overflow checks commute; witnesses |
| C53 | see below |
| C54 | the derivative of 1/b is a negation over a square, on which limit is stuck (C38) |
| C55 | degree drops by one per derivative (induction on the polynomial, through the simplifier rules), so the derivative of order d+1 is 0; exactness is then C33 with residual 0 |
| C56 | induction on well-formed trees with the raw result of each derivative rule; C23 for the simplifier; a family reaching the bound |
| C57 | every rule commutes with renaming (rule by rule, on result lists), then induction on trees / fuel |
| C58 | induction on the class `entire`: only Infinitesimal and Normal answers arise, on which the limit algebra never fails |
| C59 | first character and blanks of every text the printer produces |
| C60 | C29/C32 for both expressions and uniqueness of derivatives |
| C61 | induction on the stack depth: a successful call uses only successful subcalls |
| C62 | induction on the loop; C31 |
| C63 | joint continuity of values along any filter of assignments (induction on the tree), C29 in a 2-dimensional neighbourhood, Coquelicot's Schwarz theorem |
| C64 | mean value theorem one variable at a time, joint continuity of the derivatives |
| C65 | C64 in the two variables composed with the derivative of v |
| C66 | integer expressions: debug run = lossless run (IntProofs: every number stays an i64 literal, simplified forms never fold to a number in the wrong place), then C20/C29/C32/C33 apply without guards |
| C67 | values of integer polynomials are ring homomorphic images mod 2^64: invariant "differs by 2^64 times an integer polynomial" through every simplification and derivative rule (ModProofs); PropsMod |
| C68 | invariant on the stored kind through every numeric operation (ExactProofs: val_* and rat_* never build Real from exact operands) and through every rule but exp; PropsExact |
| C69 | Lagrange remainder (C33) + continuity of the (n+1)-st derivative gives the bound near a; uniqueness by induction on the degree (PropsBigO) |
| C70 | release integers via the wrap-around lemmas of ModProofs; debug runs of * / and negation on exact numbers are Strict runs, then C09; witnesses from C06 for sums (PropsRing) |
| C71 | `prune` (SpecRaw) commutes with every operation, by induction on the tree (RawProofs); returns-iff by C19 on the pruned tree (PropsRaw) |
| C72 | model of main.rs (Main.v), computed in both builds; truth of the printed text from C69 (PropsMain) |
| C73 | big-O of sums and products of polynomials, then uniqueness (C69); derivative: the k-th derivative of f' is the (k+1)-st of f (PropsTayAlg) |
| C74 | induction on `rational_expr` (SpecPlug): every limit rule on Normal operands is the num_aggregate rule; counterexample with a real limit in Coquelicot (PropsPlug); definedness of the answer from C22, poles at integers (PropsPole) |
| C75 | case analysis on representations; float part by negating the rounded operation (PropsSubNeg) |
| C76 | induction on the expression over the rounding lemma of C13 (Flocq), Bernoulli for (1-u)^k (PropsAcc) |
| C77 | big-O of a composition (polynomials are Lipschitz near the point), then the uniqueness of C69 (PropsComp) |
| C78 | idempotence of num_aggregate (C20) and congruence under substitution by induction on e (PropsStd) |
| C79 | the n-th derivatives are computed by induction on n; factorials by the wrapped-factorial lemma of C31 (PropsStd) |
| C80 | structural lowest term, lowered by one by each derivative (induction), then induction on the number of rounds; values via Coquelicot limits (PropsLH) |
| C81 | induction on the expression; the folded number of a part is its exact value (C66) (PropsPanic) |
| C82 | both sizes bound every intermediate tree (induction), number folding included (PropsPanic) |
| C83 | every operation keeps the lowest-terms fraction within the product bound, so no step of the arithmetic wraps (PropsHeight) |
| C84 | every part of a simplified expression has the value of a part of the given one (relation simp), results of fraction arithmetic are in lowest terms, and the textbook derivative and substitution preserve simp (PropsFrac) |
| C85 | a lowest-term invariant (kept by sums, products, sines, cosines) decides each sub-limit and the one derivative needed (PropsLH.lh_core, PropsLHSin) |
| C86 | each wrap and cast is a congruence; reduce divides both terms by one positive number (PropsWrap) |
| C87 | each checked machine operation panics iff out of range; the conversion of an integer operand panics iff it is i64::MIN (PropsOver) |
| C88 | induction on the expression with a multiplicative error factor; the exact parts by C83, each operation by C13-C15 (PropsMixed) |
| C89 | induction on the expression: Infinitesimal stands for a literal 0, and the rules of limit algebra agree with the simplification rules (PropsPlug2) |
| C90 | integer and rational literals only arise, so no float rounding occurs and a debug run agrees with the exact run; then C32/C33 (PropsQuot) |
| C91 | the invariant "no exponent has value 1 at s" survives simplification (which preserves values), differentiation and substitution; so exp never produces the tagged e, only integers and fractions arise, and a debug run agrees with the exact run (PropsExp) |
| C92 | an expression is compared with its exact meaning through jets (value and all derivatives at a point): "equal up to k roundings in every component" is kept by sums (max), products (sum of the two) and shifts, one rule of num_aggregate costs at most three roundings, ranges are kept because powers of two are representable (PropsFPoly) |
| C93 | pairs of jets (signed value and derivatives; the same for the size): "within k roundings of the size in every component" is kept by sums, differences, negations and products; floats never underflow because all stored numbers stay multiples of a power 2^-E (rounding keeps the fixed-point format); a second simplification pass is exact, because no operation on two numbers is left after the first (PropsSPoly) |
| C94 | `Direct.v` is a second, literal model; equality with Compute.v/Limit.v by induction on the recursion budget (PropsDirect) |
| C95 | induction on the expression with the exact contagion behaviour of each operator (PropsNaN) |
| C96 | induction on the program with the invariant that each register is well-formed, power- and pi-free and has the values of its meaning; meanings are defined on real functions only (SpecSession, PropsSession) |
| C97 | a second interpreter with one stack budget (Depth.v); induction on the budget; a family of operator weights w_k such that w_k-weighted depth of the derivative is at most the w_(k+1)-weighted depth of the expression (PropsDepth) |
| C98 | a third interpreter that returns the outcome and a call counter (Work.v); its outcome is proved to be that of Compute.v, its counter bounded by induction on the tree (PropsWork) |
| C99 | the derived Debug impls written out (Debug.v, Debug2.v); every text is shown to be decodable with anything behind it, by induction on the tree (PropsDebug) |
| C100 | Three mutually closed classes (any number in it an integer / zero / a fraction) are shown closed under simplification, differentiation and substitution with identical lossless runs; the summand r' ln u of the power rule vanishes because r' is literally 0; then C20, C29, C32, C33 apply. SpecPow2, PropsPow2. |
| C101 | Simulation: the debug run of limit, and every simplification and derivative in it, is shown equal to the lossless run (answers of integer expressions stay integer expressions, and are never Infinity); then C39 applies. SpecLimInt, PropsLimInt. |
| C102 | A grammar of token lists (SpecRead) written without reference to the code; induction on the expression for reading in context; uniqueness by induction on readings and the injectivity of token rendering; c102_taylor from c48_text. PropsRead. |
| C103 | coefficient by coefficient from c31_shape and c22_same_domain, used twice (the derivative at the point, then the division by k!) (PropsUndefTay) |
| C104 | induction on the expression: every textbook formula (SpecUndef: formula) mentions the operands whose values the expression needs; c22_same_domain carries this over to the simplified derivative; c29 for the converse (PropsUndefDer); quotients in debug builds from c22_debug_integers (PropsUndefQuot) |

C39 (soundness of `limit`) needs L'Hopital's rule, which the libraries do not contain in this
form: `LHopital.v` proves the 0/0 and the infinity/infinity case from Cauchy's mean value theorem.

C53 (termination of `limit`). The rewritings of indeterminate sums and products produce larger
trees, so no size measure works. `LimTerm*.v` show: (1) with T e := "from some fuel on, the
outcome is constant", T of a quotient follows if all iterated derivatives of both operands that
are reached are T (`Tch`); (2) a class PX of simplified trees closed under + * / and
differentiation along which the chain of derivatives reaches, in finitely many steps, a
constant or a tree on which limit is stuck; (3) every tree whose parts simplify to normal forms
in one round leads into that class (`thmA`); (4) an arbitrary tree needs at most `size` rounds,
and each differentiation performs one (rank `R k`, `LimTerm4.v`).

Where the code violates a property the manifest says so and names both the refutation and the
strongest guarded theorem that does hold.

## 4. Trusted base

* Coq 8.16.1's kernel (the proofs use `vm_compute` for examples and witnesses, so also the
  kernel's bytecode evaluator; no native_compute), coq_makefile/make.
* Axioms: `ASSUMPTIONS.md` gives what `Print Assumptions` lists for each theorem (regenerate
  with `tools/assumptions.py`). Three quarters are closed under the global context. The rest,
  all about real numbers or floats read as real numbers, use only the standard library's
  axioms of the classical reals: `ClassicalDedekindReals.sig_forall_dec`,
  `ClassicalDedekindReals.sig_not_dec`, `FunctionalExtensionality.functional_extensionality_dep`
  and `Classical_Prop.classic`. Coquelicot and Flocq are used as libraries of theorems and add
  no axioms. No axiom, `Variable`, functor or module type of our own, nothing admitted.
* That the model says what the code does: section 1, the line citations in the model, and
  `Sanity.v`, which replays the repository's own tests. In particular trusted are: rustc's
  semantics of integer overflow, `as` casts and f64 arithmetic as written in `Base.v`/`Float.v`;
  `f64::consts::{PI, E}`; the decimal printing of f64 (`{:.3}`) as round-half-even of the exact
  value to three decimals; Rust's stack and memory being large enough.

## 5. Testing the theorems

`seeded/LOG.jsonl` has one line per wrong program tried: a realistic edit of a model definition
(in a scratch copy), the properties it makes false, the theorems that then failed. In each try
every lemma whose own proof breaks is admitted and the build goes on, so "failed" lists exactly
the property theorems that stop being provable by their proof or that depend on a broken lemma.
Where an edit survived, the log names the theorem that was added or tightened.
