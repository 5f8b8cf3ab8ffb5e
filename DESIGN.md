# Formal model of pglass/cpp_maths in Rocq/Coq

## Approach

The model is a set of total, computable Gallina functions, one per C++ function
(`rocq/theories/*Model.v`), each with a comment citing the lines of `/repo` it
models. Control flow that is not a plain return is part of the result type:

    res A = Ok a | Throw exn | Abort | UB | OutOfFuel

* `Throw` – a C++ exception (`divide_by_zero_error`, `invalid_argument`,
  `domain_error`, `out_of_range` from `deque::at`).
* `Abort` – a failed `assert` (the CMake build defines no `NDEBUG`; Int and Frac
  compiled with it are modelled apart, C120 and C121).
* `UB` – undefined behaviour: signed overflow of `int32_t`/`int64_t`, `-INT_MIN`,
  dereferencing `end()`, erasing at an invalid iterator.
* `OutOfFuel` – a loop modelled with explicit fuel did not finish; every theorem
  excludes it.

Specifications live in separate small files (`*Spec.v`): the integer denoted by a
list of bins, canonical form, decimal numerals, the division failure domain, the
rational denoted by a Frac, ring/field determinants from mathcomp, and so on.
Theorems about properties are in `Props*.v`, each with a non-vacuity `Example`
and `Print Assumptions`.

## Plan per property

| ids | modelled as | proof |
|---|---|---|
| C01,C02,C23 | constructors over checked machine arithmetic | case analysis, digits lemmas |
| C03,C05,C06 | istream with eof/fail/bad bits, peek/get/unget; chunked digit parsing | induction on the character list |
| C04,C30 | ostream with buffer, width, fill | induction on bins; uniqueness of numerals |
| C07 | cmp_bins from the most significant bin | induction, comparison of base-B numerals |
| C08-C11,C28 | carry/borrow loops, addsub dispatch on signs, aliasing as an option operand | loop invariants |
| C12-C16,C29 | long division loop with in-place bins, cleanBins, binary search for q | invariants; exact failure domain by tracking the size of the bins |
| C17-C19 | recursive squaring with fuel | induction on fuel, bound by number of bins |
| C20-C24,C26 | direct | direct |
| C25,C42 | state machine over a list of variables | invariant + refinement to a machine over Z / Q |
| C27 | corollary of the others: outcome is never UB/OutOfFuel | |
| C31-C42 | Frac over the Int model; in-place operators return final object and outcome | refinement to Z/Q |
| C43-C47 | Vec generic in a record of element operations; instances: commutative ring, Int | ring identities |
| C48-C53 | Mat generic in a record of element operations, row-major list; instances: mathcomp comRing / field, Int | refinement to mathcomp matrices, `\det`, `unitmx` |
| C54-C57 | Factor / Term (sorted association list = std::map) / Poly (list) | induction; witnesses for refutations |
| C58,C69 | IEEE binary64 as `SpecFloat.spec_float` | Flocq's correctness theorems, exact boundaries |
| C59 | recursive squaring with fuel | induction on the exponent's halvings |
| C60,C61 | Mat constructors, minors, printing | entry-wise loop invariants |
| C62-C64 | printing of Factor, Term, Poly through the ostream model | induction on the printed lists |
| C70-C72 | Vec, Mat with the element type int (overflow = UB) | each operation returns and everything fitted, or is UB and something did not; magnitudes by induction on the size |
| C73-C75 | norm, unit_vector and conversions between int and double | Flocq: the double nearest to sqrt k truncates to the integer root for k < 2^31 |
| C76-C79 | dot, norm, unit_vector on binary64 | standard error analysis by induction on the size; rnd(sqrt(rnd(x*x))) >= abs x by comparing with the midpoint below x |
| C80-C83 | the templates run on rationals that stop at the first number that is not a double (`watched`), against the run on double, int or Int | a simulation between two element types through every template function; determinants over `rat` |
| C53 (partial) | the same simulation from integers; triangular matrices directly | `TriProofs`, `SimAlg` |
| C89 | rref and inverse on Int and int, against rationals and against integers that divide by units only (`SimIntAlg`, `UnitProofs`, `UnitTri`) | the same simulation; a loop invariant for triangular matrices; rationals back to integers by injectivity |
| C90 | `DoubleMat`: `rounded` says what IEEE 754 prescribes for an exact real result | Flocq's correctness of each operation, where its overflow test meets the middle above the largest double, ties by uniqueness of canonical significands; the loops by the generic lemmas; error bounds by induction on the sum |
| C91 | `DoubleLaws` | commutativity of the two operators on every double, then the generic loop lemmas with equality as the relation; witnesses by computation |
| C92 (partial) | `DoubleElim`, `TriProofs`; exact results for the witnesses from the same template code over the rationals | loop invariants: what a diagonal matrix looks like after r rows; below the diagonal of a lower triangular matrix only dead entries change |
| C93 | `DoubleCof`; exact determinant as `\det` of mathcomp through a recursion over Q | every intermediate value is a multiple of 2^-(ne), so products underflow nowhere and each operation has one relative rounding error; induction on the size, loop invariant on partial sums (the first addition, to 0, is exact) |
| C94, C95 | the Vec/Mat model with `Frac_ops` and `Int_ops` | the generic theorems of C43-C48 with the exactness lemmas of Frac; no abort: simulation of exact arithmetic watched for small quotients (`FracSmall`); division by zero: the first iteration of the loop throws, or (Frac's /=) every iteration returns ±1/0 |
| C96 (partial) | print() again, on a stream with base, alignment, showpos, showbase and uppercase (`FlagsModel`); `FlagsSpec` says which text the flags ask for | with default flags it is the print() of `IOModel`; left alignment: blocks of nine characters compared one by one; hex: the text is too long; octal: its value is wrong; showpos: a plus inside |
| C97 | `FormatSpec`: rounding to six digits over Q, the notation as a grammar | powers of ten over Q; the notation of a number and its rounding are unique, so integers need only be shown to fit the grammar |
| C98 | matrices of mathematical components; `MatLaws.exact_ring`, `exact_field` say what exact element operations are | each operation returns the representation of the mathematical result (C48-C52), representations are unique, so laws of matrices become equalities of results; equal row spaces by uniqueness of reduced forms |
| C99 | the grammar of C06 for each number; `SeqModel` chains extractions | every extraction either takes a maximal numeral or fails (C06); a text allows at most one number per minus sign, plus one if it starts with a digit |
| C100 | indices over Z modulo 2^64 in `SizeModel`; the spec is the index without the modulus | no wrap-around below 2^64; the element just beyond the array is an entry of the matrix otherwise; loops of the two models in lock step |
| C101 (partial) | Q; both sides compared as objects (`FracLaws.agree`, `same`) | every operator aborts or returns the reduced fraction of the value over Q (C33, C36, C40), and that is unique; with 0, 1 and an operand itself the abort conditions in closed form; witnesses where one side aborts |
| C102 (partial) | the text flags ask for (`FlagsSpec.text_with`), of a fraction, an int and a vector (`PieceSpec`) | the operators as sequences of insertions, proved to be the operators of the other models under default flags; without a width the text is the concatenation of what each insertion writes; `/` and `,` occur in no number, so a right text splits into right numbers; C96 for each number |
| C103 | the matrix an object stands for, and who owns which array (`HeapSpec`) | the functions of Mat.hpp once more as programs over objects with addresses, new T[] and ~Mat (`HeapModel`), written apart from `MatModel` except for `read` and `skip`; each step keeps ownership, by induction for any program; a small logic of expressions, statements on one object and functions that make an object relates each function to `MatModel` |
| C104 | the same calls over the integers (`zvalue`, `zsteps` in `IntCalls`) | the general lemmas of each operator for any well-formed operand; the power taken depends on the exponent alone (two bases compared), so C88 carries over to any base; induction over the program |
| C105 | the run of digits at the front of a text (`run_of_digits`, `numeral`) | induction over the limit |
| C106 | powers of ten bounding the absolute value; the loops run with the stated number of rounds (`gcd_loop (5k+1)`, `exponentiate (2k+1)`, `qr_search 3 29`) | from the exact values; Fibonacci numbers for GCD; induction over the rounds |
| C107 | the algorithms of Mat with a counter of element operations (CostModel.v); erasing the counter gives the functions of MatModel.v | compositional bounds with the dimensions as loop invariant; a potential in the pivot column for the search; exact counts for products and for expansions without zeros |
| C108 | the last write to a position in a list of writes; an entry whose reading is undefined | loops whose rounds return or are undefined, one of which is undefined; induction over the writes |
| C109 | the meaning of a state: (variable, power), (coefficient, monomial value), value at a point; what each call does to it | case analysis over the calls from the lemmas of C54, C55 and C66; induction over the program |
| C110 | rationals with two infinities: partial sum, product, quotient, order | the value of numerator and denominator before normalize, then normalize by cases on zero parts |
| C111 | list of wanted results, the loop ends at the first missing one; matrices by their entries row by row | loop invariant over the index; flattening of the double loop |
| C112 | text of a double as predicates over notation and rounding to P digits (FloatSpec) | digits of the rounded number laid out; base-16 numerals; uniqueness by decade and by leading digit |
| C113 | the same program over Q, 1/0, -1/0, 0/0 as a relation with a trace of events (CatchSpec) | every call case by case from C110, plus 0/0 as operand with zeros in any form; powers of untrimmed zeros by simulation; induction on the program |
| C114 | the number a text denotes, as a grammar (ReadSpec); closest number of 53 bits | distance between numbers of 53 bits against half a unit of the last digit; the grammar is unambiguous |
| C115 | nearby product of triangular matrices (LUSpec); determinants by expansion over Q (DoubleCof) | induction on the rows left, each step with the standard model of rounding; determinant of the product over mathcomp's rat |
| C116 | product of row reduction steps, reduced row echelon form over Q (JordanSpec) | one round of the loop is a matrix (exchange, then one column of multipliers); division, multiplication and subtraction are analysed backward, so that A is T times the next matrix up to u per entry of it plus 2^-1075 (JordanProofs.v). The rounds are multiplied together by induction, together with the exact shape (P/P rounds to 1, v - v*1 is 0, earlier columns stay). The determinant of a step is plus or minus its pivot (JordanAlg.v, mathcomp). The steps are on rows 0, 1, ... with multipliers that are doubles, so the bound fixes them: column piv k of R is a unit vector. |
| C117 | the effect of each call on sequences and functions of two indices over an algebra: the integers, Q, a field (LinSpec) | one lemma per call, from C43-C52 and C60, under a record of what the element type must satisfy; exceptions and division by zero at the first element leave the variables alone; induction over the program; the record is proved for Int in any well-formed representation (from C104), for canonical Int without *= and division, for int up to overflow, for reduced Frac, for any field |
| C118 | looking alike as a relation on variables, exponents and coefficients (PolyTextSpec) | the text is cut into words at its blanks, the sign between two words tells terms from factors; a word is a coefficient, a name or a power by its first character and ^; conversely each text is determined by what it shows |
| C119 | rounds of loops as a number beside the result; bins, bins that are not zero (IntCostSpec) | the counted operations erase to the operations of IntModel; bounds from above by a Hoare-style logic with a budget, from below by its dual; the trial loop of division is bounded by 29 halvings with at most three trials each in the search for the quotient's digit |
| C120 | a failed assertion read as out_of_range; the digit where long division stops and the digits below it; bins a number needs (ReleaseSpec) | agreement by congruence over the monad for any operands; the zero branch of the division loop replayed without assertions gives the exact bins left; powers by induction on the fuel with the same case analysis of operator- |
| C121 | the three fractions that can be left in place of t/b when reducing it throws (FracReleaseSpec) | congruence over the monad; Euclid's loop by induction on its fuel; if gcd(a,b) is reached but a / gcd stops, then a divides b, since a division by a larger divisor stops too |
| C122 | the objects have their old values, except the entries of one in-place target, and at most one array is lost (`guarantees`, AllocSpec) | triples with a third outcome for std::bad_alloc, over the programs of HeapModel, with a rule for each primitive, for constructors, for local objects and for results |
| C123 | with room for k elements a function ends as with unlimited memory, with less in std::bad_alloc and unchanged objects (`needs`, SpaceSpec) | a run with a limit is one of C122's runs, so its guarantees apply; triples with a lower and an upper bound of the peak, added to over local objects and temporaries |
| C124 | which objects += -= *= /= %= ^= of Int leave when a request for memory fails (`left_by_sum`, `left_by_result`, `left_by_division`, IntAllocSpec) | triples with a condition for running out of memory; a value-based invariant of long division in place; agreement with IntModel otherwise |
| C125 | which fractions the compound assignments of Frac leave when a request for memory fails (`left_top_bot` etc., FracAllocSpec) | steps on one member lifted from C124; the specification of GCD and reduction |
| C126 | polynomials in the number of bins (`product`, `sum`, `divisor`, `reduction`, `power`, FracCostSpec) | erasure to IntModel and FracModel; the division loop with the bins it skips counted apart; the steps of Euclid's algorithm paid for by the bins and by the logarithm that each step takes away; powers by induction on the recursion |
| C127 | the integer congruent modulo 2^w that fits in w bits (`becomes`), first digits of a numeral, bins from the top (NarrowSpec) | the functions once more with conversions, generic in the width of int; agreement with IntModel and IOModel below the limit by induction on the loops; beyond it the same loops stopped early |
| C128 | a run without assertions is the run with them, abort read as std::out_of_range (`released_run`); entries all of one kind (`entries`) (ContReleaseSpec) | a relational simulation of the templates over two records of operators, instantiated with the C120 and C121 lemmas; the leftovers by induction on the loop |
| C129 | the same end with abort read as std::out_of_range, and the same object unless one is (`agree`, PolyReleaseSpec); the leftover fraction of C121 | congruence over the state monad; the C54, C55 and C121 lemmas |
| C130 | a relation on integers for each call and ending (`zattempt`), what a throwing call leaves (`sum_left`, `digits_left`) (ReleaseCallsSpec) | each operator on operands in any representation, by the C104 case analyses replayed without assertions; the bins written before the subtraction loop runs past the end are the difference modulo the size; induction on the program |
| C131 | a relation on pairs of integers for each statement and event (`pexec`): the formula (`computes`), lowest terms (`lowest`), what a throwing reduction leaves (`unreduced`) (FracReleaseCallsSpec) | the Euclidean loop, `normalize` and each operator on Ints in any representation, from the Int lemmas of C130; numerator and denominator raised to the same exponent by a paired induction; induction on the program |
| C132 | small-step evaluation of expression trees: any call whose operands are known runs next, the first failure ends it (`may_give`, OrderSpec) | steps keep the left-to-right outcome; failures all alike, by the soundness of the Int operations, hence one outcome; the model's operators evaluate their trees left to right |
| C133 | counted versions of printing, reading, times_power_ten and Frac's text and double input (IOCostModel), numbers of rounds as formulas in characters and bins | erasure; exact counts follow the correctness lemmas of the loops; bounds by the sizes of the intermediate numbers and the bounds of C119 and C126 |
| C134 | which vectors, matrices, terms and polynomials the compound assignments leave when a request for memory fails (`partly`, `left_by_factor`, `left_by_product`, `left_by_append`, ContAllocSpec) | the triples of C124 and C125 lifted to one element, induction over the elements; Mat reduced to the vector of its entries; the loop over the factors follows `times_all` |
| C135 | what programs of Factor, Term and Poly calls compiled without assertions do, exceptions caught (`pcall_does`, `program_does`, PolyReleaseCallsSpec) | coefficient arithmetic from C131 lifted to terms (`coeff_ends`); `append_spec` gives exponents; invariant `wobjects`, which asks nothing of coefficients but well-formed Ints; induction over the calls |
| C136 | what programs of Vec<Int> and Mat<Int> calls compiled without assertions do, exceptions caught (`call_gives`, `gives`, LinReleaseSpec) | new objects: C117's step run with two other element types, one that stops where Int throws out_of_range (`Int_ops_strict`, related by the two-run lemmas of C128) and one that never does (`Int_ops_ideal`); in place: loop invariant `mix` with the operators of C130, matrices reduced to their entries row by row |
| C137 | programs of Vec<Int> and Mat<Int> calls run the same with and without assertions as long as none fails (both runs of LinCalls and LinReleaseModel; no further spec) | a second two-run relation, `agrees`, that asks nothing once the first run fails an assertion, through all templates; for loops in place `tracks`, which also compares the states left by exceptions |
| C138 | programs of Vec<Frac> and Mat<Frac> calls run the same with and without assertions as long as none fails (both runs of LinFracModel; no further spec) | the relations of C137 through modulo, GCD, normalize and the Frac operators, whose interrupted states are compared, then the templates of C137 |
| C139 | programs of Frac calls run the same with and without assertions as long as none fails, exceptions included (runs of CatchModel and FracReleaseCallsModel, pexec of C131) | the relations of C137 and C138 through powers, texts and the mixed operators; C131 for the run without assertions |
| C140 | programs of Factor, Term and Poly calls run the same with and without assertions as long as none fails, exceptions included (runs of PolyCatchModel and PolyReleaseCallsModel) | the relations of C137-C139 through the maps of factors and lists of terms; the run with exceptions caught is tied to PolyCalls |
| C84-C87 | the remaining helpers: deque printer, shift, access from the back, testOutput (`MiscModel`) | direct; separators cannot occur inside numerals |
| C88 | exponentiation with every exponent (`IntPowExact`, `FracPow`) | induction on the halvings, over pairs (value, number of bins): halving keeps the bins, so a power of 10^9 is mistaken for 1 only while its bins are trimmed |
| C65-C68 | Term ==, appendTerm/appendTerms, Poly constructors | induction; permutation and sortedness; witnesses |

Where a property is false of the code, the full statement is kept, a `_refuted`
theorem gives the witness, and a `_partial` theorem (often an exact iff) says
what does hold.

## Trusted base

* Coq 8.16.1's kernel (`vm_compute` included: the witnesses and the conformance
  checks run in the VM, and `coqchk` rechecks them by ordinary conversion).
* The model: that the Gallina functions say what the C++ source says. Every
  definition cites the lines it models, and the model is run against the
  repository's own tests (see Conformance).
* The specifications in `*Spec.v`, which are short and mention no model function
  beyond the data types.
* Axioms. `Print Assumptions` stands under every property theorem. All print
  "Closed under the global context", except the ones about doubles that go
  through Flocq's real numbers, which list only axioms of the standard library:
  `ClassicalDedekindReals.sig_not_dec`, `ClassicalDedekindReals.sig_forall_dec`,
  `FunctionalExtensionality.functional_extensionality_dep`,
  `Classical_Prop.classic` (a subset of these for some). The development adds no
  axiom, uses no Admitted, no functor or module type, and switches off no check.
  (`coqchk` also lists opaque constants of mathcomp's sealed modules; no theorem
  here depends on an unproved one.)

## What is modelled

| source | model | not modelled |
|---|---|---|
| src/common.hpp, common.cpp | exceptions, isdigit, cmp_ints, float_cmp, float_equals, isFinite, max, testOutput (`Base`, `IOModel`, `CommonModel`, `MiscModel`) | the constants DEBUG_* are false, so the debug output they guard is left out |
| src/Int.hpp, Int.cpp | everything: constructors, I/O, comparison, arithmetic, division, power, helpers, the debug printer of deques (`IntModel`, `IOModel`, `FlagsModel`, `MiscModel`; with sizes in ints, `NarrowModel`; compound assignments when memory runs out, `IntAllocModel`) | memory exhaustion elsewhere; locales |
| src/Frac.hpp, Frac.cpp | everything (`FracModel`; compound assignments when memory runs out, `FracAllocModel`), from_double on binary64 with `%.*f` formatting; stream flags in `FlagsModel`, `PieceModel` and, for doubles, `FloatModel` | the same |
| src/Vec.hpp | everything, generic in the element type; norm and unit_vector for int and double (`VecModel`, `DoubleModel`) | the same |
| src/Mat.hpp | everything that has a definition, generic in the element type (`MatModel`; with memory, `HeapModel`; with memory that can run out, `AllocModel`; with a limit on memory, `SpaceModel`) | `setEntries(const std::vector<T>&)` is declared but never defined; indices that do not fit in size_t or int are modelled separately, for the constructors, entry access and first_minor (`SizeModel`, C100) |
| src/Poly.hpp (Factor, Term, Poly) | everything that has a definition (`PolyModel`) | std::map and std::list as sorted association list and list |
| test/, demo/ | run against the model (`Conform*.v`) | the test framework |

Simplifications, each also stated at the definition:

* Allocation never fails (C122, C124, C125 and C134 say what happens in Mat and in the
  compound assignments of Int, Frac, Vec, Mat, Term and Poly when it does, C123 how much Mat needs), sizes fit in
  `size_t` (for Mat, C100 says what happens when they do not) and in the ints that hold
  them (for Int and Frac(string), C127 says what happens when they do not).
* Assertions are compiled in, as in the default build; a failed one is the outcome
  `Abort`. C120, C121, C128-C131 and C135-C140 are about the release build, without them
  (`ReleaseModel`, `FracReleaseModel`, `ContReleaseModel`, `PolyReleaseModel`,
  `ReleaseCallsModel`, `FracReleaseCallsModel`, `PolyReleaseCallsModel`, `LinReleaseModel`, `LinFracModel`; `PolyCatchModel` is the build with
  assertions that C140 compares).
* A C++ object is a value; a reference to the object itself is an `option`
  operand (`None` = the same object), so self-aliasing is modelled and tested. For
  Mat, the one class that manages memory itself, C103 proves this sound against a
  model with addresses, allocation and destructors.
* Element types of Vec and Mat are records of operations (`ops`); Int, Frac, int
  (overflow is UB), double (binary64, round to nearest even, no excess precision,
  NaN payloads ignored) and exact types are instances.
* A failing element operator inside Vec/Mat is taken to leave the element as it
  was. For Frac that is not so; `LeaveModel` keeps the changed element and C111
  says exactly what differs. Without assertions it is not so for Int `/=` either (C128).
* `%.*f` and `%.6g` are correctly rounded (half to even on the exact binary
  value), as glibc does.
* Unspecified evaluation order of operands is fixed left to right. C132 proves that for
  the expressions with more than one call among their operands (Frac operators, cross
  products, 2 x 2 determinants) every order gives the same outcome, except in the latter two for Fracs with
  a zero denominator.

## Conformance

`ConformInt.v`, `ConformFrac.v`, `ConformMat.v` run the model on the assertions of
test/int_test.hpp, frac_test.hpp, poly_test.hpp, vec_test.hpp, mat_test.hpp and on
the transcripts recorded in demo/*.cpp. `ConformInt.v` is generated by
`tools/gen_conformance.py`; the built file holds a sample that `coqchk` can replay
in a minute, and `tools/gen_conformance.py --full FILE` writes all 286 checks and
the loops, which also pass. One test is left out on purpose: TEST(PolyOutput)
dereferences `end()` (C55), which the model reports as UB.

## Findings about the code

* Int division (`/`, `%`, and so GCD and every Frac operation) stops at an
  assertion for some operands of 10^18 or more, e.g. 10^18 / 10^9 (C13).
* Int powers: x^(10^9) is x, x^(2^30) aborts, negative exponents give positive
  powers (C18, C19, C59).
* `equals_int32` compares the top bin only: Int(10^9).equals_int32(1) (C22). It
  makes Factor print x^(10^9) as x (C62).
* Without assertions, `+=` and `-=` on a negative Int that throw leave it without its
  sign: -5 += z, z a zero of two bins as `0 *= 10^9` leaves it, leaves 5 (C130). A Frac can lose the sign or most digits of its numerator, or digits of
  its denominator: reducing (5*10^27 + 4*10^9)/(5*10^36 + 5*10^27 + 4*10^18 + 4*10^9) in place leaves the
  numerator 4*10^9 (C131). A `*=` of Terms that throws has already multiplied the powers (C135).
* `0 *= -5` is a negative zero (C26), which prints "-0"; Vec<Int> and Mat<Int>
  scaling inherits it.
* A text of 2^31 to 2^32 - 1 digits makes an Int without bins, one of 2^32 + 5 digits the
  number of its first five; 1 == 10^(9 * 2^32); comparing 1 with 10^(9 * 2^31) never ends;
  a dividend of 2^31 bins is undefined, a longer one can be its own quotient (C127).
* Int(INT64_MIN) overflows (C01). Printing leaves the fill character '0' behind
  and pads each chunk (C30). On a left-aligned stream 1000000001 is printed as
  1100000000, and hex, oct and showpos are applied to each bin by itself (C96).
* Frac `/=` by zero gives 1/0 instead of throwing (C35), and so does dividing a
  Vec<Frac> by zero (C95); -1/0 < 1/0 is false and 1/0 <= -1/0 true (C110); `^=` ignores the sign of
  the exponent (C36); reading "1/0" succeeds, "0/0" throws out of operator>>,
  "5/x" changes the numerator (C39); from_double(x, 0) is undefined and
  from_double(1000.0) aborts at the default precision (C41).
* `x *= x[k]` on Vec and `m *= m(p,q)` on Mat change the scalar half way (C44, C48).
* determinant() divides, so it is wrong on integer types (C53) unless every quotient
  is an integer, as for triangular matrices. The 0x0 case:
  determinant() gives 1, the cofactor expansions 0.
* rref() and inverse() truncate on integer types in the same way: the result of
  inverse() on Mat<Int> need not be an inverse, and no error is reported (C89).
* On Mat<double> elimination takes the first pivot that is not zero, however small:
  determinant() and inverse() can be wrong in every digit, accept singular matrices
  and reject regular ones (C92).
* Mat::cofactor(i, j) returns the signed minor matrix, not a number (C60).
* If copying an element throws std::bad_alloc, the constructors of Mat that copy
  elements lose their array (C122).
* When memory runs out, a compound assignment of Int can leave another number than the
  old one or the result, for instance 0 after 999999999 += 1, 5 after -5 += -3, or an
  Int without bins after 1 /= 2 (C124); of Frac, 3/2 after 1/2 *= 3/5, or a fraction with
  denominator 0 (C125); of Vec, (4, 2) after (1, 2) += (3, 4), and of Term, 2/3 x^3 after
  2/3 x *= 5/7 x^2 y (C134).
* Poly::appendTerm dereferences end() whenever every present term is less than the
  new one, so x + y is undefined, and so is every Poly(non-empty vector) (C55,
  C68). Term < is neither asymmetric nor transitive (C56), appendTerms may get
  or produce unsorted lists (C66).
* float_cmp has the sign reversed (C58).
* norm() of a Vec<double> underflows to 0 and overflows to infinity far inside the
  range of double (C78); unit_vector() of a Vec<int> is almost always zero (C74),
  and of a zero Vec<double> NaN (C79).

## Mutation testing

`seeded/LOG.jsonl` records edits made to the model definitions in a scratch copy,
which theorem each broke, and what was tightened when none did.
