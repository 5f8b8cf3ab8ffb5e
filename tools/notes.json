{
 "C01": "INT64_MIN is undefined behaviour (proved separately).",
 "C12": "False of the code: 10^18 / 10^9 stops at an assertion (C12_division_refuted). The partial theorem gives the value whenever division returns; C13 gives the exact domain.",
 "C17": "False of the code: (-1)^(10^9) is -1, and x^(2^30) aborts for every x. C17_pow_iff says for exactly which exponents it holds; C88 what happens at the others.",
 "C20": "Scaling up is exact; scaling down aborts on the inputs characterised by C20_scale_down_partial, e.g. 10^18 by 10^-1.",
 "C21": "False of the code: the top bin is compared, so Int(10^9).equals_int32(1) is true and Int(10^9).equals_int32(10^9) is false. C22 gives the exact meaning.",
 "C26": "False of the code: 0 *= -5 is a negative zero and 0 *= 10^9 has two zero bins. The partial theorem says exactly when the result is canonical.",
 "C30": "False of the code: multi-bin Ints leave '0' as fill character, and the width pads only the first inserted piece (the sign, or the leading bin). C30_format_exact_partial gives the exact text and final fill for every Int, width and fill; C30_format_iff says exactly when that is what a built-in integer would do.",
 "C25": "Values are compared for the exponents at which powers are right (C17_pow_iff); programs may use *= when the product is not a zero that breaks canonical form (C26).",
 "C31": "GCD aborts exactly when one of Euclid's divisions does (gcd_safe); below 10^18 it always returns. The statement allows this.",
 "C33": "Aborts exactly when the normalising divisions abort (norm_safe of the unreduced numerator and denominator); components up to 7*10^8 never abort.",
 "C35": "False of the code for /= by zero, which silently leaves 1/0 or -1/0 (C35_div_assign_zero gives the exact behaviour). The partial theorems cover everything else, with aliasing.",
 "C36": "False of the code: f ^= n ignores the sign of n (C36_pow_assign_negative). f ^ n and f ^= n with n >= 0 are right for every exponent at which powers of Int are; every other exponent is in C88.",
 "C37": "A string whose normalisation meets an aborting division aborts; exact.",
 "C38": "False of the code: a fraction such as 1000000000000000138/3 can be built, but reading its text aborts. Exact domain proved.",
 "C39": "False of the code: \"1/0\" is read as 1/0, \"0/0\" throws out of operator>>, \"5/x\" fails but changes the numerator. Every possible input is classified exactly.",
 "C41": "False of the code: precision 0 is undefined behaviour for every finite double, and 1000.0 at 15 decimals aborts.",
 "C42": "Runs can stop at an assertion (C42_history_refuted); otherwise values and reduced form are preserved.",
 "C43": "Generic in the element type (operators related to exact functions by a representation relation), with Int, Frac and int (no overflow) instances. Vec<Int> scaling gives zeros that need not be canonical (C26); Vec<Frac> and Vec<Int> division may abort as in C13/C33.",
 "C44": "False of the code: the scalar is a reference, so elements after the k-th are scaled by the new k-th element. The partial theorems give the exact result.",
 "C48": "Generic in the element type, with Int and int instances; the ring laws of the product and trace over any commutative ring. Scaling or dividing a matrix by one of its own entries is false (the scalar is a reference, C48_scale_by_entry_refuted); the partial theorems give the exact result.",
 "C49": "Over every commutative ring, for at least one row; the expansions of a 0x0 matrix give 0.",
 "C50": "For exact field element types; double is not a field. Integer types: C53.",
 "C51": "For exact field element types; includes uniqueness of the reduced form and equality of row spaces.",
 "C52": "For exact field element types.",
 "C53": "False of the code: elimination divides, so determinant() of [[2,1,0],[1,2,1],[0,1,2]] over Int is 8, not 4 (also over int). The partial theorems: sizes 1 and 2; upper triangular matrices without zeros on the diagonal (for int exactly when the products along the diagonal fit); lower triangular ones (Int may abort); and every matrix whose elimination in rational arithmetic meets only integers (which also fit, for int; Int may abort when one reaches 10^18). Missing: which integer matrices give a right result although an intermediate quotient is truncated.",
 "C54": "t*u aborts exactly when normalising the product of the coefficients does (not mul_safe); coefficients with small products never do. A variable whose exponents cancel stays, with exponent 0.",
 "C55": "False of the code: appendTerm dereferences end() whenever every present term is less than the new one, e.g. x + y or any append to the empty polynomial. The partial theorems give the exact domain (undefined iff all terms are less; abort only for coefficients that cannot be added) and the value everywhere else.",
 "C56": "False of the code: x y^2 < x^2 y and conversely, and it is not transitive. It is irreflexive, 'not less' is transitive, neither-less means equal factors, and it is a strict weak ordering on terms with at most one variable.",
 "C62": "False of the code for powers 10^9, 10^18, ..., printed as if they were 1 (equals_int32 compares the top bin). Exact text for every power proved.",
 "C63": "False of the code for exponents 10^9, 10^18, ... (C62). Exact text for all terms proved; the documented text for all other exponents.",
 "C66": "False of the code: a polynomial appendTerm built may be unsorted, so appendTerms on it is undefined, and merging two sorted lists may give an unsorted one. The partial theorems: undefined exactly when a list is unsorted, otherwise a permutation with the value of the sum, sorted when no two terms are mutually less.",
 "C68": "False of the code: every non-empty vector runs into the dereference of end() in appendTerm. The other constructors are right.",
 "C58": "False of the code: the sign is reversed (float_cmp(1,2) = 1), and a difference less than half a unit above EPSILON counts as 0. The partial theorem gives the exact answer for all finite doubles; isFinite is right. The finite cases use the standard library's axioms of the reals (through Flocq).",
 "C69": "Uses the standard library's axioms of the reals (through Flocq).",
 "C73": "Uses the standard library's axioms of the reals (through Flocq).",
 "C74": "The result is a vector of zeros unless one element dominates: (3, 4) becomes (0, 0). Uses the standard library's axioms of the reals (through Flocq).",
 "C75": "Uses the standard library's axioms of the reals (through Flocq).",
 "C76": "Uses the standard library's axioms of the reals (through Flocq).",
 "C77": "Uses the standard library's axioms of the reals (through Flocq).",
 "C79": "The zero vector becomes NaN, and elements below 2^-511 may give infinities. Uses the standard library's axioms of the reals (through Flocq).",
 "C78": "False of the code: the squares underflow or overflow, norm((2^-548)) = 0 and norm((2^652)) = infinity. What holds: it is zero exactly when no square is above 2^-1075 (C78_zero); it is infinite as soon as one element is 2^512 or more (C78_huge), exactly then for a single element (C78_one); for more elements finiteness is decided up to the rounding error of the sum of squares (C78_finite_partial, C78_infinite). Uses the standard library's axioms of the reals (through Flocq).",
 "C80": "The rational run stops (as UB) at a result the test rejects and at a division by zero. Uses the standard library's axioms of the reals (through Flocq).",
 "C81": "The rational run stops (as UB) at a result the test rejects and at a division by zero. Uses the standard library's axioms of the reals (through Flocq).",
 "C82": "Uses the standard library's axioms of the reals (through Flocq).",
 "C83": "Uses the standard library's axioms of the reals (through Flocq).",
 "C89": "False of the code: quotients are truncated, so rref((2 1)) = (1 0) and inverse(2 1; 1 1) = (0 0; 0 1). Exact when the elimination in rational arithmetic meets integers only (Int, with aborts of the division; without them below 10^18; int if everything fits), when it divides by 1 and -1 only, and so for every upper triangular Mat<Int> with 1 or -1 along the diagonal.",
 "C91": "Bit for bit, + commutes, dot is symmetric and (ab)^T = b^T a^T, on all doubles; a - b == -(b - a) on finite ones; x cross x is zero unless a product overflows (then NaN); x == x exactly when no element is NaN. False: + and the matrix product are not associative, trace(ab) may differ from trace(ba), x . (x cross y) need not be zero; each has a witness.",
 "C92": "False of the code: the first pivot that is not zero is taken, however small. inverse() of [[2^-60,1],[1,1]] has 0 where the inverse is below -1; inverse() of the singular [[49,1],[49,1]] returns, of the regular [[3,1],[1,0.333...]] throws; determinant() of [[2^-60,1,1],[1,1,2],[1,2,1]] is 0 although it should be about 2 (cofactor expansion finds 2), and of the singular [[3,1,2],[2,5,3],[5,6,5]] is not 0. The partial theorems: 2 by 2 determinants have the error of a difference of two products; triangular ones (upper or lower, no zero on the diagonal) have relative error (1+u)^(n-1)-1 unless a partial product leaves the normal range; the inverse of a diagonal matrix is correctly rounded entry by entry unless a reciprocal overflows. When no result is rounded see C83.",
 "C93": "Rdet/Rperm (DoubleSpec) expand along the first row, Rdet_col/Rperm_col along the first column; C93_row and C93_col say that the value compared with is \\det of the matrix. Without the condition on entries products can underflow: the expansion of diag(2^-600, 2^-600) is 0 (C93_ex).",
 "C94": "determinant, rref, inverse, cofactor expansion and unary minus of Mat<Frac> do not compile (Frac's constructors are explicit, no unary minus), so they are not claimed.",
 "C95": "Proved for Int, and for operator/ of Mat<Frac>. False for Vec<Frac> / and /= and Mat<Frac> /=, which use Frac's /= (see C35): C95_frac_refuted; what they return instead is C95_frac_partial.",
 "C96": "False from ten digits on in base 16, base 8 and under showpos, for negative Ints under showpos, and for some Ints on a left-aligned stream: C96_refuted. For each base the _partial theorems say exactly when the text is right (base 8: up to 18 digits only).",
 "C99": "operator>> does not skip white space, so separated numbers are not read back (refuted, for every separator but a minus sign); what does happen for every text is C99_any_text, and C99_adjacent, C99_ws_partial say when a sequence is read back",
 "C100": "exact below 2^64 entries (and 2^31 rows and columns for first_minor); beyond that refuted",
 "C101": "commutativity, the order and all laws on small fractions hold outright; the other laws hold unless one side aborts, and there are fractions where exactly one side does (refuted)",
 "C102": "each container is shown as the flags ask if and only if each number in it is (which C96 decides); ints in Vec<int> and Mat<int> always are; refuted for Frac and Vec<Int> by -1/2 under showpos and 1000000001 in base 16",
 "C103": "also shows that treating a Mat as a value in MatModel is sound: the results agree function by function, with an operand that is the object itself where the C++ permits one",
 "C104": "a negative exponent, or one with a halving equal to a power of the radix or its successor, is only claimed to give some power (C17-C19, C88 say which); the calls that may assert are listed by may_assert",
 "C105": "the characters consumed before invalid_argument is thrown are not modelled",
 "C106": "all bounds are reached (examples)",
 "C107": "copies and moves of elements are not counted",
 "C108": "int and double have no default constructor; new T[n] leaves their values indeterminate",
 "C109": "outcomes other than success are part of the statement; which sums are undefined is C55",
 "C110": "0/0 itself (left in the object that threw) as an operand is not covered; C110_infinities_refuted shows -1/0 < 1/0 is false and 1/0 <= -1/0 is true, so the order is not the one of the extended line",
 "C111": "the operators of Int leave the element as it was when they throw, so only Frac differs from VecModel and MatModel",
 "C112": "insertion as libstdc++ and glibc do it (printf %f, %e, %g, %a); negative zero has a sign, NaN has none",
 "C113": "each statement in its own try block; a failed assertion ends the program; exponents for which Int::operator^ is wrong (C18, C59) are excluded",
 "C114": "reading is specified, not modelled: the library never parses a double; insertion as in C112",
 "C115": "results that are zero, infinite or NaN are not covered (C92 shows that zero may be wrong)",
 "C116": "Proved for every n and c. The multipliers in B may grow, as without a choice of the largest pivot they must; the bound is in terms of them.",
 "C117": "Proved for all programs. Printing, conversions between element types, /= on fractions, and Vec and Mat of double are not among the calls.",
 "C118": "Proved, both directions.",
 "C119": "Proved. The rounds counted are those of the loops written in Int.cpp and Int.hpp, copy constructor included; work inside std::deque and std::swap is not counted.",
 "C120": "Partial because the statement that x /= y keeps x, or leaves a normal form, is false of the code (C120_left_refuted). The object left behind by an exception is modelled for /= and times_power_ten; += and -= on well-formed Ints with redundant bins are compared only where they return.",
 "C121": "Partial because a compound assignment that throws can leave a zero denominator (C121_left_refuted). What is left is described for reduced fractions; for others only how the call ends.",
 "C122": "Partial because with elements that allocate the constructors that copy elements lose their array when a copy fails (C122_leak_refuted).",
 "C123": "Memory is counted in elements of arrays, without overhead; copies that C++11 may elide are elided, as in HeapModel.",
 "C124": "Requests are placed wherever memory may be needed, so the model has more failing runs than a library that allocates in blocks. Computations with local objects count as one request each. What a failed std::deque assignment leaves is a parameter; half_gnu is read off libstdc++, which is not part of the repository.",
 "C125": "Requests and deques as in C124. The denominator of the operands is not assumed to be positive.",
 "C126": "Rounds as in C119: what one round or one deque operation costs in machine time is not modelled.",
 "C127": "The numbers inside the division loop other than the dividend are compared with unbounded integers; the theorem on long dividends asks for a divisor of fewer than 2^31 bins.",
 "C128": "Determinant, rref and inverse of Mat<Frac> do not compile and are left out. Entries with redundant zeros in front (left by *=) are covered by the clause on results only; an example shows the general claim fails for them.",
 "C129": "Comparisons, printing and std::list::merge meet no assertion and are those of PolyModel.",
 "C130": "C130_kept_refuted: an exception can lose the sign of an Int. Running out of memory is C124.",
 "C131": "C131_kept_refuted: an exception can change the value of a Frac. Reading from streams and doubles is C121.",
 "C132": "C132_cross_refuted: with elements 1/0 (made by /= 0) the order of the two products of a cross product's element is visible. Element orders inside dot and the matrix product have one product each and leave nothing open.",
 "C133": "A round is one iteration of a loop of the library's own code; stringstream's work inside peek, get and operator<< is not counted.",
 "C134": "The strong guarantee is refuted (C134_kept_refuted: 2/3 x *= 5/7 x^2 y can leave 2/3 x^3). Division of Frac elements is for nonzero divisors.",
 "C135": "Undefined behaviour of calls that look for a place among terms remains (C55, C109). That a caught exception leaves values alone is refuted (C135_kept_refuted).",
 "C136": "determinant(), rref() and inverse() are left out: over Int they do not mean what their names say (C89). That a caught exception leaves the vector alone is refuted (C136_kept_refuted).",
 "C137": "inplace_rref() in both builds is that of MatModel.v, which leaves the element whose operator throws as it was. The converse is refuted (C137_converse_refuted).",
 "C138": "Compound assignments leave the element whose operator throws as that operator leaves it, in both builds.",
 "C139": "The converse is refuted (C139_converse_refuted). C131_same said this only for statements that return.",
 "C140": "C135_same said this only for calls that return."
}
