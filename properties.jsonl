{"id": "C01", "title": "Int from a 64-bit integer is exact", "statement": "Int(k) denotes exactly k, for every 64-bit signed k; INT64_MIN is the one argument for which the constructor has undefined behaviour (it computes -k).", "quantifier": "every int64 value k", "why_tests_cant": "2^64 inputs; the tests build a few dozen", "anchors": ["src/Int.cpp:Int::Int(int64_t,size_t)"]}
{"id": "C02", "title": "Shift constructors multiply by a power of 10^9", "statement": "Int(k, s) and Int(x, s) denote k*10^(9 s) and x*10^(9 s).", "quantifier": "every int64 k / every Int x, every shift s", "why_tests_cant": "shift and value are unbounded; tests use shift 2 only", "anchors": ["src/Int.cpp:Int::Int(int64_t,size_t)", "src/Int.cpp:Int::Int(const Int&,size_t)"]}
{"id": "C03", "title": "Int(string) accepts exactly [-][0-9]+ and is exact", "statement": "Int(s) returns the integer written in s when s is an optional '-' followed by one or more decimal digits, and throws invalid_argument for every other string; no other outcome.", "quantifier": "every byte string s of any length", "why_tests_cant": "the set of strings is infinite; tests try a handful of malformed ones", "anchors": ["src/Int.cpp:Int::Int(const std::string&)", "src/Int.cpp:Int::read", "src/Int.cpp:parse_int"]}
{"id": "C04", "title": "Printing an Int gives its canonical decimal numeral", "statement": "Streaming an Int in canonical form to a default-formatted ostream appends '-' iff it is negative, followed by the unique decimal numeral without leading zeros of its absolute value.", "quantifier": "every canonical Int", "why_tests_cant": "unbounded values; bin boundaries (zero bins, short bins) are where padding errors hide", "anchors": ["src/Int.cpp:Int::print"]}
{"id": "C05", "title": "print / parse round trip", "statement": "Parsing what printing an Int produced gives back the same Int, and printing a parsed string gives the canonical form of that string.", "quantifier": "every canonical Int; every numeral string", "why_tests_cant": "unbounded values", "anchors": ["src/Int.cpp:Int::print", "src/Int.cpp:Int::read"]}
{"id": "C06", "title": "Stream extraction takes the longest integer prefix and fails cleanly", "statement": "in >> x on a good stream consumes exactly the longest prefix of the form [-][0-9]+, stores its value and does not set failbit; when the stream does not start with such a prefix, failbit is set and x keeps its value; when the stream is already not good, x keeps its value and failbit is set.", "quantifier": "every stream content and stream state, every previous value of x", "why_tests_cant": "all contents and all three stream state bits", "anchors": ["src/Int.cpp:Int::read"]}
{"id": "C07", "title": "Relational operators are the integer order whatever the representation", "statement": "x<y, x>y, x<=y, x>=y, x==y, x!=y (and cmp in {-1,0,1}) agree with the order on the denoted integers, also for operands with redundant zero bins or a negative-zero sign flag.", "quantifier": "every pair of well-formed Ints, canonical or not", "why_tests_cant": "all pairs of representations; tests compare single-bin values", "anchors": ["src/Int.cpp:Int::cmp", "src/Int.cpp:Int::cmp_bins", "src/Int.hpp:operator<"]}
{"id": "C08", "title": "Addition is exact", "statement": "x + y denotes the sum and is canonical.", "quantifier": "every pair of canonical Ints, any number of bins", "why_tests_cant": "carry chains of unbounded length", "anchors": ["src/Int.cpp:operator+", "src/Int.cpp:Int::add"]}
{"id": "C09", "title": "Subtraction is exact", "statement": "x - y denotes the difference and is canonical.", "quantifier": "every pair of canonical Ints", "why_tests_cant": "borrow chains of unbounded length, cancellation to fewer bins", "anchors": ["src/Int.cpp:operator-", "src/Int.cpp:Int::subtract"]}
{"id": "C10", "title": "Multiplication is exact", "statement": "x * y denotes the product and is canonical (in particular never a negative zero).", "quantifier": "every pair of canonical Ints", "why_tests_cant": "unbounded sizes; zero bins in the middle; signs with zero", "anchors": ["src/Int.cpp:operator*", "src/Int.cpp:multiply", "src/Int.cpp:multiply_by_int"]}
{"id": "C11", "title": "Compound assignment agrees with the binary operators, also on the same object", "statement": "After x op= y (op in +,-,*,/,%,^) x denotes the value of x op y computed on the old values, also when x and y are the same object; it fails exactly when the binary operator fails.", "quantifier": "every pair of canonical Ints, aliased or not", "why_tests_cant": "aliasing combined with every sign/size case", "anchors": ["src/Int.cpp:Int::operator+=", "src/Int.cpp:Int::operator-=", "src/Int.cpp:Int::operator*=", "src/Int.cpp:Int::operator/=", "src/Int.cpp:Int::operator%=", "src/Int.cpp:Int::operator^="]}
{"id": "C12", "title": "Division truncates toward zero", "statement": "For y != 0, x / y returns the quotient truncated toward zero.", "quantifier": "every pair of canonical Ints with y != 0", "why_tests_cant": "only dividends with a zero bin just below a prefix smaller than the divisor misbehave: random tests hit that with probability about 10^-9", "anchors": ["src/Int.cpp:Int::divide", "src/Int.cpp:quotient_and_remainder", "src/Int.cpp:iter_quotient"]}
{"id": "C13", "title": "Exact failure domain of division", "statement": "For y != 0, x / y either returns the truncated quotient or stops at the assertion inside divide, and the latter happens exactly when |x| >= |y| and for some bin i>=1 below the top bin, bin i of x is zero while the part of |x| above bin i is smaller than |y|. In particular any dividend below 10^18 divides correctly.", "quantifier": "every pair of canonical Ints with y != 0", "why_tests_cant": "an iff over unbounded numbers", "anchors": ["src/Int.cpp:Int::divide", "src/Int.cpp:Int::cleanBins"]}
{"id": "C14", "title": "Division and modulus by zero throw and change nothing", "statement": "x / 0, x /= 0, x % 0 and x %= 0 throw divide_by_zero_error; no other divisor makes them throw it; x keeps its value.", "quantifier": "every canonical x and y", "why_tests_cant": "every x; absence of the exception for every non-zero y", "anchors": ["src/Int.cpp:Int::divide", "src/Int.cpp:modulo"]}
{"id": "C15", "title": "Modulus is floored", "statement": "For y != 0, x % y returns x - y*floor(x/y) (sign of y), whenever the internal division succeeds.", "quantifier": "every pair of canonical Ints with y != 0", "why_tests_cant": "four sign cases times unbounded sizes", "anchors": ["src/Int.cpp:modulo"]}
{"id": "C16", "title": "Quotient/remainder identity", "statement": "For y != 0: (x / y) * y + x % y == x exactly when x and y have the same sign or y divides x; otherwise the two differ by exactly y (since / truncates and % floors).", "quantifier": "every pair of canonical Ints with y != 0 whose division succeeds", "why_tests_cant": "relation between two algorithms over all inputs", "anchors": ["src/Int.cpp:Int::divide", "src/Int.cpp:modulo"]}
{"id": "C17", "title": "Exponentiation is exact", "statement": "For y >= 0, x ^ y returns x raised to the power y.", "quantifier": "every canonical x and every canonical y >= 0", "why_tests_cant": "wrong only at exponents that pass through a power of 10^9 or whose leading bits are those of 2^30: no test can wait for such an exponent on a general base, and the failures depend on the whole chain of halvings", "anchors": ["src/Int.cpp:exponentiate", "src/Int.cpp:Int::equals_int32"]}
{"id": "C18", "title": "Exponents that are powers of 10^9 give wrong powers; smaller exponents are exact", "statement": "x ^ 10^(9k) returns x for every k >= 1 (so (-1)^1000000000 is -1); x ^ y is exact for every exponent 0 <= y < 10^9.", "quantifier": "every canonical x, every k >= 1, every such y", "why_tests_cant": "exponents above 10^9", "anchors": ["src/Int.cpp:exponentiate", "src/Int.cpp:Int::equals_int32"]}
{"id": "C19", "title": "Negative exponents silently give positive powers", "statement": "For n > 0 with n < 10^9: x ^ (-n) returns x^n if n is even and x^(n+2) if n is odd; it never throws.", "quantifier": "every canonical x and every such n", "why_tests_cant": "the header leaves it open (TODO); all x, n", "anchors": ["src/Int.cpp:exponentiate"]}
{"id": "C20", "title": "times_power_ten scales exactly", "statement": "x.times_power_ten(p) multiplies by 10^p for p >= 0 and divides by 10^(-p) truncating toward zero for p < 0.", "quantifier": "every canonical x, every int32 p other than INT32_MIN", "why_tests_cant": "unbounded x, 2^32 powers", "anchors": ["src/Int.cpp:Int::times_power_ten"]}
{"id": "C21", "title": "equals_int32 decides equality with a machine integer", "statement": "x.equals_int32(v) is true iff x denotes v.", "quantifier": "every canonical x, every int32 v other than INT32_MIN", "why_tests_cant": "wrong only for multi-bin Ints whose low bins are all zero, e.g. 10^9 vs 1", "anchors": ["src/Int.cpp:Int::equals_int32"]}
{"id": "C22", "title": "equals_int32: what it really decides", "statement": "x.equals_int32(v) is true iff x denotes v*10^(9(k-1)) where k is the number of bins of x and |v| is stored in one bin; hence it is exact for v = 0 and for |x| < 10^9, and wrong for every v != 0 with |v| < 10^9 at x = v*10^9.", "quantifier": "every well-formed x, every int32 v other than INT32_MIN", "why_tests_cant": "an iff over unbounded x", "anchors": ["src/Int.cpp:Int::equals_int32"]}
{"id": "C23", "title": "set_value stores a machine integer", "statement": "After x.set_value(v), x denotes v; x is canonical iff |v| < 10^9.", "quantifier": "every int32 v other than INT32_MIN (undefined there)", "why_tests_cant": "2^32 inputs; values of magnitude 10^9 and more break the bin bound", "anchors": ["src/Int.cpp:Int::set_value"]}
{"id": "C24", "title": "Negation and sign query", "statement": "-x and x.negate() denote the opposite; negating twice restores x; zero never becomes negative; x.is_negative() iff x < 0; x.is_odd() iff x is odd.", "quantifier": "every canonical Int", "why_tests_cant": "unbounded", "anchors": ["src/Int.hpp:negate", "src/Int.hpp:is_odd", "src/Int.hpp:is_negative", "src/Int.cpp:operator-"]}
{"id": "C25", "title": "Canonical form is preserved along every history", "statement": "Starting from Ints built from 64-bit values or strings, any sequence of +, -, *, /, %, ^, unary -, +=, -=, /=, %=, ^= and copies, over any set of variables with any aliasing, leaves every variable canonical (no redundant zero bins, no bin >= 10^9, no negative zero), and every variable denotes what the same program computes over mathematical integers until a run first stops.", "quantifier": "every finite sequence of operations on every finite set of variables", "why_tests_cant": "histories are unbounded; a non-canonical intermediate only shows up several operations later", "anchors": ["src/Int.hpp:class Int", "src/Int.cpp"]}
{"id": "C26", "title": "*= keeps zero canonical", "statement": "x *= y yields a canonical Int.", "quantifier": "every pair of canonical Ints", "why_tests_cant": "fails only when x is zero and y is negative or has several bins", "anchors": ["src/Int.cpp:Int::operator*="]}
{"id": "C27", "title": "No undefined behaviour and guaranteed termination on canonical operands", "statement": "On canonical operands +, -, *, /, %, ^ (y>=0), comparison, negation, GCD never overflow a machine integer, never index a deque out of range, and always terminate.", "quantifier": "every tuple of canonical Ints", "why_tests_cant": "overflow and termination over all inputs", "anchors": ["src/Int.cpp"]}
{"id": "C28", "title": "Ring laws hold observably", "statement": "+ and * are commutative and associative, * distributes over +, 0 and 1 are neutral, x - x == 0, as decided by ==, and the printed strings are equal.", "quantifier": "every triple of canonical Ints", "why_tests_cant": "universally quantified identities", "anchors": ["src/Int.cpp:operator+", "src/Int.cpp:operator*", "src/Int.cpp:operator-"]}
{"id": "C29", "title": "Single-bin helpers are exact", "statement": "multiply_by_int(x, y, r) stores |x|*y; divide_by_int(x, y, r) stores floor(|x|/y) and throws divide_by_zero_error iff y = 0; quotient_and_remainder(y, x, q, r) stores the Euclidean quotient and remainder when x <= y < 10^9 x and stops at its assertion otherwise.", "quantifier": "every canonical x, y and every machine integer in the stated ranges", "why_tests_cant": "the binary search over q runs through all of [1,10^9)", "anchors": ["src/Int.cpp:multiply_by_int", "src/Int.cpp:divide_by_int", "src/Int.cpp:quotient_and_remainder", "src/Int.cpp:iter_quotient"]}
{"id": "C30", "title": "Stream formatting state", "statement": "Printing an Int honours setw/setfill like a built-in integer and leaves the stream's fill character unchanged.", "quantifier": "every Int and every width / fill", "why_tests_cant": "interaction of stream state with the number of bins", "anchors": ["src/Int.cpp:Int::print"]}
{"id": "C31", "title": "GCD is the greatest common divisor", "statement": "Frac::GCD(a,b) returns the non-negative greatest common divisor of a and b, whenever its divisions succeed; it never throws and always terminates.", "quantifier": "every pair of canonical Ints", "why_tests_cant": "unbounded; number of Euclid steps unbounded", "anchors": ["src/Frac.cpp:Frac::GCD", "src/Frac.cpp:Frac::nochecks_gcd"]}
{"id": "C32", "title": "A constructed Frac is reduced with positive denominator", "statement": "Frac(t,b) throws divide_by_zero_error iff b = 0; otherwise, whenever it returns, it denotes t/b, its denominator is positive and numerator and denominator are coprime.", "quantifier": "every pair of canonical Ints", "why_tests_cant": "unbounded", "anchors": ["src/Frac.hpp:Frac(const Int&,const Int&)", "src/Frac.cpp:Frac::normalize"]}
{"id": "C33", "title": "Frac arithmetic is exact", "statement": "f+g, f-g, f*g, f/g and the mixed Int forms denote the exact rational result in reduced form whenever they return; f/g throws divide_by_zero_error iff g = 0.", "quantifier": "every pair of reduced Fracs / Ints", "why_tests_cant": "unbounded", "anchors": ["src/Frac.hpp:operator+", "src/Frac.hpp:operator-", "src/Frac.hpp:operator*", "src/Frac.hpp:operator/"]}
{"id": "C34", "title": "Frac comparisons are the rational order and always return", "statement": "f==g, !=, <, >, <=, >= agree with the order of the denoted rationals and never fail.", "quantifier": "every pair of reduced Fracs", "why_tests_cant": "unbounded", "anchors": ["src/Frac.hpp:operator==", "src/Frac.hpp:operator<"]}
{"id": "C35", "title": "Frac compound assignment agrees with the binary operator, also on the same object", "statement": "f op= g leaves in f the value of f op g (op in +,-,*,/, with Frac or Int right operand), also when f and g are the same object; /= by zero throws divide_by_zero_error.", "quantifier": "every pair of reduced Fracs", "why_tests_cant": "aliasing; zero divisors", "anchors": ["src/Frac.cpp:operator+=", "src/Frac.cpp:operator-=", "src/Frac.cpp:operator*=", "src/Frac.cpp:operator/="]}
{"id": "C36", "title": "Frac powers", "statement": "f ^ n denotes f^n for every integer n (throwing divide_by_zero_error iff f = 0 and n < 0), and f ^= n leaves the same value in f.", "quantifier": "every reduced Frac f and every canonical n whose magnitude is an exponent at which Int powers are right (C17; every |n| < 10^9)", "why_tests_cant": "negative exponents are not tested at all", "anchors": ["src/Frac.cpp:operator^", "src/Frac.cpp:operator^="]}
{"id": "C37", "title": "Frac(string) accepts exactly the empty string, INT and INT/INT with non-zero denominator", "statement": "and denotes the written rational; every other string throws invalid_argument.", "quantifier": "every byte string", "why_tests_cant": "infinite set of strings", "anchors": ["src/Frac.cpp:Frac::Frac(const string&)"]}
{"id": "C38", "title": "Frac print / read round trip", "statement": "Extracting a Frac from the text printed for f yields f, and leaves the stream not failed.", "quantifier": "every reduced Frac f", "why_tests_cant": "unbounded", "anchors": ["src/Frac.cpp:Frac::print", "src/Frac.cpp:Frac::read"]}
{"id": "C39", "title": "Frac extraction never yields an invalid fraction", "statement": "After in >> f, f is reduced with positive denominator; if extraction fails f keeps its value.", "quantifier": "every stream content, every previous f", "why_tests_cant": "all inputs, e.g. a zero denominator", "anchors": ["src/Frac.cpp:Frac::read"]}
{"id": "C40", "title": "reciprocal inverts", "statement": "f.reciprocal() denotes 1/f, throws divide_by_zero_error iff f = 0, and is an involution.", "quantifier": "every reduced Frac", "why_tests_cant": "unbounded", "anchors": ["src/Frac.hpp:Frac::reciprocal"]}
{"id": "C41", "title": "from_double is the decimal rounding of the double", "statement": "from_double(x,p) for finite x and p>=1 denotes x rounded to p decimals (error at most half a unit of the p-th decimal) and throws invalid_argument for infinities and NaN; for p = 0 it stays defined.", "quantifier": "every double and every precision", "why_tests_cant": "2^64 doubles times all precisions", "anchors": ["src/Frac.cpp:Frac::from_double"]}
{"id": "C42", "title": "Reduced form is preserved along every history of Frac operations", "statement": "Starting from constructed Fracs, any sequence of Frac operators with any aliasing (division by zero excluded) leaves every variable reduced with positive denominator and denoting what the same program computes over the rationals.", "quantifier": "every finite sequence of operations", "why_tests_cant": "unbounded histories", "anchors": ["src/Frac.cpp", "src/Frac.hpp"]}
{"id": "C43", "title": "Vec arithmetic is element-wise and size-checked", "statement": "x+y, x-y, x+=y, x-=y (also with y the same object) act element-wise and throw invalid_argument iff the sizes differ, leaving x unchanged in that case; a*x, x*a, x/a, x*=a, x/=a scale every element.", "quantifier": "every element type with exact operations, every length", "why_tests_cant": "all lengths, all values", "anchors": ["src/Vec.hpp"]}
{"id": "C44", "title": "Scaling a Vec in place by one of its own elements", "statement": "x *= x[k] and x /= x[k] scale every element by the value x[k] had before the operation.", "quantifier": "every vector and index", "why_tests_cant": "aliasing of the scalar with an element", "anchors": ["src/Vec.hpp:operator*=", "src/Vec.hpp:operator/="]}
{"id": "C45", "title": "dot is the symmetric bilinear inner product", "statement": "x.dot(y) is the sum of products, symmetric, bilinear, and throws invalid_argument iff sizes differ.", "quantifier": "every pair of vectors over every commutative ring, every length", "why_tests_cant": "universal identities", "anchors": ["src/Vec.hpp:dot"]}
{"id": "C46", "title": "cross and the triple products satisfy the vector identities", "statement": "cross is defined exactly for size 3 (invalid_argument otherwise), is anticommutative, orthogonal to both operands, satisfies Lagrange's identity; vector_triple_product(x,y,z) = y(x.z) - z(x.y); scalar_triple_product is the 3x3 determinant, invariant under rotation of the arguments.", "quantifier": "every triple of vectors over every commutative ring", "why_tests_cant": "universal identities", "anchors": ["src/Vec.hpp:cross", "src/Vec.hpp:scalar_triple_product", "src/Vec.hpp:vector_triple_product"]}
{"id": "C47", "title": "Vec construction, concatenation, equality and printing", "statement": "constantVec(n,v) has n elements v; concatenate appends; == holds iff sizes and all elements agree; setEntries(array,n) throws iff n is smaller than the size and otherwise copies; printing gives the elements separated by ', ' in parentheses.", "quantifier": "every length and contents", "why_tests_cant": "all lengths", "anchors": ["src/Vec.hpp"]}
{"id": "C48", "title": "Mat element-wise operations, product, transpose, trace", "statement": "+, -, unary -, scalar *, /, their compound forms, matrix product (also a*=a), transpose and trace compute the mathematical operation, and throw domain_error iff the dimensions do not fit.", "quantifier": "all dimensions, all entries of every commutative ring/field", "why_tests_cant": "all dimensions", "anchors": ["src/Mat.hpp"]}
{"id": "C49", "title": "Cofactor expansion is the determinant", "statement": "row_cofactor_expansion() and col_cofactor_expansion() both return the determinant of a square matrix with at least one row, over any commutative ring, and throw domain_error for non-square ones.", "quantifier": "all sizes >= 1, all entries of every commutative ring", "why_tests_cant": "recursion over all sizes", "anchors": ["src/Mat.hpp:row_cofactor_expansion", "src/Mat.hpp:col_cofactor_expansion", "src/Mat.hpp:first_minor"]}
{"id": "C50", "title": "determinant() is the determinant over a field", "statement": "determinant() returns the determinant of every square matrix with entries in a field, never divides by zero, and throws domain_error iff the matrix is not square.", "quantifier": "all sizes, all entries of every field", "why_tests_cant": "row swaps, skipped columns and singular cases at all sizes", "anchors": ["src/Mat.hpp:determinant"]}
{"id": "C51", "title": "rref() is the reduced row echelon form", "statement": "rref() returns a matrix in reduced row echelon form obtained from the argument by invertible row operations (same row space), never dividing by zero.", "quantifier": "all dimensions, all entries of every field", "why_tests_cant": "all pivot patterns", "anchors": ["src/Mat.hpp:inplace_rref", "src/Mat.hpp:rref"]}
{"id": "C52", "title": "inverse() inverts exactly the invertible matrices", "statement": "inverse() returns the two-sided inverse when the matrix is invertible and throws domain_error when it is singular or not square.", "quantifier": "all sizes, all entries of every field", "why_tests_cant": "all singular and non-singular patterns", "anchors": ["src/Mat.hpp:inverse"]}
{"id": "C53", "title": "determinant() on truncating integer types", "statement": "On Mat<Int> determinant() returns the determinant.", "quantifier": "all square integer matrices", "why_tests_cant": "needs a matrix whose elimination leaves fractions", "anchors": ["src/Mat.hpp:determinant"]}
{"id": "C54", "title": "Multiplying terms adds exponents and multiplies coefficients", "statement": "In f*g, t*f, t*u, t*=f, t*=u (also t*=t) each variable's exponent is the sum of its exponents and the coefficient is the product; each variable occurs once and factors are kept in increasing variable order.", "quantifier": "every pair of factors/terms with canonical exponents", "why_tests_cant": "unbounded numbers of variables and exponents", "anchors": ["src/Poly.hpp:Term::appendFactor", "src/Poly.hpp:operator*"]}
{"id": "C55", "title": "Adding a term to a polynomial adds its value", "statement": "After p.appendTerm(t), and for f+g, f-g, t+u, t-u, +=, -=, the polynomial's value at every valuation is the sum (difference), and the operation is defined for all arguments.", "quantifier": "every polynomial, term and valuation", "why_tests_cant": "appendTerm dereferences end() for every term that sorts after all present ones", "anchors": ["src/Poly.hpp:Poly::appendTerm"]}
{"id": "C56", "title": "Term order is a strict weak ordering", "statement": "Term < is irreflexive, asymmetric and transitive, as std::list::merge and the sorted insertion need.", "quantifier": "every triple of terms", "why_tests_cant": "needs specific pairs of multi-variable terms", "anchors": ["src/Poly.hpp:operator<(Term)"]}
{"id": "C57", "title": "Factor order is a strict total order", "statement": "Factor < is the lexicographic order on (id, power): irreflexive, transitive, total with ==.", "quantifier": "every triple of factors", "why_tests_cant": "universal", "anchors": ["src/Poly.hpp:operator<(Factor)"]}
{"id": "C58", "title": "float_cmp follows the sign convention of a comparison", "statement": "float_cmp(x,y) returns -1 when x is less than y by more than EPSILON, 1 when it is greater by more than EPSILON, 0 otherwise; isFinite is true exactly for finite doubles.", "quantifier": "every pair of doubles", "why_tests_cant": "2^128 pairs, NaN and infinities", "anchors": ["src/common.cpp:float_cmp", "src/common.cpp:isFinite"]}
{"id": "C59", "title": "Exponents whose leading bits are those of 2^30 stop at an assertion", "statement": "x ^ y stops at an assertion failure, for every x, whenever floor(y/2^t) = 2^29 for some t >= 1 (for example y = 2^30) and no halving of y is a power of 10^9 or its successor.", "quantifier": "every canonical x, every such y", "why_tests_cant": "exponents above 2^30", "anchors": ["src/Int.cpp:exponentiate", "src/Int.cpp:divide_by_int", "src/Int.cpp:Int::subtract"]}
{"id": "C60", "title": "Mat construction, entry setting, special matrices and minors", "statement": "Constructing, copying or assigning a matrix gives every entry its documented value; setEntries(ptr, size) takes rows*cols values in row-major order and throws std::domain_error, leaving the matrix alone, when size is smaller; identityMatrix, diagonalMatrix, augmentedMatrix, first_minor and cofactor give the matrices their names say; == holds exactly when dimensions and all entries agree, and != is its negation.", "quantifier": "all dimensions, all entries, every element type with exact operators", "why_tests_cant": "any dimension and any entries", "anchors": ["src/Mat.hpp:Mat<T>::Mat", "src/Mat.hpp:setEntries", "src/Mat.hpp:identityMatrix", "src/Mat.hpp:diagonalMatrix", "src/Mat.hpp:augmentedMatrix", "src/Mat.hpp:first_minor", "src/Mat.hpp:cofactor", "src/Mat.hpp:operator=="]}
{"id": "C61", "title": "Printed form of a matrix", "statement": "operator<< of a matrix writes exactly the rows, each entry in its printed form, with the separators and line breaks of the code, for any dimensions.", "quantifier": "all dimensions, all entries", "why_tests_cant": "any dimension and any entries", "anchors": ["src/Mat.hpp:operator<<"]}
{"id": "C62", "title": "Printed form of a factor", "statement": "operator<< of a factor writes the variable's name, followed by ^ and the power in decimal unless the power is 1.", "quantifier": "every factor with a canonical power, every stream without a width", "why_tests_cant": "powers are unbounded; only powers of 10^9 show the defect", "anchors": ["src/Poly.hpp:operator<<(Factor)"]}
{"id": "C63", "title": "Printed form of a term", "statement": "operator<< of a term writes 0 for a zero coefficient; otherwise the coefficient as (n/d), left out when it is 1 (a lone 1 is written 1), and the printed factors in order, separated by ' * '.", "quantifier": "every term, every stream without a width", "why_tests_cant": "any number of variables, any exponents", "anchors": ["src/Poly.hpp:operator<<(Term)"]}
{"id": "C64", "title": "Printed form of a polynomial", "statement": "operator<< of a polynomial writes the printed forms of its terms in order, separated by ' + ' (nothing for the empty polynomial).", "quantifier": "every polynomial whose exponents are not powers of 10^9 above 1 (and, with the terms' actual text, every polynomial), every stream without a width", "why_tests_cant": "any number of terms", "anchors": ["src/Poly.hpp:operator<<(Poly)"]}
{"id": "C65", "title": "Term == compares variables and exponents only", "statement": "t == u is true exactly when the same variables occur in both with the same exponents, whatever the coefficients, and exactly when neither t < u nor u < t.", "quantifier": "every pair of terms", "why_tests_cant": "universal", "anchors": ["src/Poly.hpp:operator==(Term)"]}
{"id": "C66", "title": "appendTerms merges", "statement": "p.appendTerms(l) is defined for polynomials built by appendTerm, its value is the sum of the values, no term is lost or invented, and the result is again sorted.", "quantifier": "every polynomial and list of terms", "why_tests_cant": "std::list::merge has undefined behaviour on unsorted lists; needs specific multi-variable terms", "anchors": ["src/Poly.hpp:Poly::appendTerms"]}
{"id": "C67", "title": "Like terms are combined by appendTerm", "statement": "Starting from a polynomial in which every term is less than all later ones (such as a single term), any sequence of appendTerm calls that returns leaves it so; in particular no two terms have the same variables and exponents, a term like a present one is added to it, any other is inserted, and numTerms changes by 0 or 1 accordingly.", "quantifier": "every such polynomial, every sequence of terms", "why_tests_cant": "depends on the whole sequence of terms and on an order that is not transitive", "anchors": ["src/Poly.hpp:Poly::appendTerm"]}
{"id": "C68", "title": "A polynomial can be built from a vector", "statement": "Poly(vector<Term>) and Poly(vector<Factor>) give the sum of the elements; Poly(factor) and Poly(term) give the one-term polynomial.", "quantifier": "every vector", "why_tests_cant": "undefined behaviour may look as if it worked", "anchors": ["src/Poly.hpp:Poly::Poly"]}
{"id": "C69", "title": "float_equals is equality up to EPSILON", "statement": "For finite doubles float_equals(x,y) is 1 exactly when |x-y| <= EPSILON - 2^-70 (half a unit below EPSILON) and 0 otherwise, so doubles EPSILON or more apart are never equal; it is symmetric, implies float_cmp(x,y) == 0, and is 0 whenever an argument is NaN or infinite.", "quantifier": "every pair of doubles", "why_tests_cant": "2^128 pairs; the rounding of the difference matters only in the last place", "anchors": ["src/common.hpp:float_equals"]}
{"id": "C70", "title": "Vec<int>: exact, and undefined exactly on overflow", "statement": "Each of +, -, +=, -= (also x += x), scaling, division, dot and cross on Vec<int> returns the exact result when every intermediate int result is representable (for a division: non-zero divisor and not INT_MIN / -1), and is undefined otherwise; dot is exact whenever the sum of |x_i y_i| fits in an int.", "quantifier": "every two vectors of ints of equal size and every int scalar", "why_tests_cant": "overflow depends on the order of the partial sums, and undefined behaviour may look right", "anchors": ["src/Vec.hpp:operator+", "src/Vec.hpp:operator-", "src/Vec.hpp:operator*=", "src/Vec.hpp:operator/=", "src/Vec.hpp:dot", "src/Vec.hpp:cross"]}
{"id": "C71", "title": "Mat<int>: exact, and undefined exactly on overflow", "statement": "Each of +, -, unary -, +=, -=, scaling, division, matrix product and trace on Mat<int> returns the exact result when every intermediate int result is representable and is undefined otherwise; an n x m by m x p product with entries up to a and b is exact when m*a*b fits; determinant() of sizes 1 and 2 is exact unless one of its products or the difference overflows.", "quantifier": "every pair of matrices of ints of fitting sizes and every int scalar", "why_tests_cant": "overflow depends on all partial sums of all entries", "anchors": ["src/Mat.hpp:operator+", "src/Mat.hpp:operator-", "src/Mat.hpp:operator*", "src/Mat.hpp:trace", "src/Mat.hpp:determinant"]}
{"id": "C72", "title": "Cofactor expansion on Mat<int>", "statement": "row_cofactor_expansion() and col_cofactor_expansion() of a Mat<int> return the determinant or are undefined; they return it whenever n! * b^n fits in an int for a bound b on the entries (for example entries up to 10, sizes up to 6).", "quantifier": "every square matrix of ints", "why_tests_cant": "whether an intermediate minor overflows cannot be seen from the result", "anchors": ["src/Mat.hpp:row_cofactor_expansion", "src/Mat.hpp:col_cofactor_expansion"]}
{"id": "C73", "title": "norm of a Vec<int>", "statement": "norm() of a Vec<int> is the integer part of the square root of the sum of squares, and norm<double>() is the double nearest to that square root; both are undefined exactly when the sum of squares exceeds INT_MAX.", "quantifier": "every vector of ints of any size", "why_tests_cant": "the square root is computed in double and truncated: one wrongly rounded root of 2^31 would be off by one", "anchors": ["src/Vec.hpp:norm"]}
{"id": "C74", "title": "unit_vector of a Vec<int>", "statement": "unit_vector() of a Vec<int> divides each element, truncating, by the integer part of the length; it is undefined exactly when the sum of squares exceeds INT_MAX or the vector is non-empty and all zero.", "quantifier": "every vector of ints of any size", "why_tests_cant": "the undefined cases depend on all elements together", "anchors": ["src/Vec.hpp:unit_vector"]}
{"id": "C75", "title": "Vec<int> from Vec<double>", "statement": "Constructing a Vec<int> from a Vec<double> truncates every element towards zero, and is undefined exactly when some element is infinite, NaN, or truncates to a number outside int.", "quantifier": "every vector of doubles", "why_tests_cant": "all doubles, including those next to -2^31 - 1 and 2^31", "anchors": ["src/Vec.hpp:Vec"]}
{"id": "C76", "title": "Error of dot on Vec<double>", "statement": "If dot() of two Vec<double> is finite then all elements are finite and the result differs from the exact sum of products by at most ((1+u)^(n+1)-1) * sum|x_i y_i| + n (1+u)^n 2^-1075, where u = 2^-53.", "quantifier": "every pair of vectors of doubles of the same size", "why_tests_cant": "a bound on rounding errors over all doubles", "anchors": ["src/Vec.hpp:dot"]}
{"id": "C77", "title": "norm of a Vec<double>", "statement": "norm() of a Vec<double> is NaN exactly when an element is NaN, is never negative, and when finite its square differs from the exact sum of squares by at most ((1+u)^(n+3)-1) * sum x_i^2 + n (1+u)^(n+2) 2^-1075; with some |x_j| >= 2^-511 it is no less than any |x_i|.", "quantifier": "every vector of doubles", "why_tests_cant": "a bound on rounding errors over all doubles", "anchors": ["src/Vec.hpp:norm"]}
{"id": "C78", "title": "Length of a non-zero Vec<double> is positive and found if it is a double", "statement": "norm() of a vector of finite doubles is positive when an element is not zero, and finite when the length is not greater than the largest double.", "quantifier": "every vector of finite doubles", "why_tests_cant": "fails only for elements below 2^-511 or above 2^511", "anchors": ["src/Vec.hpp:norm"]}
{"id": "C79", "title": "unit_vector of a Vec<double>", "statement": "If norm() is finite and some |x_j| >= 2^-511, every element of unit_vector() is the double nearest to x_i / norm(), lies in [-1, 1], and the sum of their squares differs from 1 by at most (2n+6) 2^-53 for n up to 2^20.", "quantifier": "every vector of doubles", "why_tests_cant": "that no quotient is rounded above 1 depends on how sqrt(x*x) rounds for every x", "anchors": ["src/Vec.hpp:unit_vector"]}
{"id": "C80", "title": "Vec<double> is exact where exact arithmetic meets only doubles", "statement": "If evaluating a Vec operation (sums, differences, scaling, division, dot, cross, ==, and the in-place forms, also with the vector itself or one of its elements as operand) in rational arithmetic meets only numbers that are doubles, the same operation on Vec<double> returns exactly those numbers.", "quantifier": "every vector of finite doubles and every test for being a double", "why_tests_cant": "any unrounded computation on doubles, not a list of cases", "anchors": ["src/Vec.hpp:operator+", "src/Vec.hpp:operator*", "src/Vec.hpp:dot", "src/Vec.hpp:cross"]}
{"id": "C81", "title": "Mat<double> is exact where exact arithmetic meets only doubles", "statement": "If evaluating a Mat operation (sums, scaling, product, trace, transpose, ==, minors, cofactor expansions, determinant, rref, inverse) in rational arithmetic meets only numbers that are doubles, the same operation on Mat<double> takes the same branches and returns exactly those numbers.", "quantifier": "every matrix of finite doubles and every test for being a double", "why_tests_cant": "the branches of the elimination depend on comparisons of computed doubles", "anchors": ["src/Mat.hpp:operator*", "src/Mat.hpp:determinant", "src/Mat.hpp:inplace_rref", "src/Mat.hpp:inverse"]}
{"id": "C82", "title": "Integers in Vec<double> and Mat<double>", "statement": "With integers as elements, sums and differences are exact while the results are at most 2^53 in magnitude; dot and the matrix product while the sum of the magnitudes of the products is; both cofactor expansions return the determinant while n! b^n <= 2^53 for entries up to b. 2^53 cannot be raised.", "quantifier": "every vector and matrix of integer-valued doubles within the bounds", "why_tests_cant": "sizes and entries up to 2^53", "anchors": ["src/Vec.hpp:dot", "src/Mat.hpp:operator*", "src/Mat.hpp:row_cofactor_expansion", "src/Mat.hpp:col_cofactor_expansion"]}
{"id": "C83", "title": "determinant, rref and inverse of Mat<double> are the true ones when nothing is rounded", "statement": "If the elimination in rational arithmetic meets only doubles, determinant() returns the determinant, rref() a matrix in reduced row echelon form that is row equivalent to the argument, and inverse() the inverse. For an upper triangular matrix without zeros on the diagonal it is enough that the products along the diagonal are doubles.", "quantifier": "every matrix of finite doubles of every size", "why_tests_cant": "relates floating-point elimination of every size to the determinant over the rationals", "anchors": ["src/Mat.hpp:determinant", "src/Mat.hpp:rref", "src/Mat.hpp:inverse"]}
{"id": "C84", "title": "Debug text of a deque of bins", "statement": "operator<< on a deque<int32_t> writes Deque[b0, b1, ...] with each bin in canonical decimal, pads only the opening piece to the field width, keeps the fill character, and the text determines the bins.", "quantifier": "every deque of int32 values, every width and fill", "why_tests_cant": "all lengths and all 2^32 values per bin", "anchors": ["src/Int.cpp:operator<<(deque)"]}
{"id": "C85", "title": "Int::shift and access from the back", "statement": "shift(n) multiplies by B^n and is what Int(x, n) constructs, and keeps canonical form unless x is zero; get_bin_from_back and set_bin_from_back address bin size-1-i, with an exception (get) and undefined behaviour (set) exactly when there is no such bin; max is the maximum.", "quantifier": "every Int, every shift, every int32 index", "why_tests_cant": "index arithmetic is unsigned and wraps", "anchors": ["src/Int.hpp:shift", "src/Int.hpp:set_bin_from_back", "src/Int.hpp:get_bin_from_back", "src/common.hpp:max"]}
{"id": "C86", "title": "testOutput", "statement": "testOutput returns true and writes nothing when the printed text is the expected one; otherwise it returns false and writes one line FAILED: text : expected. An Int passes exactly against its canonical decimal text, a Frac in lowest terms exactly against (p/q).", "quantifier": "every type whose printing returns, every expected text, every state of cout", "why_tests_cant": "the checker is what the other tests rely on", "anchors": ["src/common.hpp:testOutput"]}
{"id": "C87", "title": "Printed Vecs and Mats are unambiguous", "statement": "Two Vecs of int, Int or Frac with the same text are equal; two Mats with at least one column and the same text have the same rows, columns and entries.", "quantifier": "every pair of vectors and matrices of canonical elements", "why_tests_cant": "injectivity quantifies over pairs", "anchors": ["src/Vec.hpp:operator<<", "src/Mat.hpp:operator<<"]}
{"id": "C88", "title": "What a power is, for every exponent", "statement": "For y >= 0, x ^ y is x^e where e = y - 2^j (10^(9k) - 1) for the first halving floor(y/2^j) that the code takes for 1 (10^(9k)+1, or 10^(9k) reached within 29 halvings or with a one among the last 29 bits shifted out), e = y if there is none and no halving j >= 1 is 2^29, and otherwise it stops at an assertion. For y = -n < 0 the same holds of n (n + 1 if n is odd, with one more factor x), looking at j >= 1 only. Frac powers use the same e for numerator and denominator; f ^= n uses |n|.", "quantifier": "every canonical x, every canonical exponent of either sign, every reduced Frac", "why_tests_cant": "exponents above 10^9, where the outcome depends on the whole chain of halvings", "anchors": ["src/Int.cpp:exponentiate", "src/Int.cpp:Int::equals_int32", "src/Int.cpp:divide_by_int", "src/Frac.cpp:operator^", "src/Frac.cpp:operator^="]}
{"id": "C89", "title": "rref() and inverse() on truncating integer types", "statement": "On Mat<Int> rref() returns a reduced row echelon form with the row space of the argument, and inverse() returns the inverse if there is one over the integers.", "quantifier": "all matrices of Int, all sizes", "why_tests_cant": "needs a pivot that does not divide its row; the wrong result is returned silently", "anchors": ["src/Mat.hpp:inplace_rref", "src/Mat.hpp:rref", "src/Mat.hpp:inverse"]}
{"id": "C90", "title": "Vec<double> and Mat<double> round each result correctly", "statement": "On finite doubles every element of x+y, x-y, x*a, x/a (a != 0), their compound forms (also x += x) and the same of matrices is the exact result rounded once: the nearest double, the even one of two equally near, the infinity from 2^1024 - 2^970 on; negation is exact. Each entry of a product of n x m by m x p matrices, if finite, is within ((1+u)^(m+1)-1) times the sum of absolute products plus m(1+u)^m 2^-1075 of the exact one, and is finite unless that sum is too large; likewise trace and cross.", "quantifier": "all vectors and matrices of finite doubles, all sizes", "why_tests_cant": "every pair of doubles, ties and the overflow threshold included", "anchors": ["src/Vec.hpp:operator+", "src/Vec.hpp:cross", "src/Mat.hpp:operator+", "src/Mat.hpp:operator*", "src/Mat.hpp:trace"]}
{"id": "C91", "title": "Laws of arithmetic on Vec<double> and Mat<double>", "statement": "+ is commutative and associative, dot is symmetric, the matrix product is associative and its transpose is the product of the transposes, trace(ab) = trace(ba), a - b == -(b - a), x cross x is zero and x is orthogonal to x cross y, and == is reflexive.", "quantifier": "all vectors and matrices of doubles, NaN and infinities included", "why_tests_cant": "laws over all operands; rounding breaks them at inputs a test is unlikely to hit", "anchors": ["src/Vec.hpp", "src/Mat.hpp"]}
{"id": "C92", "title": "determinant() and inverse() of Mat<double> under rounding", "statement": "On square matrices of finite doubles determinant() is within a small relative error of the determinant, inverse() is close to the inverse, and inverse() throws domain_error exactly when the matrix is singular.", "quantifier": "all square matrices of finite doubles", "why_tests_cant": "rounding errors appear only for particular entries; a test compares a handful of matrices", "anchors": ["src/Mat.hpp:determinant", "src/Mat.hpp:inverse", "src/Mat.hpp:inplace_rref"]}
{"id": "C93", "title": "Rounding error of cofactor expansion on Mat<double>", "statement": "On an n by n matrix of finite doubles (n at least 1) whose entries are multiples of 2^-e with n*e at most 1074 (entries that are 0 or not below 2^(52-e) are), row_cofactor_expansion and col_cofactor_expansion return a double d; if d is finite it differs from the determinant by at most ((1+2^-53)^(2+3+...+n) - 1) times the sum over all permutations of products of absolute values; and d is finite whenever entries are at most b, b at least 1, and (1+2^-53)^(2+...+n) n! b^n does not exceed the largest double.", "quantifier": "all n, all such n by n matrices of doubles", "why_tests_cant": "the error bound is over all entries and sizes; a test compares a handful of matrices", "anchors": ["src/Mat.hpp:row_cofactor_expansion", "src/Mat.hpp:col_cofactor_expansion"]}
{"id": "C94", "title": "Vec<Frac> and Mat<Frac> compute exactly or abort", "statement": "On vectors and matrices of reduced fractions +, -, +=, -=, scaling, division by a non-zero fraction, the matrix product, transpose, trace, dot and cross product return the exact rational results, all reduced, or stop at an assertion; == compares values. They do not stop if all numbers met by exact arithmetic along the way are quotients of integers up to 7*10^8.", "quantifier": "all sizes, all reduced fractions", "why_tests_cant": "whether an assertion fires depends on the intermediate values; tests use small fractions", "anchors": ["src/Mat.hpp:operator*", "src/Vec.hpp:dot", "src/Frac.cpp:operator+="]}
{"id": "C95", "title": "Dividing a Vec or Mat by zero", "statement": "Dividing a non-empty Vec or Mat of Int or Frac by a zero scalar, with / or /=, throws divide-by-zero and leaves the operand of /= as it was.", "quantifier": "all non-empty vectors and matrices of Int or of reduced fractions", "why_tests_cant": "the tests divide by non-zero scalars only", "anchors": ["src/Vec.hpp:operator/", "src/Vec.hpp:operator/=", "src/Mat.hpp:operator/", "src/Mat.hpp:operator/=", "src/Frac.cpp:operator/="]}
{"id": "C96", "title": "Printing an Int under formatting flags", "statement": "Inserting a canonical Int into a stream with no field width writes the numeral of its value that the flags of the stream ask for: base 8, 10 or 16, a sign (+ under showpos), a prefix under showbase, upper or lower case; the alignment has no effect.", "quantifier": "all canonical Ints, all combinations of the base, alignment, showpos, showbase and uppercase flags", "why_tests_cant": "the tests print to streams with default flags only; a left-aligned stream gives another plausible number, and only for some values", "anchors": ["src/Int.cpp:print"]}
{"id": "C97", "title": "Printing Vec<double> and Mat<double>", "statement": "On a stream with default flags every element of a Vec<double> or Mat<double> is written as its value rounded to six significant digits (nearest, ties to even), without trailing zeros, in exponent notation exactly when the rounded value is below 10^-4 or at least 10^6; the text is determined by this. Integers of up to six digits look as they do in a Vec<int> or Mat<int>, and the numbers shown are in the order of the doubles.", "quantifier": "all doubles, all vectors and matrices of doubles", "why_tests_cant": "the decimal exponent and ties depend on all bits of the double, and rounding can carry into the next power of ten", "anchors": ["src/Vec.hpp:operator<<", "src/Mat.hpp:operator<<"]}
{"id": "C98", "title": "Laws of matrix arithmetic between results", "statement": "When the element operations are exact (a commutative ring, or Mat<Int> with canonical entries) the results of Mat's operations satisfy the laws of matrix algebra, as equal objects: the product is associative and distributes over +, identityMatrix is neutral, + makes matrices of one shape a commutative group, transpose reverses products, trace(xy) = trace(yx), and both cofactor expansions are equal, multiplicative and invariant under transposition. Over a field also: determinant is multiplicative and agrees with cofactor expansion; inverse exists iff the determinant is not zero, is an involution, reverses products, commutes with transpose and solves x*s = b uniquely; rref is idempotent, rref(x) = rref(y) iff the row spaces agree, rref(x) is the identity iff x is invertible, and its non-zero rows are as many as the rank.", "quantifier": "all matrices of all sizes, over every commutative ring or field, and over Int", "why_tests_cant": "the laws relate several operations with different algorithms on unboundedly many sizes and values", "anchors": ["src/Mat.hpp:operator*", "src/Mat.hpp:determinant", "src/Mat.hpp:inverse", "src/Mat.hpp:rref", "src/Mat.hpp:transpose", "src/Mat.hpp:trace", "src/Mat.hpp:row_cofactor_expansion"]}
{"id": "C99", "title": "Reading several Ints from one stream", "statement": "in >> a >> b reads back two printed numbers that are separated by a character: false for every separator but a minus sign, because operator>> does not skip white space; the second extraction sets failbit and leaves its operand and the rest of the text alone. For any text and any number of extractions nothing worse happens: a prefix of the operands receives the numbers the text starts with, and the stream has failed iff some operand is left over. Numbers printed without separators are read back iff all but the first are negative; with white space between them they are read back if it is skipped with std::ws.", "quantifier": "all texts, all sequences of canonical Ints, all separators, any number of extractions", "why_tests_cant": "sequences of unbounded length and arbitrary separators", "anchors": ["src/Int.cpp:read", "src/Int.cpp:operator>>", "src/Int.cpp:print"]}
{"id": "C100", "title": "Index arithmetic of Mat in size_t and int", "statement": "With 64-bit size_t every entry of an r x c matrix lies inside the array its constructors allocate iff r*c < 2^64; then distinct entries have distinct places and the natural-number model of Mat is exact. If r*c wraps around, Mat(r, c, v) writes outside the array, and an index outside a matrix can wrap around to an entry inside. first_minor keeps indices in an int: it is exact up to 2^31 rows and columns, and beyond 2^31 rows it reads outside the array.", "quantifier": "all dimensions and indices below 2^64, all element types", "why_tests_cant": "the failing sizes need arrays of 2^32 and more elements", "anchors": ["src/Mat.hpp:offset", "src/Mat.hpp:Mat", "src/Mat.hpp:setEntries", "src/Mat.hpp:first_minor"]}
{"id": "C101", "title": "Laws of arithmetic and order between Fracs", "statement": "Between results of Frac's operators + and * are associative and * distributes over +, (x-y)+y = x, (x/y)*y = x, x/y = x*(1/y), powers add and multiply exponents, x+0 = x*1 = x, x-x = 0, x/x = 1, and < is a strict total order respected by + and by * with a positive factor: the two sides are the same object.", "quantifier": "all reduced fractions (and all exponents that the power handles exactly)", "why_tests_cant": "the sides differ only where one of them stops at an assertion, which needs operands of 10^18 and more", "anchors": ["src/Frac.hpp:operator +", "src/Frac.hpp:operator -", "src/Frac.hpp:operator *", "src/Frac.hpp:operator /", "src/Frac.hpp:reciprocal", "src/Frac.cpp:operator <", "src/Frac.cpp:normalize"]}
{"id": "C102", "title": "Formatting flags and the text of fractions, vectors, matrices and polynomials", "statement": "Inserted into a stream with any base, alignment, showpos, showbase and uppercase, a Frac, Vec, Mat, Poly or deque is written with each number in it as the flags ask; the field width is spent on the first piece only.", "quantifier": "all formatting flags, field widths and fills; all reduced fractions, vectors and matrices of Ints, fractions and ints, all terms and polynomials", "why_tests_cant": "flags x widths x values is a large product and the tests never set a flag; the failing combinations (a plus behind the minus, each group of nine digits with its own 0x) show up only for some of them", "anchors": ["src/Frac.cpp:operator <<", "src/Vec.hpp:operator <<", "src/Mat.hpp:operator <<", "src/Poly.hpp:operator <<", "src/Int.cpp:operator <<", "src/Int.cpp:print"]}
{"id": "C103", "title": "Mat neither leaks, shares nor deletes twice", "statement": "Every live Mat object has an array of its own and every live array belongs to an object, whatever a program does; each function of Mat.hpp returns the matrix of the value model in a new object (or changes only the object it is called on), leaves every other object as it was, and destroys every temporary, also when it throws.", "quantifier": "all element types, all memories with objects, all dimensions, entries and operands including the object itself; ownership: all programs over Mat objects", "why_tests_cant": "a leaked or doubly deleted array does not change any value a test compares, exceptions leave functions at many points, and the tests run a few sequences of calls", "anchors": ["src/Mat.hpp:~Mat", "src/Mat.hpp:Mat", "src/Mat.hpp:operator=", "src/Mat.hpp:swap", "src/Mat.hpp:operator*=", "src/Mat.hpp:inverse", "src/Mat.hpp:determinant", "src/Mat.hpp:row_cofactor_expansion", "src/Mat.hpp:operator<<"]}
{"id": "C104", "title": "Any sequence of public calls keeps Ints well-formed and their values right", "statement": "Starting from well-formed Ints in any representation (redundant leading zero bins, a sign on zero), any program of constructors, shifts, text and stream input, set_value, times_power_ten, negation, all operators and all compound assignments with any aliasing either ends with well-formed Ints holding the values of the same program over the integers, or throws divide_by_zero_error at a division by zero or invalid_argument at a text that is no numeral, or stops at an assertion in a call that is not a product; it never reaches undefined behaviour, never loops forever and never throws out_of_range.", "quantifier": "all programs over any number of variables, all well-formed starting states, all arguments except the minima of int64_t and int32_t and set_value outside (-10^9, 10^9)", "why_tests_cant": "the representations that *= and the shifting constructor leave behind are never fed to the other operators by the tests, and programs of calls cannot be enumerated", "anchors": ["src/Int.cpp:operator*=", "src/Int.cpp:Int(const Int&, size_t)", "src/Int.cpp:times_power_ten", "src/Int.cpp:modulo", "src/Int.cpp:divide", "src/Int.cpp:exponentiate", "src/Int.cpp:read"]}
{"id": "C105", "title": "parse_int takes the longest run of at most max_digits digits", "statement": "parse_int(ss, k) consumes exactly the longest run of at most k decimal digits at the front of ss and returns its value; it throws invalid_argument exactly when there is no digit or the value exceeds INT32_MAX; with at least k digits available, 1 <= k <= 9, it never throws and returns a value below 10^k, as Int::read relies on.", "quantifier": "all texts, all k", "why_tests_cant": "the tests reach it only through whole numerals; all texts and limits cannot be enumerated", "anchors": ["src/Int.cpp:parse_int", "src/Int.cpp:read"]}
{"id": "C106", "title": "Sizes of results and number of rounds", "statement": "A canonical Int has as many bins as its absolute value has nine-digit groups; sums and differences have at most one bin more than the longer operand, products m+n-1 or m+n bins, quotients m-n or m-n+1, remainders no more than the divisor, x^e at most e times as many as x. GCD divides at most five times per decimal digit of the smaller number (Lame), exponentiation nests at most 2k calls for exponents below 2^(k+1), and each bin of a quotient takes at most 29 halvings with at most three trial products each.", "quantifier": "all canonical Ints (for the quotient search: all pairs the long division passes to it)", "why_tests_cant": "bounds on sizes and on rounds hold for unboundedly large numbers; the worst cases are rare (Fibonacci numbers for GCD)", "anchors": ["src/Int.cpp:operator+", "src/Int.cpp:multiply", "src/Int.cpp:quotient_and_remainder", "src/Int.cpp:exponentiate", "src/Frac.cpp:nochecks_gcd"]}
{"id": "C107", "title": "Number of operations of determinant, row reduction, inverse, product and cofactor expansion", "statement": "For any element type: the determinant by elimination of an n x n matrix takes at most (n^3-n)/3 differences, (n^3-n)/3 + 2n products, (n^3-n)/3 + 1 quotients and n^2 comparisons of elements; row reduction of an r x c matrix at most min(r,c) c quotients, min(r,c) (r-1) c products and differences and r c comparisons; the inverse at most 2n^2 quotients, 2(n^3-n^2) products and differences and 3n^2 comparisons; the product of matrices exactly rows*inner*cols products and sums when it succeeds. Cofactor expansion takes at most F(n) operations, exactly F(n) on matrices without zero entries, with 3/2 n! <= F(n) < 4 n! in all (README: O(n^3) and O(n!)). The bounds also hold when the algorithm stops with an exception.", "quantifier": "all element types, all matrices and all weights of the four kinds of operations", "why_tests_cant": "a bound on the number of steps concerns all sizes; tests only see results", "anchors": ["src/Mat.hpp:237-248", "src/Mat.hpp:300-345", "src/Mat.hpp:354-400", "src/Mat.hpp:403-473", "README.md:51"]}
{"id": "C108", "title": "What Mat(rows, cols) holds before its entries are set", "statement": "Mat<Int>(r, c) and Mat<Frac>(r, c) are zero matrices; every entry of Mat<int>(r, c) and Mat<double>(r, c) is indeterminate, so reading it is undefined. Writing entries in any order leaves each entry with the last value written to it and all others as they were. While one entry of a Mat<int> or Mat<double> is unset, copying, printing, transposing, negating it, adding, subtracting and multiples of it are undefined; a matrix with all entries set is copied exactly.", "quantifier": "all dimensions, all sequences of writes within the matrix, all matrices with an unset entry", "why_tests_cant": "an uninitialised read usually returns some number; that it is undefined cannot be observed by running", "anchors": ["src/Mat.hpp:113-116", "src/Mat.hpp:107-111", "src/Mat.hpp:36-38", "src/Int.cpp:Int()", "src/Frac.cpp:Frac()"]}
{"id": "C109", "title": "Any program of calls of Factor, Term and Poly computes the meaning of its objects", "statement": "Take any Factors, Terms and Polys, and any sequence of the calls in Poly.hpp (constructors, copies, assignments through getId, getPower and coefficient, products, *= with another or the same Term, appendFactor, negate, appendTerm, appendTerms, sums and differences). Each object always stands for its meaning: a factor for a variable and a power, a term for its coefficient and the value of its monomial at every point with no zero coordinate, a polynomial for its value there. A call changes the meaning of its target as the mathematical operation does and no other object. A program stops with undefined behaviour only at a call that looks for a place in a Poly, at an assertion only at a call that computes with coefficients, and never throws.", "quantifier": "all programs (any length, any operands, aliased or not), all canonical powers and reduced coefficients, all points without a zero coordinate", "why_tests_cant": "programs, objects and points are unbounded", "anchors": ["src/Poly.hpp:14-29", "src/Poly.hpp:54-101", "src/Poly.hpp:159-189", "src/Poly.hpp:192-289"]}
{"id": "C110", "title": "Fractions that /= zero has made infinite compute as the points at infinity", "statement": "x /= 0 does not throw for a nonzero x: it leaves 1/0 or -1/0. On rationals, 1/0 and -1/0, each in-place operator with a Frac (possibly the same object) or an Int leaves the result of arithmetic with two infinities (a sum of two infinities, zero times infinity, infinity over infinity and 0/0 have none), throws DivideByZero and leaves 0/0 exactly where there is no result, and has no other outcome but a failed assertion, which cannot happen while all parts are at most 7*10^8. The operators that return a new Frac return the same results where they are rational and throw where they are infinite or there are none. The infinities are equal only to themselves, below and above every rational; comparisons always return.", "quantifier": "all reduced fractions and both infinities as either operand, all canonical Ints, aliased or not", "why_tests_cant": "unbounded operands; the states arise only after an unreported division by zero", "anchors": ["src/Frac.hpp:28-34", "src/Frac.hpp:38-45", "src/Frac.cpp:146-211"]}
{"id": "C111", "title": "What Vec<Frac> and Mat<Frac> hold after an element operation has thrown", "statement": "The in-place operators +=, -=, *=, /= of Vec<Frac> and Mat<Frac> work through the elements in order (matrices row by row, exactly as the vector of their entries). On elements that are rationals, 1/0 or -1/0, with an operand outside or inside the container, either all elements get their results, or the loop throws DivideByZero at the first element without a result: the elements before it have their results, that element is 0/0, the ones after it are untouched; no other outcome but a failed assertion. In particular v /= 0 makes the entries infinite up to the first zero entry, which throws; if none is zero nothing is reported. The plain model differs from this in no more than the element whose operator failed.", "quantifier": "all vectors and matrices of any size over rationals and infinities, all operands, aliased or not", "why_tests_cant": "unbounded sizes and entries; states after exceptions", "anchors": ["src/Vec.hpp:167-193", "src/Mat.hpp:171-178", "src/Mat.hpp:191-198", "src/Mat.hpp:214-219", "src/Mat.hpp:230-235", "src/Frac.cpp:146-182"]}
{"id": "C112", "title": "Doubles, Vec<double> and Mat<double> under any floating-point flags", "statement": "Inserting a double into a stream writes, for every setting of fixed/scientific/hexfloat/none, precision (negative counts as 6), showpoint, showpos, uppercase, alignment, width and fill, the sign and the value correctly rounded (to nearest, ties to even) to the digits asked for: p digits after the point (fixed, scientific), or P = max(1,p) significant digits in fixed or exponent notation by the exponent after rounding (general), or exactly (hexfloat); zeros at the end and the point are dropped or kept as showpoint says; padding goes left, right, or after the sign or 0x. The specification determines the text. Vec<double> and Mat<double> write their elements so; the width is used up by the opening parenthesis of a vector and by the first entry of a matrix. Default flags give the texts of C97, and the text from_double parses is the fixed one.", "quantifier": "every double, all flags, every precision, width and fill, vectors and matrices of any size", "why_tests_cant": "2^64 doubles times all flags and precisions", "anchors": ["src/Vec.hpp:114-124", "src/Mat.hpp:96-105", "src/Frac.cpp:72-98"]}
{"id": "C113", "title": "Programs of Frac calls in which every exception is caught", "statement": "Let a client program call the constructors, arithmetic (Frac and Int operands, new and in place, aliased or not), powers, reciprocal and comparisons of Frac on any objects, catching every exception and going on. Unless an assertion fails, the program shows exactly the results and exceptions of the same program over the rationals, 1/0, -1/0 and 0/0, and every object ends with the value computed there: an operator in place takes the value and throws iff it is 0/0; a function returning a new Frac gives rationals only and throws otherwise, leaving its destination alone; 0/0 spoils every sum, difference, product and quotient, is below nothing, equals only itself, and becomes 1 under ^= 0. Every object is always a reduced fraction, 1/0, -1/0 or 0/0.", "quantifier": "every program, every initial objects in the four forms, all Ints, all exponents whose power the library computes right", "why_tests_cant": "unboundedly many programs and values, including the states exceptions leave behind", "anchors": ["src/Frac.hpp:20-79", "src/Frac.cpp:100-223"]}
{"id": "C114", "title": "A double written with enough digits can be read back", "statement": "The text of a finite double, under any flags, denotes exactly one rational number (decimal notation with optional point and exponent, or base 16 with a power of two). With at least 17 significant digits (precision 17, or 16 with scientific), or at least 324 digits after the point with fixed, or with hexfloat, that number is strictly closer to the double than to any other number m*2^e with |m| < 2^53 and e >= -1074, so every correctly rounding reader returns the double. Hence with enough digits the text determines the double (including the sign of zero, infinities and NaN), the text of a Vec<double> determines the vector, and the text of a Mat<double> written at width 0 determines its dimensions and entries. One digit less is not enough: 0.3 and 0.1 + 0.2 have the same 16 digits, and 0 and the least positive double the same 323 digits after the point.", "quantifier": "every double, all flags, every sufficient precision, vectors and matrices of any size", "why_tests_cant": "2^64 doubles, each compared with every other", "anchors": ["src/Vec.hpp:114-124", "src/Mat.hpp:96-105"]}
{"id": "C115", "title": "determinant() of Mat<double> is nearly the determinant of a nearby matrix", "statement": "On an n by n matrix of doubles, n >= 3, determinant() returns a double. If that double is finite and not zero, then every entry was finite, and there are M (lower triangular with unit diagonal, rows permuted) and U (upper triangular, entries doubles, no zero on the diagonal) such that each entry of M*U differs from the given entry by at most ((1+u)^(c+1) - 1) times the sum of |M_ik U_kj| plus an underflow term, where c is the smaller of the column and the permuted row and u = 2^-53, with equality when c = 0; the exact determinant of M*U is s times the product of the diagonal of U, s = 1 or -1, and the result is s times that product multiplied in order with each product rounded. So unless a partial product underflows, the result has relative error at most (1+u)^(n-1) - 1 as determinant of M*U.", "quantifier": "all sizes n >= 3, all matrices of doubles including infinities and NaN, whichever rows are swapped", "why_tests_cant": "the error depends on every rounding of the elimination; a test compares a few matrices with their exact determinants, from which the result may be far (C92)", "anchors": ["src/Mat.hpp:357-403", "src/Mat.hpp:412-418"]}
{"id": "C116", "title": "Backward error of rref() and inverse() on matrices of doubles", "statement": "rref() of a Mat<double> always returns a matrix of doubles. If all entries of the result are finite, the given entries were finite, the result is exactly (without rounding) in reduced row echelon form, and the given matrix A is near the product of as many invertible row operations as the result R has rows that are not zero: |A - B R| <= ((1+u)^k - 1) |B||R| + (1+u)^k 2^-1075 s, where B is the product of the k steps, |B| the product of their absolute values and s sums the first, first two, ... of these products. inverse() of a square Mat<double> throws domain_error or returns a matrix Z of doubles; if Z is finite then one invertible matrix B, a product of n steps, is near A in this sense and B Z is near the identity, so A Z is near the identity too.", "quantifier": "all n x c matrices (rref) and all n x n matrices (inverse) of doubles, including infinities, NaN, subnormal numbers and singular matrices", "why_tests_cant": "Tests compare a few rounded inverses with a tolerance; the bound, that it covers underflow, and that zeros and ones of the result are exact hold for every matrix of every size.", "anchors": ["src/Mat.hpp:405-453", "src/Mat.hpp:455-473"]}
{"id": "C117", "title": "Programs of Vec and Mat calls compute what they mean", "statement": "Any program made of calls of the scalar operators, of Vec's and Mat's constructors, accessors, operators (also with the destination as operand, or one of its own elements as scalar), products, transposes, minors and expansions, in which every exception is caught, either comes to a call the language leaves undefined (an index out of range) or does the following. Over Vec<Int> and Mat<Int>, in any representation of the elements, it ends with every variable holding the value that linear algebra over the integers gives it, every exception being the documented one and changing nothing, or it stops at an assertion; without division and the elements' *= it never stops and keeps all elements canonical. Over int it does the same or overflows. Over Frac, with reduced fractions, the calls that exist for it, /= excepted, compute over the rationals or stop at an assertion. Over a field every program, determinant, rref and inverse included, ends with the values of linear algebra.", "quantifier": "all finite sequences of the 55 modelled kinds of calls, all starting values of all variables, all sizes", "why_tests_cant": "Tests run each operation once on fresh operands; that the invariant of the elements and the dimensions survive every sequence of calls, with failed and self-referring ones in between, needs an induction over programs.", "anchors": ["src/Vec.hpp:19-276", "src/Mat.hpp:19-522"]}
{"id": "C118", "title": "Printed factors, terms and polynomials can be told apart", "statement": "If no variable's name begins with a digit or a parenthesis or contains a blank or ^, two factors, terms or polynomials are printed alike exactly when they look alike: the same variables in each term, the same exponents except that all of 1, 10^9, 10^18, ... look alike, the same coefficients, all terms with coefficient zero looking alike. With exponents other than 10^9, 10^18, ... and no zero coefficient the text determines the polynomial as an object. Each condition is needed.", "quantifier": "all pairs of factors, terms and polynomials in canonical form, whatever their length, on any stream without a width", "why_tests_cant": "Tests compare the text of single objects with an expected one; that no two different objects share a text is a statement about all pairs.", "anchors": ["src/Poly.hpp:31-36", "src/Poly.hpp:103-123", "src/Poly.hpp:229-239"]}
{"id": "C119", "title": "How many rounds the loops of Int's arithmetic make", "statement": "With n >= 1 bounding the bins of both operands, comparisons make at most 2n rounds of the loops in Int.cpp and Int.hpp, + and - at most 26n, += and -= at most 23n. With n bins in the first factor and m in the second, *= makes at most m(n^2+8n+m+6) rounds, and at least m(n^2+5n+m) if no bin is zero; * the same with n the longer factor (and n+m+2 more at most). So * chooses the dearer order: if n >= 2m and m >= 6, *= onto the shorter factor makes no more rounds than either order of *. A quotient makes at most n(89m^2+2372m+5112)+3n+4m rounds, and at least 29m(m+2) for each bin of the quotient that is not zero if no bin of the divisor is. A remainder makes at most as many as a quotient and a product and linearly many more.", "quantifier": "all well-formed Ints of any length, whatever the outcome", "why_tests_cant": "Tests check results, not work; a bound on the work for all lengths, from above and below, needs an argument by induction over the loops.", "anchors": ["src/Int.cpp:130-256", "src/Int.cpp:264-305", "src/Int.cpp:323-463", "src/Int.cpp:492-511", "src/Int.cpp:543-673"]}
{"id": "C120", "title": "Int compiled without assertions", "statement": "Compiled with -DNDEBUG (CMAKE_BUILD_TYPE=Release), every arithmetic operation of Int returns whatever it returns with assertions, for all operands. On canonical operands, where an assertion would stop the program, it throws std::out_of_range instead, and nothing else changes; there is no undefined behaviour. A throwing x /= y has overwritten x: the digits of x below the one where long division stops are left, under x's sign, so the value is always lost; it can even be a negative zero (so an Int in normal form is not left). The other compound assignments, and division by zero, leave x unchanged when they throw. With redundant zero bins, where + and - would stop at an assertion, they are exact, or throw std::out_of_range where the smaller operand has more bins than the larger one needs.", "quantifier": "all Ints for the agreement; all canonical Ints for the exceptions and for what is left; all well-formed Ints for redundant bins", "why_tests_cant": "The tests are run in one build type; that two programs agree on all inputs, and what exactly a failed division leaves behind, needs an argument over every dividend and divisor.", "anchors": ["CMakeLists.txt", "src/Int.cpp:130-262", "src/Int.cpp:420-487", "src/Int.cpp:543-699"]}
{"id": "C121", "title": "Frac compiled without assertions", "statement": "Compiled with -DNDEBUG, every operation of Frac (constructors, strings, doubles, reciprocal, + - * / with fractions and Ints, ^, comparisons, and all compound assignments) returns whatever it returns with assertions, for all operands. On operands whose parts are canonical, where an assertion would stop the program it throws std::out_of_range instead, and everything else, including the object of a compound assignment, is the same. A compound assignment on reduced fractions that throws leaves one of three things: the right value, not reduced, when Euclid's algorithm stops; or, when the unreduced numerator divides the denominator, the denominator with only the lower digits of the numerator; or, when the denominator divides the numerator, the reduced numerator with only the lower digits of the denominator, which can be zero.", "quantifier": "all fractions for the agreement; all fractions with canonical parts (any denominator) for the exceptions; all reduced fractions and canonical Ints for what is left", "why_tests_cant": "The tests are run in one build type and no test divides where long division stops; the shape of what is left needs the relation between Euclid's algorithm and the two divisions after it.", "anchors": ["CMakeLists.txt", "src/Frac.hpp:20-60", "src/Frac.cpp:63-223"]}
{"id": "C122", "title": "Mat when memory runs out", "statement": "When a request for memory fails with std::bad_alloc in the middle of a function of Mat, no array dangles or is shared, and every Mat still has its value; this includes the object on the left of = and of *= by a matrix. Only +=, -=, *= and /= by a scalar, setEntries and inplace_rref can leave other entries in their object, and only if the element type itself allocates (Int, Frac); the size and all other objects are kept. With elements that do not allocate nothing is lost, and the functions that make no Mat cannot run out of memory. With elements that do, unary -, + and - of matrices, scaling, minors, cofactors, the cofactor expansions, transpose and augmentedMatrix still lose nothing; every function that copies elements in the body of a constructor of Mat (copying, filling, =, the product, determinant, rref, inverse, diagonalMatrix, identityMatrix, printing) can lose one array, because the destructor does not run for an object whose constructor throws.", "quantifier": "all element types, all states of memory without dangling or shared arrays, all operands including aliased ones, and every choice of which requests fail", "why_tests_cant": "Tests run with enough memory; the failure of each of the requests in a run would have to be provoked one by one, and a leaked array cannot be seen from the program.", "anchors": ["src/Mat.hpp:69-79", "src/Mat.hpp:107-149", "src/Mat.hpp:151-522"]}
{"id": "C123", "title": "How much memory the functions of Mat need", "statement": "Let the heap hold at most L elements, and let a request that would exceed L fail with std::bad_alloc. For each function there is a number k, read off the dimensions of its operands, such that with room for k further elements it ends exactly as with unlimited memory, and with less room (whenever the full run returns or throws) it ends in std::bad_alloc with every object as before and nothing lost. k is the number of elements of the result for construction, copying, -x, scaling, division, transpose, rref, +, -, product, *= with a matrix, augmented matrices and first minors (0 if the dimensions do not match), of the operand for assignment and printing, twice the minor for a cofactor at an odd place, n^2 for the determinant (0 for n = 1, 2), 4 n^2 for the inverse, 0 for the in-place functions, == and trace. For cofactor expansion 2^2 + ... + (n-1)^2 suffices, and is needed if no entry is zero. No run exceeds the limit.", "quantifier": "For every element type, every state of memory in which each object owns its array, every operand, every limit.", "why_tests_cant": "Tests do not measure how much memory is held at once, and cannot try all limits and sizes; that a temporary lives longer than needed changes no result.", "anchors": ["src/Mat.hpp:69-79", "src/Mat.hpp:107-149", "src/Mat.hpp:151-522"]}
{"id": "C124", "title": "What the compound assignments of Int leave behind when memory runs out", "statement": "If a request for memory fails during x += y, x -= y, x *= y, x /= y, x %= y or x ^= y (y possibly x itself), std::bad_alloc leaves and x is then one of these. += and -=: x; |x| if x < 0; if absolute values are added, |x| + |y| - B^k with k the larger number of bins (the last carry is lost); if they are subtracted and |x| <= |y|, |x| - |y|, or the bins a failed deque assignment leaves. *=, %=, ^=: x, the result, or what the failed assignment of its bins leaves. /=: x; an Int with no bins if |x| < |y|; otherwise a number whose absolute value is B^i * (|x| / B^i / |y|) + |x| mod B^i for some i. Without a failure they end as the rest of the model says, and a division by zero leaves x. So x is kept by a sum of natural numbers that needs no more bins and by a positive difference of natural numbers; with libstdc++'s deque a number is left except by /= with |x| < |y|. The strong guarantee is false of each of the six.", "quantifier": "For all canonical x and y (all Ints for *=, %=, ^=), every set of requests that fail, every behaviour of a failed deque assignment.", "why_tests_cant": "Tests do not make memory run out, still less at each possible place with all operands; the object left is printed like any other number.", "anchors": ["src/Int.cpp:200-262", "src/Int.cpp:337-341", "src/Int.cpp:394-463", "src/Int.cpp:603-643", "src/Int.hpp:39"]}
{"id": "C125", "title": "What the compound assignments of Frac leave behind when memory runs out", "statement": "If a request for memory fails during x += y, x -= y, x *= y, x /= y (y a Frac, possibly x itself) or x += a, x -= a, x *= a, x /= a, x ^= a (a an Int), std::bad_alloc leaves and x is one of these: the old denominator with a numerator left by the Int operation on it; the new numerator with a denominator left by the Int operation on it (for ^= the other way round); or, while reducing, the new unreduced numerator and denominator with the sign moved to the numerator, the numerator partly divided by the greatest common divisor over the unreduced denominator, or the reduced numerator over a partly divided denominator. Without a failure the operators end as the rest of the model says. With libstdc++'s deque both members have bins if the new numerator and denominator are not 0; if the new numerator is 0 it can be left without bins, and a denominator can be left 0. So the strong guarantee and the invariant of the class are false.", "quantifier": "For all Fracs with canonical members and all canonical Ints, every set of requests that fail, every behaviour of a failed deque assignment.", "why_tests_cant": "Tests do not make memory run out at each possible place; a half-updated fraction is a fraction with another value, which nothing reports.", "anchors": ["src/Frac.cpp:100-124", "src/Frac.cpp:146-223"]}
{"id": "C126", "title": "How much work quotients, remainders, powers, common divisors and fractions take", "statement": "Counting the rounds of the loops as in C119: x / y and x % y search only for the bins the quotient can have, so for n bins by m bins they take at most max(0, n-m+1) (89m^2+2370m+5106) + n(2m+9) + 4m rounds for the quotient and a similar number for the remainder; x ^ e takes at most s^3+5s^2+15s + 28 l (2 log2 e + 2) rounds, s = e times the bins of x, l the bins of e; GCD of numbers of at most n bins takes at most 4230n^3+112720n^2+243715n rounds and the reduction of a fraction 4408n^3+117464n^2+253955n; hence explicit cubic bounds for the constructor, reciprocal, ==, <, +, -, *, / and their compound assignments between Fracs and between Frac and Int, and a bound for powers of Fracs. The bounds hold also if the operation throws. The counted programs return exactly what the model of the operations returns.", "quantifier": "For all Ints and Fracs with parts as the library makes them, of any number of bins; operands possibly the same object.", "why_tests_cant": "A test times a few sizes; that Euclid's algorithm on trial-and-error division stays cubic for every pair of operands needs the sum over all its steps.", "anchors": ["src/Int.cpp:459-530", "src/Int.cpp:684-699", "src/Frac.hpp:20-60", "src/Frac.cpp:100-223"]}
{"id": "C127", "title": "Sizes, positions and numbers of digits kept in variables of type int", "statement": "Int::read keeps the number of digits in an int, the comparison keeps the difference of the numbers of bins in an int32_t, get_bin_from_back takes an int32_t, the division counts bins with an int32_t and Frac(string) keeps the position of '/' in an int. For texts of fewer than 2^31 characters and numbers of at most 2^31 bins (for dividends: fewer) reading, comparing, printing, dividing and Frac(string) give exactly what they give with unbounded integers. Beyond that: a text of d significant digits, d becoming r when converted to int, is accepted and stores an Int without bins if r < 0, 0 if r = 0, and the number made of the first r digits if r > 0; two numbers are ordered by the sign of the converted difference of their lengths, a difference of -2^31 makes the comparison call itself for ever, a difference of 0 compares the common leading bins and then answers equal or throws std::out_of_range; printing writes the first 2^31 bins and throws std::out_of_range; a division whose dividend has n bins, n becoming r, is undefined for r = -2^31 and otherwise divides only the lowest max(r, 0) bins and keeps the others; a '/' at position 2^31 - 1 after an integer is undefined, and one farther on makes Frac(string) throw invalid_argument.", "quantifier": "For all streams, texts and canonical Ints of any length below 2^63, and for every width of int from 8 to 63 bits.", "why_tests_cant": "The inputs have billions of digits or bins; no test in the repository, and hardly any test at all, builds them.", "anchors": ["src/Int.cpp:29-39", "src/Int.cpp:72-127", "src/Int.cpp:313-320", "src/Int.cpp:348-362", "src/Int.cpp:377-391", "src/Int.cpp:603-643", "src/Int.hpp:100", "src/Frac.cpp:129-144"]}
{"id": "C128", "title": "Vec and Mat of Int and of Frac compiled without assertions", "statement": "Vec.hpp and Mat.hpp contain no assertion, but the operators of Int and Frac they call do. With those compiled out (NDEBUG), every operation on vectors and matrices of canonical Ints (sums, differences, scalar products, quotients by a scalar, dot, cross and triple products, matrix products, negation, minors, cofactors, both cofactor expansions, determinant, rref, inverse, trace, comparisons and the compound assignments, with aliased operands) and every operation that compiles for vectors and matrices of Frac on fractions in lowest terms and infinities gives the same result or throws the same exception, and throws std::out_of_range exactly where the assertions would stop the program. Whatever the entries, a result obtained with assertions is the result without them. When x /= a throws std::out_of_range, the elements before the first one that cannot be divided are exact quotients, that one keeps the low digits C120 describes with its sign, and the others are untouched; a matrix is worked through row by row in the same way; x /= 0 throws divide_by_zero_error and changes nothing.", "quantifier": "For all vectors and matrices of any size with canonical Ints, or with Fracs that are in lowest terms or infinite, as entries; for the last clauses, all vectors of canonical Ints and all canonical a.", "why_tests_cant": "The test suite is built with assertions; the release build never runs it, and the entries concerned have at least 19 digits.", "anchors": ["src/Vec.hpp:127-268", "src/Mat.hpp:152-474", "src/Mat.hpp:506-514", "src/Int.cpp:543-699", "src/Int.hpp:59-79", "src/Frac.hpp:40-70", "CMakeLists.txt"]}
{"id": "C129", "title": "Poly.hpp compiled without assertions", "statement": "With the assertions of Int compiled out (NDEBUG), every function of Factor, Term and Poly that returns with assertions returns the same object without them, whatever its operands. For well-formed operands, constructors and products of factors do not change at all (adding canonical exponents never meets an assertion), and where products of terms, negation, sums and differences would stop at an assertion they throw std::out_of_range instead; everything else, undefined behaviour included, is unchanged. When they throw: negate leaves the factors as they are and the coefficient C121 describes; t *= u leaves exactly the names and exponents of the product and such a coefficient; appending a term to a polynomial leaves all terms as they are except the one with the same factors, which has such a coefficient.", "quantifier": "First clause: all operands. The others: all factors with canonical exponents, terms whose coefficients are in lowest terms and whose names occur once and in order, and lists of such terms.", "why_tests_cant": "The test suite is built with assertions, and the coefficients concerned need 19 digits or more.", "anchors": ["src/Poly.hpp:54-101", "src/Poly.hpp:159-189", "src/Poly.hpp:219-289", "CMakeLists.txt"]}
{"id": "C130", "title": "Programs of Int calls compiled without assertions, exceptions caught", "statement": "With assertions compiled out (NDEBUG), any sequence of public Int calls (constructors, reading, set_value, times_power_ten, negation, the six binary operators and the six compound assignments, also of an object with itself), each in its own try block, runs to its end: nothing has undefined behaviour or runs for ever, every Int stays well formed whatever was thrown and caught before, every call that returns has the right value (for powers: the exponents of C104), and the only exceptions are divide_by_zero_error exactly on a zero divisor, invalid_argument on text that is no integer, and std::out_of_range. One that throws out_of_range leaves all other variables alone, and of its own: `+=` and `-=` leave the absolute value, or already the absolute value of the answer, without the sign; `/=` and times_power_ten leave the low digits of the number being divided; the others leave it as it was. `+=` and `-=` throw exactly when magnitudes are to be subtracted and the smaller one is stored in more bins than the larger. An exception can change the value of an Int, so the claim that it does not is refuted: -5 += 0 can leave 5.", "quantifier": "All programs of any length over any number of variables whose machine-integer arguments can be negated and fit one bin where set_value needs that, from any well-formed Ints, leading zero bins and negative zeros included.", "why_tests_cant": "The test suite is built with assertions, and states after exceptions are never looked at; the zeros with several bins come from multiplications of zero by numbers of ten digits or more.", "anchors": ["src/Int.hpp:38-74", "src/Int.cpp:130-262", "src/Int.cpp:420-487", "src/Int.cpp:603-699", "CMakeLists.txt"]}
{"id": "C131", "title": "Programs of Frac calls compiled without assertions, exceptions caught", "statement": "With assertions compiled out (NDEBUG), any sequence of public Frac calls (constructors, texts, copies, reciprocals, the four operators with Frac and Int operands, powers, the compound assignments, also of an object with itself, and the six comparisons), each in its own try block, runs to its end: nothing has undefined behaviour or runs for ever, and every Frac stays well formed whatever was thrown and caught before. A call that returns gives the numerator and denominator of the textbook formula in lowest terms with no negative denominator (1/0 only in place); comparisons never throw and compare the pairs; divide_by_zero_error means the denominator of a new Frac is 0, or an object became 0/0 in place; invalid_argument is thrown exactly for texts that are no fraction or have denominator 0; std::out_of_range leaves a new Frac unmade, and in place leaves the object as it was, unreduced, with only the low digits of its numerator or denominator, or (`+=`, `-=` of an Int) with the sign of the numerator lost. No call changes another variable. That an exception leaves the value of a Frac alone is refuted: -5/1000000001 += 0 can leave 5/1000000001.", "quantifier": "All programs of any length over any number of variables, from any Fracs made of well-formed Ints (unreduced, negative or zero denominators, leading zero bins and negative zeros included) and any well-formed Int operands.", "why_tests_cant": "The test suite is built with assertions, and states after exceptions are never looked at; no test divides by a number that makes the greatest common divisor fail.", "anchors": ["src/Frac.hpp:20-79", "src/Frac.cpp:100-223", "CMakeLists.txt"]}
{"id": "C132", "title": "Order of evaluation of operands", "statement": "C++ leaves open the order in which the operands of an arithmetic operator or the arguments of a constructor are evaluated, and nested calls may be interleaved. For every operator of Frac (+, -, *, / with Frac or Int operands, <, ^, and the numerators computed by += and -=) and for the elements of cross products and 2 x 2 determinants of Ints and of Fracs with nonzero denominators, every such order gives one and the same outcome (result, exception or failed assertion), with and without assertions. For those of Fracs with a zero denominator this is refuted: the order decides between divide_by_zero_error and a failed assertion.", "quantifier": "All Fracs made of well-formed Ints and all well-formed Ints (leading zero bins, negative zeros and zero denominators included), all orders of the calls in the expression; for Fracs in cross products and determinants with assertions, all Fracs in lowest terms; without, all with a nonzero denominator.", "why_tests_cant": "A test binary runs the one order its compiler chose.", "anchors": ["src/Frac.hpp:42-60", "src/Frac.cpp:159-191", "src/Vec.hpp:257-266", "src/Mat.hpp:307,329,364"]}
{"id": "C133", "title": "Rounds of reading, printing and scaling", "statement": "Printing an Int makes one round for every bin except the leading nonzero one; reading a numeral makes one round for each leading zero, two for each other digit and one for each nine digits, and none when there is no numeral; any text of l characters takes at most 19l/9. times_power_ten(p) takes p/9 rounds for multiples of 9 and otherwise up to 8 multiplications by ten, quadratic in the bins and no better for numbers without zero bins; downwards it takes the dropped bins and up to 8 divisions of the rest. Frac's text constructor, its reading and from_double take at most the rounds of the texts and one cubic reduction of numbers of l/9 + 1 bins.", "quantifier": "All well-formed Ints (for scaling up and Frac: as the library makes them), all streams and texts right or wrong, all powers, all doubles and precisions; whatever the outcome.", "why_tests_cant": "A timing test sees some sizes on one machine; an exact number of rounds for every text needs a proof over all lengths.", "anchors": ["src/Int.cpp:24-40", "src/Int.cpp:50-127", "src/Int.cpp:313-320", "src/Int.cpp:465-487", "src/Frac.cpp:11-60", "src/Frac.cpp:68-98", "src/Frac.cpp:126-144"]}
{"id": "C134", "title": "What the compound assignments of Vec, Mat, Term and Poly leave behind when memory runs out", "statement": "If a request for memory fails during x += y, x -= y, x *= s or x /= s of Vec or Mat with elements Int or Frac (y possibly x itself, s possibly an element of x), std::bad_alloc leaves and the first elements are finished, at most one is in a state that C124 or C125 allows, the rest are as before, and there are as many elements as before. Mat goes through its entries row by row, with the same requests as a Vec of them. t *= f of a Term leaves t, or one exponent partly added. t *= y (y possibly t) leaves t times the first factors of y with the old coefficient, perhaps one exponent partly added, or all factors with a coefficient partly multiplied. negate leaves a coefficient partly negated. appendTerm, += and -= of Poly leave p, or one coefficient partly added; appendTerms leaves p. Without a failure all end as the rest of the model says. So the strong guarantee is false except for appendTerms.", "quantifier": "All Vecs, Mats, Terms and Polys as the library makes them (for *= and /= of Int: well-formed elements), every set of requests that fail, every behaviour of a failed deque assignment; for Mat every size and element type.", "why_tests_cant": "Tests do not make memory run out at each possible place; a half-updated vector or polynomial is a vector or polynomial with another value, which nothing reports.", "anchors": ["src/Vec.hpp:167-193", "src/Mat.hpp:171-198", "src/Mat.hpp:214-235", "src/Poly.hpp:65", "src/Poly.hpp:92-101", "src/Poly.hpp:180-189", "src/Poly.hpp:241-254", "src/Poly.hpp:268-289"]}
{"id": "C135", "title": "Programs of Factor, Term and Poly calls compiled without assertions, exceptions caught", "statement": "Let a program call the public constructors, members and operators of Factor, Term and Poly in any order on any number of objects, compiled with NDEBUG, with every exception caught. Then it stops early only with the undefined behaviour of a call that looks for a place among the terms of a Poly. Otherwise it runs to its end and all objects stay well formed. Every call that returns has the value the algebra says: exponents of each name added, coefficients multiplied, added or negated and in lowest terms, terms inserted or combined with a term of the same monomial, and no other object changed. Calls without arithmetic on coefficients, and f + g and f - g, throw nothing. The others throw only divide_by_zero (only if a denominator is 0) and out_of_range; a call that makes an object then changes nothing, and a call in place leaves the object as said: t *= u always has the exponents of the product, its coefficient is the old one, 0/0, or an unreduced or truncated product. So a caught exception may change a value (refuted otherwise). Where the build with assertions returns, this one does the same.", "quantifier": "All programs of the 30 kinds of calls, all names, canonical exponents, coefficients of any well-formed Ints (unreduced, zero or negative denominators included), all starting objects.", "why_tests_cant": "Tests are built with assertions and stop at the first exception; what a release build carries on with after one depends on the whole history.", "anchors": ["src/Poly.hpp:15-29", "src/Poly.hpp:54-101", "src/Poly.hpp:147-200", "src/Poly.hpp:219-289"]}
{"id": "C136", "title": "Programs of Vec<Int> and Mat<Int> calls compiled without assertions, exceptions caught", "statement": "Let a program make any calls of Vec<Int>, Mat<Int> and Int arithmetic on scalars (all but determinant, rref and inverse, which need a field), compiled with NDEBUG, with every exception caught. Unless it comes to a call that the language does not define (an index out of range), it runs to its end, and every call either has exactly the values of integer linear algebra (or throws the documented exception and changes nothing), or throws std::out_of_range. Calls that make a new object throw that only if they add, subtract or divide elements, and then change nothing. A compound assignment that throws it has given the elements before some position their new values, left those after it as they were, and left the element at it as the operator of Int leaves it: the absolute value of x, or already |x| - |y|, for += and -=, the low digits of x for /=; *= never throws it. So a program that caught no out_of_range has computed what it means, and programs that neither add nor subtract nor divide elements always do. That a caught exception leaves the vector as it was is refuted.", "quantifier": "All programs of the 51 kinds of calls, all vectors and matrices of well-formed Ints (leading zero bins and negative zeros included), any aliasing between operands, the scalar of a compound assignment possibly an element of the object itself.", "why_tests_cant": "Tests are built with assertions and stop at the first exception; what a release build goes on with depends on the representation each element got from earlier calls.", "anchors": ["src/Vec.hpp:167-193", "src/Mat.hpp:171-198", "src/Mat.hpp:214-235", "src/Mat.hpp:244-262", "src/Int.cpp:200-250"]}
{"id": "C137", "title": "A program of Vec<Int> and Mat<Int> calls that fails no assertion does the same without assertions", "statement": "Let a program make any calls of Vec<Int>, Mat<Int> and Int arithmetic on scalars, determinant(), rref(), inplace_rref() and inverse() included, with every exception caught. If no assertion fails in the default build, the build with NDEBUG does exactly the same: each call returns or throws the same exception, and every object, down to its bins, is left the same, also by a call that throws. More generally the two builds run alike up to the first call in which an assertion fails. The converse is refuted: a program can fail an assertion although without assertions it throws no out_of_range at all.", "quantifier": "All programs of the 55 kinds of calls, all vectors and matrices of well-formed Ints (leading zero bins and negative zeros included), any aliasing between operands, the scalar of a compound assignment possibly an element of the object itself; literals that fit std::int64_t.", "why_tests_cant": "Tests are run in one of the two builds on finitely many inputs; that compiling out assertions changes nothing else is a statement about pairs of runs, including the states that exceptions leave.", "anchors": ["src/Vec.hpp:126-276", "src/Mat.hpp:107-503", "src/Int.cpp:420-463", "src/Int.cpp:587-631"]}
{"id": "C138", "title": "A program of Vec<Frac> and Mat<Frac> calls that fails no assertion does the same without assertions", "statement": "Let a program make calls of Vec<Frac>, Mat<Frac> and Frac arithmetic on scalars, with every exception caught. If no assertion fails in the default build, the build with NDEBUG does exactly the same: each call returns or throws the same exception, and every object, down to the bins of its numerators and denominators, is left the same, also where an exception interrupts a compound assignment in the middle of an element. More generally the two builds run alike up to the first call in which an assertion fails.", "quantifier": "All programs of the 41 kinds of calls that need no conversion of an int or null pointer to Frac, no comparison with 0 and no unary minus; all vectors and matrices of Fracs with well-formed parts, reduced or not, with 1/0 and 0/0 among them; any aliasing between operands, the scalar of a compound assignment possibly an element of the object itself; int literals.", "why_tests_cant": "Tests are run in one of the two builds on finitely many inputs; that compiling out assertions changes nothing else is a statement about pairs of runs, including the half-changed fractions that exceptions leave.", "anchors": ["src/Vec.hpp:126-276", "src/Mat.hpp:107-300", "src/Frac.cpp:159-182", "src/Frac.hpp:47-60", "src/Int.cpp:587-631"]}
{"id": "C139", "title": "A program of Frac calls that fails no assertion does the same without assertions, exceptions included", "statement": "Let a program make any calls of Frac, each in its own try block. With assertions compiled in, either one fails or every statement returns, answers or throws exactly as with NDEBUG and leaves every Frac the same, down to the bins of its parts, also when an exception interrupts an operation in place; every statement then does what C131 says. More generally the two builds run alike up to the first statement in which an assertion fails. The converse is refuted: an assertion can fail in a statement that without assertions returns normally.", "quantifier": "All programs of constructors, copies, reciprocal, arithmetic of Frac with Frac and Int on either side, powers, compound assignments with aliasing, and comparisons; all Fracs whose parts are well-formed Ints, reduced or not, 1/0 and 0/0 included; all well-formed Int operands and all texts.", "why_tests_cant": "Tests are run in one of the two builds on finitely many inputs; that compiling out assertions changes nothing else is a statement about pairs of runs, including the half-changed fractions that exceptions leave.", "anchors": ["src/Frac.hpp:20-79", "src/Frac.cpp:100-223", "src/Int.cpp:587-631", "src/Int.cpp:684-699"]}
{"id": "C140", "title": "A program of Factor, Term and Poly calls that fails no assertion does the same without assertions, exceptions included", "statement": "Let a program make any calls of the public members and operators of Factor, Term and Poly, each in its own try block. With assertions compiled in, either one fails or every call returns or throws exactly as with NDEBUG and leaves every object the same, down to the bins of coefficients and powers, also when an exception interrupts an operation in place; where one build has undefined behaviour, so has the other.", "quantifier": "All programs of the 30 kinds of calls; all objects whose powers are well-formed Ints and whose coefficients are pairs of such, reduced or not, 1/0 and 0/0 included; t *= t and other aliasing included.", "why_tests_cant": "Tests are run in one of the two builds on finitely many inputs; that compiling out assertions changes nothing else is a statement about pairs of runs, including the half-changed terms that exceptions leave.", "anchors": ["src/Poly.hpp:54-101", "src/Poly.hpp:147-200", "src/Poly.hpp:219-289", "src/Frac.cpp:146-182"]}
