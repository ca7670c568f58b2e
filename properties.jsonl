{"id": "C01", "title": "Rational arithmetic is exact below the rounding gate", "statement": "For rationals with non-zero denominators, +, -, *, / (and the in-place *=, +=) return exactly the mathematical result whenever no 32-bit overflow occurs and the raw denominator of the result is below 1024; the result again has a non-zero denominator (positive if the operands' are).", "quantifier": "all pairs of 32-bit rationals", "why_tests_cant": "2^128 operand pairs; overflow and reduction interact.", "anchors": ["public/gal/numeric.hpp:rat::operator*=", "public/gal/numeric.hpp:rat::operator+=", "public/gal/numeric.hpp:operator*(rat,rat)", "public/gal/numeric.hpp:operator+(rat,rat)", "public/gal/numeric.hpp:operator/(rat,rat)", "public/gal/numeric.hpp:operator-(rat,rat)"]}
{"id": "C02", "title": "Overflowing rational arithmetic is rejected, never silently wrapped", "statement": "Every +,-,*,/ on rationals either reports overflow (undefined behaviour, hence a compile error in constexpr evaluation) or returns a rational whose numerator and denominator fit 32 bits; when it returns without rounding the value is exact.", "quantifier": "all pairs of 32-bit rationals", "why_tests_cant": "tests sample only small operands", "anchors": ["public/gal/numeric.hpp:rat", "public/gal/numeric.hpp:operator*(rat,rat)"]}
{"id": "C03", "title": "The overflow gate perturbs a rational by at most about 1e-7", "statement": "Per the comment on overflow_gate, whenever the gate changes a value the change is at most the documented 1e-7. (The code violates this: e.g. 1/4001 becomes 0.) Also: the gate never changes a reducible fraction's value nor one with denominator below 1024, and the result denominator is positive.", "quantifier": "all 32-bit rationals with positive denominator", "why_tests_cant": "input space is 2^63; the double-precision branch conditions hide the failing ones", "anchors": ["public/gal/numeric.hpp:detail::overflow_gate"]}
{"id": "C04", "title": "Rational equality and order agree with mathematical equality and order", "statement": "a == b iff they denote the same rational, a < b (a > b) iff the value of a is smaller (larger); < is a strict total order on values. (== is violated for every non-integral rational: one_half == one_half is false.)", "quantifier": "all pairs of rationals with positive denominators that do not overflow", "why_tests_cant": "pairs are unbounded; tests never compare fractions", "anchors": ["public/gal/numeric.hpp:operator==(rat,rat)", "public/gal/numeric.hpp:operator<(rat,rat)", "public/gal/numeric.hpp:operator>(rat,rat)", "public/gal/numeric.hpp:operator!=(rat,rat)"]}
{"id": "C05", "title": "Compile-time exponentiation computes the power", "statement": "gal::pow(s, N, D) returns s^(N/D) for every base and exponent: repeated product for integral N, reciprocal for negative N. (Violated at N=0, where it returns s.)", "quantifier": "all real bases and all integer exponents", "why_tests_cant": "exponents beyond 8 use a loop whose invariant no finite test covers", "anchors": ["public/gal/numeric.hpp:pow"]}
{"id": "C06", "title": "Bit utilities compute what their names say", "statement": "pop_count is the number of set bits, leading_set_index the index of the highest set bit, next_even(x) the least integer above x with an even number of set bits, next_pow_2(x) the least power of two >= x (when representable), rot32 rotates right by 8 bits and four applications are the identity.", "quantifier": "all unsigned inputs in the stated widths", "why_tests_cant": "2^32/2^64 inputs", "anchors": ["public/gal/numeric.hpp:next_even", "public/gal/numeric.hpp:next_pow_2", "public/gal/numeric.hpp:rot32", "public/gal/numeric.hpp:pop_count", "public/gal/numeric.hpp:leading_set_index"]}
{"id": "C07", "title": "Geometric product of basis blades is the Clifford product", "statement": "For every metric signature (P,V,R) and all basis blades a,b, geometric::product(a,b) is the element derivable from the Clifford relations e_i e_j = -e_j e_i (i<>j), e_i e_i = dot(i,i); it is associative, has the scalar 1 as unit, and a degenerate contraction gives zero.", "quantifier": "all metric signatures of any dimension, all blades", "why_tests_cant": "associativity alone is 8^dim triples per signature; signatures are unbounded", "anchors": ["public/gal/geometric_algebra.hpp:algebra::geometric::product", "public/gal/geometric_algebra.hpp:metric::dot", "public/gal/geometric_algebra.hpp:metric::intercept"]}
{"id": "C08", "title": "Exterior product of basis blades is the Grassmann product", "statement": "exterior::product is zero iff the blades share a generator, otherwise +-(a|b) with the shuffle sign; it is associative, graded-anticommutative, metric independent, and equals the grade(a)+grade(b) part of the geometric product.", "quantifier": "all signatures and blades", "why_tests_cant": "same", "anchors": ["public/gal/geometric_algebra.hpp:algebra::exterior::product"]}
{"id": "C09", "title": "Left contraction of basis blades is the grade(b)-grade(a) part of the geometric product", "statement": "contract::product(a,b) equals geometric::product(a,b) when a is contained in b and is zero otherwise; scalars contract as scaling.", "quantifier": "all signatures and blades", "why_tests_cant": "same", "anchors": ["public/gal/geometric_algebra.hpp:algebra::contract::product"]}
{"id": "C10", "title": "Symmetric inner product of basis blades", "statement": "symmetric_inner::product(a,b) is the |grade(a)-grade(b)| part of the geometric product and zero if either operand is a scalar; it is (claimed to be) symmetric. (Symmetry is violated: e1|e12 = -(e12|e1).)", "quantifier": "all signatures and blades", "why_tests_cant": "same", "anchors": ["public/gal/geometric_algebra.hpp:algebra::symmetric_inner::product"]}
{"id": "C11", "title": "Reversion is an involutive anti-automorphism", "statement": "~~x = x and ~(xy) = ~y ~x for the geometric product of basis blades and of whole multivectors; reversion negates exactly the grades 2,3 mod 4.", "quantifier": "all signatures, blades and multivectors", "why_tests_cant": "unbounded", "anchors": ["public/gal/algebra.hpp:detail::reverse", "public/gal/expr.hpp:operator~"]}
{"id": "C12", "title": "Poincare dual: x ^ !x is the pseudoscalar", "statement": "For every basis blade e of an n-dimensional algebra the complement returned satisfies e ^ !e = pseudoscalar; dualising twice multiplies by (-1)^(k(n-k)); the dual of a multivector dualises every component and loses none.", "quantifier": "all dimensions, blades, multivectors", "why_tests_cant": "unbounded", "anchors": ["public/gal/algebra.hpp:detail::poincare_complement", "public/gal/algebra.hpp:detail::poincare_dual"]}
{"id": "C13", "title": "Compile-time sort returns a sorted permutation", "statement": "detail::sort applied to any range terminates, stays inside the range, leaves a permutation of the input, and the result is sorted with respect to any strict weak order.", "quantifier": "all ranges of all lengths, all strict weak orders", "why_tests_cant": "factorially many inputs", "anchors": ["public/gal/algorithm.hpp:detail::sort"]}
{"id": "C14", "title": "Sum of indeterminate multivectors is addition", "statement": "Evaluating sum(a,b) at any input values gives, blade by blade, the sum of the values of a and b (absent overflow/rounding).", "quantifier": "all well-formed multivectors and all real input values", "why_tests_cant": "polynomials of unbounded size", "anchors": ["public/gal/algebra.hpp:detail::sum"]}
{"id": "C15", "title": "Sum preserves canonical form", "statement": "If the operands have strictly increasing blades, strictly increasing monomials per blade and no zero coefficient, so does sum(a,b): like terms are merged and cancelled terms vanish from the result type.", "quantifier": "all canonical multivectors", "why_tests_cant": "unbounded", "anchors": ["public/gal/algebra.hpp:detail::sum"]}
{"id": "C16", "title": "Product of indeterminate multivectors is the bilinear extension of the blade product", "statement": "Evaluating product(P,a,b) at any input values gives, blade by blade, the bilinear extension of P applied to the values of a and b (absent overflow/rounding).", "quantifier": "all well-formed multivectors, all blade products, all real input values", "why_tests_cant": "unbounded", "anchors": ["public/gal/algebra.hpp:detail::product", "public/gal/algebra.hpp:detail::collate"]}
{"id": "C17", "title": "Products are returned in canonical form", "statement": "The result of product/collate has strictly increasing blades, strictly increasing monomials in each, and no zero coefficients, whatever the order of the operands' terms.", "quantifier": "all well-formed multivectors", "why_tests_cant": "unbounded", "anchors": ["public/gal/algebra.hpp:detail::product", "public/gal/algebra.hpp:detail::collate"]}
{"id": "C18", "title": "Array capacities are never exceeded", "statement": "sum, product, poincare_dual, null-basis conversion and the other multivector operations never read or write outside the fixed-size arrays they allocate, given well-formed operands.", "quantifier": "all well-formed operands of all capacities", "why_tests_cant": "unbounded shapes", "anchors": ["public/gal/algebra.hpp:mv", "public/gal/algebra.hpp:detail::sum", "public/gal/algebra.hpp:detail::product", "public/gal/algebra.hpp:detail::collate"]}
{"id": "C19", "title": "Term cancellation is exact", "statement": "x + (-x) has no terms, and two canonical multivectors that denote the same polynomial coefficients are identical objects; so anything that cancels algebraically is absent from the result.", "quantifier": "all canonical multivectors", "why_tests_cant": "unbounded", "anchors": ["public/gal/algebra.hpp:detail::sum", "public/gal/algebra.hpp:detail::negate", "docs/optimizations.md"]}
{"id": "C20", "title": "Scaling, negation and shifting act coefficient-wise", "statement": "scale(q,x), negate(x), shift(q,x) evaluate to q*x, -x, x+q for every x.", "quantifier": "all multivectors and rationals", "why_tests_cant": "unbounded", "anchors": ["public/gal/algebra.hpp:mv::scale", "public/gal/algebra.hpp:detail::negate", "public/gal/algebra.hpp:detail::shift"]}
{"id": "C21", "title": "Division by a scalar indeterminate is multiplication by its reciprocal", "statement": "divide(x, c*d, q) evaluates to q*x/(c*d) at all inputs where the divisor is non-zero. (Violated when a monomial of x already contains the divisor's indeterminate.)", "quantifier": "all multivectors x, divisors and inputs", "why_tests_cant": "unbounded", "anchors": ["public/gal/algebra.hpp:detail::divide"]}
{"id": "C22", "title": "Component selection returns exactly that component as a scalar", "statement": "x[e] evaluates to the e-component of x on the scalar blade and nothing else; zero if absent.", "quantifier": "all multivectors, all blades", "why_tests_cant": "unbounded", "anchors": ["public/gal/algebra.hpp:mv::operator[]", "public/gal/algebra.hpp:mv::push"]}
{"id": "C23", "title": "Grade selection is the grade projection", "statement": "select_grade(k) keeps exactly the components of grade k. (Violated: iteration stops at the first blade of higher grade although blades are ordered by bitmask, so e2 is lost after e01.)", "quantifier": "all multivectors, all grades", "why_tests_cant": "unbounded", "anchors": ["public/gal/algebra.hpp:mv::select_grade"]}
{"id": "C24", "title": "Null-basis conversion is an invertible change of basis", "statement": "to_natural_basis and to_null_basis are mutually inverse on values and implement no=(ep+en)/2, ni=en-ep on every blade.", "quantifier": "all multivectors of all dimensions >= 2", "why_tests_cant": "unbounded", "anchors": ["public/gal/null_algebra.hpp:to_null_basis", "public/gal/null_algebra.hpp:to_natural_basis"]}
{"id": "C25", "title": "Expression addition denotes addition", "statement": "For expressions l, r built from the lambda API, l + r denotes the sum of what l and r denote, whatever common or cancelling summands they have. (Violated in several ways: scale of the non-zero operand dropped when the other is zero; leftover left summands scaled by the right factor; summands compared without their inner scale factors.)", "quantifier": "all expressions and all inputs", "why_tests_cant": "unbounded expression trees", "anchors": ["public/gal/expr.hpp:operator+(rpne,rpne)"]}
{"id": "C26", "title": "Expression products denote the algebraic products", "statement": "l*r, l>>r, l|r, l^r, l%r and scalar_product denote the corresponding products of the operands' denotations including their rational factors. (Violated: zero*x = x, ~ and ! drop the factor, ^ drops factors when an operand is already a wedge, | swaps operands by checksum.)", "quantifier": "all expressions and all inputs", "why_tests_cant": "unbounded", "anchors": ["public/gal/expr.hpp:operator*", "public/gal/expr.hpp:operator^", "public/gal/expr.hpp:operator|", "public/gal/expr.hpp:operator>>", "public/gal/expr.hpp:operator%"]}
{"id": "C27", "title": "Rational scaling in expressions is exact", "statement": "n*x, x/n, -x denote n*x, x/n, -x for every non-zero integer n. (Violated for x / -1.)", "quantifier": "all expressions, all integers", "why_tests_cant": "unbounded", "anchors": ["public/gal/expr.hpp:operator*(int,rpne)", "public/gal/expr.hpp:operator/(rpne,int)", "public/gal/expr.hpp:operator-", "public/gal/engine.hpp:detail::compute_entity"]}
{"id": "C28", "title": "Reversion and dual of an expression keep its rational factor", "statement": "~x and !x denote the reverse and the Poincare dual of x for every expression x, including x = 2*p. (Violated.)", "quantifier": "all expressions", "why_tests_cant": "unbounded", "anchors": ["public/gal/expr.hpp:operator~", "public/gal/expr.hpp:operator!"]}
{"id": "C29", "title": "Symbolic evaluation of an RPN program then numeric reification equals direct evaluation", "statement": "Running the RPN program symbolically to indeterminate multivectors and then substituting the input values gives the same multivector as interpreting the program directly on values.", "quantifier": "all programs over the algebraic operators, all inputs", "why_tests_cant": "unbounded", "anchors": ["public/gal/dfa.hpp:rpn_ctx", "public/gal/engine.hpp:cmon", "public/gal/engine.hpp:cterm", "public/gal/engine.hpp:compute_entity"]}
{"id": "C30", "title": "Common-subexpression elimination preserves meaning", "statement": "The reshaped program denotes the same multivector as the program before reshaping. (Violated: subexpressions are compared without their rational factors, so (a+b)*(a-b) is computed as (a+b)*(a+b).)", "quantifier": "all programs, all inputs", "why_tests_cant": "unbounded", "anchors": ["public/gal/dfa.hpp:rpn_reshape", "public/gal/dfa.hpp:compare_se", "public/gal/expr.hpp:node::operator=="]}
{"id": "C31", "title": "Inputs are bound to disjoint indeterminates in declaration order", "statement": "Input k of compute occupies exactly the indeterminate ids following those of inputs 0..k-1, ranges are disjoint and the value read for indeterminate id is the matching component of the matching input.", "quantifier": "all numbers and sizes of inputs", "why_tests_cant": "unbounded arity", "anchors": ["public/gal/expr.hpp:rpne_entities", "public/gal/engine.hpp:fill"]}
{"id": "C32", "title": "Reified coefficients equal the symbolic monomial value", "statement": "The specialised branches of the coefficient evaluation (unit numerators, unit denominators, integer factors) all compute q * product of powers. (Violated for the non-normal rational 1/-1.)", "quantifier": "all rationals and monomials", "why_tests_cant": "unbounded", "anchors": ["public/gal/engine.hpp:cmon::value", "public/gal/engine.hpp:compute_entity"]}
{"id": "C33", "title": "Entity component lookup is total and correct", "statement": "entity::select(e) returns the stored component of blade e, zero if e is not stored; select<...> returns them in the requested order.", "quantifier": "all blade lists and all blades", "why_tests_cant": "unbounded", "anchors": ["public/gal/entity.hpp:entity::select", "public/gal/entity.hpp:detail::indexof"]}
{"id": "C34", "title": "Entities survive a round trip through the engine", "statement": "Converting an entity (plane, line, motor, vector, point) to its indeterminate multivector, evaluating it on its own data and converting back gives the same entity. (Violated by pga::rotor, pga::translator, pga2::point representations.)", "quantifier": "all real coordinates", "why_tests_cant": "continuum of inputs", "anchors": ["public/gal/pga.hpp", "public/gal/vga.hpp", "public/gal/pga2.hpp", "public/gal/cga.hpp"]}
{"id": "C35", "title": "CRC-32 checksum is the standard CRC-32 and is collision free on 32-bit inputs", "statement": "crc32(x) equals the bitwise reflected CRC-32 (polynomial 0xEDB88320) of the four little-endian bytes of x, and distinct 32-bit inputs have distinct checksums.", "quantifier": "all 32-bit inputs", "why_tests_cant": "2^32 inputs, 2^64 pairs", "anchors": ["public/gal/crc.hpp:crc32", "public/gal/crc.hpp:crc32_table"]}
{"id": "C36", "title": "Tuple operations behave as list operations", "statement": "push/append/pop/get/set/split/apply_reverse act as the corresponding list operations; split_drop omits exactly the indexed element; split<0> returns an empty first half and everything in the second. (The last two are violated.)", "quantifier": "all tuples", "why_tests_cant": "unbounded arity", "anchors": ["public/gal/tuple.hpp:tuple"]}
{"id": "C37", "title": "The compile-time stack is LIFO", "statement": "pop() returns the most recently pushed element; pop(n) removes n elements and returns the deepest of them; peek returns the top. (pop() violates this: it reads one past the top.)", "quantifier": "all operation sequences", "why_tests_cant": "unbounded histories", "anchors": ["public/gal/stack.hpp:stack"]}
{"id": "C38", "title": "Mathematical constants keep their identity", "statement": "PI and E in an expression evaluate to pi and e. (E is violated: it converts to pi.)", "quantifier": "all expressions using constants", "why_tests_cant": "meaning of constants inside arbitrary expressions", "anchors": ["public/gal/expr.hpp:rpne_constant::convert"]}
{"id": "C39", "title": "Conformal constants live in the null basis like the inputs", "statement": "In CGA, the literal 1_no denotes the null origin and 1_ni the null infinity in every expression. (Violated: literals are not converted to the natural basis.)", "quantifier": "all CGA expressions", "why_tests_cant": "unbounded", "anchors": ["public/gal/cga.hpp:operator\"\" _no", "public/gal/dfa.hpp:rpn_ctx"]}
{"id": "C40", "title": "Transcendental scalar functions apply to the whole argument", "statement": "sin/cos/tan/sqrt of an expression evaluate the function of the argument's value. (Violated when the argument is a component with several monomials: the function is applied monomial-wise.)", "quantifier": "all expressions and inputs", "why_tests_cant": "unbounded", "anchors": ["public/gal/engine.hpp:apply_mv_op", "public/gal/dfa.hpp:rpn_reshape"]}
{"id": "C41", "title": "Formatting lists every component once, in order, with its generators", "statement": "to_string(entity) prints for each stored component its value followed by 'e' and the ascending indices of the blade's generators (nothing for the scalar), joined by ' + '; distinct blades of dimension at most 10 print distinct labels.", "quantifier": "all entities", "why_tests_cant": "unbounded", "anchors": ["public/gal/format.hpp:to_string"]}
{"id": "C42", "title": "Multiple results come back in the order the lambda returned them", "statement": "When the lambda returns a tuple of expressions, result k of compute is the value of expression k, with its own rational factor.", "quantifier": "all tuples of expressions", "why_tests_cant": "unbounded arity", "anchors": ["public/gal/expr.hpp:rpne_concat", "public/gal/engine.hpp:finalize_entities"]}
{"id": "C43", "title": "In-place monomial collation never reads clobbered data", "statement": "collate overwrites the monomial buffer it is reading; the result equals that of collating from an untouched copy.", "quantifier": "all monomial buffers", "why_tests_cant": "unbounded; aliasing", "anchors": ["public/gal/algebra.hpp:detail::collate"]}
{"id": "C44", "title": "References to temporaries read back the temporary's components", "statement": "create_ref(id) of a multivector evaluates, once its components have been stored at ids id, id+1, ..., to the same multivector.", "quantifier": "all multivectors", "why_tests_cant": "unbounded", "anchors": ["public/gal/algebra.hpp:mv::create_ref", "public/gal/engine.hpp:compute_temp"]}
{"id": "C45", "title": "Regressive product", "statement": "a & b is the dual of the wedge of the duals; joining with the pseudoscalar is the identity. (Identity is violated up to sign for odd grades in even dimensions.)", "quantifier": "all blades and dimensions", "why_tests_cant": "unbounded", "anchors": ["public/gal/expr.hpp:operator&", "public/gal/algebra.hpp:poincare_dual"]}
{"id": "C46", "title": "The inverse pseudoscalar inverts the pseudoscalar", "statement": "In every non-degenerate signature the product of the pseudoscalar with the library's inverse pseudoscalar is 1; in a degenerate signature the pseudoscalar squares to zero.", "quantifier": "all metric signatures", "why_tests_cant": "signatures are unbounded", "anchors": ["public/gal/geometric_algebra.hpp:pseudoscalar_inv"]}
{"id": "C47", "title": "Generic even and bivector multivectors list exactly the even/grade-2 blades", "statement": "The general even multivector of an algebra contains each even blade of the algebra exactly once in increasing order; the general bivector contains exactly the grade-2 blades. (The latter is violated from dimension 5 on, where the 4-blade 0b1111 is included.)", "quantifier": "all metric signatures", "why_tests_cant": "signatures are unbounded", "anchors": ["public/gal/geometric_algebra.hpp:even_mv", "public/gal/geometric_algebra.hpp:bivector_mv"]}
{"id": "C48", "title": "Expression operators stay within their node arrays", "statement": "Building an expression with the operators of expr.hpp never reads a node before the first or after the last one of an operand and never writes past the capacity of the result. (Violated: selecting a component or grade of, applying a function to, or dividing the zero expression reads node -1.)", "quantifier": "all expressions and tuples of expressions", "why_tests_cant": "unbounded expression trees", "anchors": ["public/gal/expr.hpp:rpne", "public/gal/expr.hpp:operator+(rpne,rpne)", "public/gal/expr.hpp:operator[]", "public/gal/expr.hpp:rpne_concat"]}
{"id": "C49", "title": "Blade literals stand for the number times the named blade", "statement": "n_e<digits> is n times the product of the generators in the name, -n_e<digits> its negation, n_ps the pseudoscalar and n_ips the inverse pseudoscalar, in the four algebras. (Violated for n >= 2^31: the number is cast to a 32-bit integer without a check.)", "quantifier": "all unsigned 64-bit numbers and all literals of vga, pga, pga2 and cga", "why_tests_cant": "2^64 numbers per literal; tests use 1", "anchors": ["public/gal/vga.hpp:operator\"\" _e0", "public/gal/pga.hpp:operator\"\" _e0", "public/gal/pga2.hpp:operator\"\" _e0", "public/gal/cga.hpp:operator\"\" _e1"]}
{"id": "C50", "title": "Rotors rotate", "statement": "Computing r * v * ~r or v % r for the rotor of an angle and a unit axis gives v turned by that angle about that axis; the product of two rotors turns by one and then the other.", "quantifier": "all real angles, unit axes and vectors", "why_tests_cant": "uncountably many inputs; tests try few angles", "anchors": ["public/gal/vga.hpp:rotor", "public/gal/expr.hpp:operator%", "public/gal/engine.hpp:compute"]}
{"id": "C51", "title": "Lines have Plücker coordinates", "statement": "The join of two points p and q, read as a line, has the direction p - q and the moment p x (p - q); the line through c with the direction d has the moment c x d, contains c, and coordinates with d . m = 0 are those of a line. (Violated: the second coordinate of the moment has the wrong sign.)", "quantifier": "all real points, directions and moments", "why_tests_cant": "uncountably many inputs; the repository's tests use lines whose second moment coordinate is zero", "anchors": ["public/gal/pga.hpp:line", "public/gal/expr.hpp:operator&"]}
{"id": "C52", "title": "Joins and meets in the projective algebra", "statement": "The join of a plane and a point vanishes exactly when the point lies on the plane; the join of three points is the plane through them; three planes with independent normals meet in the point that lies on all three.", "quantifier": "all real points and planes", "why_tests_cant": "uncountably many inputs", "anchors": ["public/gal/pga.hpp:plane", "public/gal/vga.hpp:point", "public/gal/expr.hpp:operator&", "public/gal/expr.hpp:operator^"]}
{"id": "C53", "title": "exp is the exponential", "statement": "exp(B) computed by the engine is the value at 1 of the solution of E' = B E with E(0) = 1, for every bivector B of the euclidean and the projective algebra. (Violated for the ideal lines, whose exponentials are the translations.)", "quantifier": "all bivectors with real components", "why_tests_cant": "uncountably many inputs; the defining equation is not executable", "anchors": ["public/gal/expr.hpp:exp", "public/gal/engine.hpp:compute"]}
{"id": "C54", "title": "motor::normalize normalizes", "statement": "The normalized motor r satisfies r * ~r = 1 and is the motor times some a + b I with a > 0, for every motor with a non-zero rotation part.", "quantifier": "all motors with real components", "why_tests_cant": "uncountably many inputs", "anchors": ["public/gal/pga.hpp:motor::normalize"]}
{"id": "C55", "title": "The logarithm of a motor", "statement": "exp(log(m)) = m for every normalized motor m. (Violated for half turns, where the result is 0 or the logarithm of -m, and for translations, where the code divides by zero.)", "quantifier": "all normalized motors", "why_tests_cant": "uncountably many inputs; the exceptional set has measure zero", "anchors": ["public/gal/pga.hpp:log"]}
{"id": "C56", "title": "Normalizing directions", "statement": "normalize of a vector, rotor or translator makes the direction a positive multiple of itself with length 1 and changes nothing else.", "quantifier": "all real directions but zero", "why_tests_cant": "uncountably many inputs", "anchors": ["public/gal/vga.hpp:vector::normalize", "public/gal/vga.hpp:rotor::normalize", "public/gal/pga.hpp:rotor::normalize", "public/gal/pga.hpp:translator::normalize"]}
{"id": "C57", "title": "Distances in the conformal algebra", "statement": "The inner product of two conformal points is minus half the squared distance, and the square of a point cancels completely at compile time.", "quantifier": "all real points", "why_tests_cant": "uncountably many inputs; rests on the change to and from the null basis", "anchors": ["public/gal/cga.hpp:point", "public/gal/algebra.hpp:to_natural_basis", "public/gal/engine.hpp:compute"]}
{"id": "C58", "title": "Motors move points rigidly", "statement": "For a normalized motor m the computed p % m is the image of p under a screw motion (a rotation about a line and a translation along it); distances and orientation are kept. The motor exp((u + v I) L) of a line L turns by -2u about L and moves by 2v along it.", "quantifier": "all normalized motors and points with real components", "why_tests_cant": "uncountably many inputs", "anchors": ["public/gal/pga.hpp:motor", "public/gal/expr.hpp:operator%", "public/gal/engine.hpp:compute"]}
{"id": "C59", "title": "Inputs of compute: built-in numbers and entities", "statement": "compute accepts every non-empty sequence of inputs with one value type, built-in numbers among them; the value type is that of the inputs, every component has its own cell, and the first free id is the number of cells. (Violated: a built-in number as the first input, or before another input, does not compile.)", "quantifier": "all sequences of input types", "why_tests_cant": "arbitrarily many inputs; a failure is a compile error, which a test suite cannot contain", "anchors": ["public/gal/engine.hpp:infer_field", "public/gal/engine.hpp:data_size", "public/gal/engine.hpp:fill", "public/gal/expr.hpp:rpne_entities"]}
{"id": "C60", "title": "Temporaries of algebras with a null basis", "statement": "In algebras with a null basis, a temporary is read back with the coefficients it was computed with, from cells that were reserved for it. (Violated: it is written in the null basis and read in the natural one; the null form can have more blades than there are cells; a reference to a converted input has a cell for its spare capacity.)", "quantifier": "all expressions with a repeated or sandwiching subexpression, all inputs", "why_tests_cant": "the tests of the conformal algebra contain no temporaries; which blades are affected depends on the basis", "anchors": ["public/gal/engine.hpp:finalize_temps", "public/gal/null_algebra.hpp:to_null_basis", "public/gal/dfa.hpp:rpn_ctx", "public/gal/algebra.hpp:create_ref"]}
{"id": "C61", "title": "Conformal versors move points, and points span lines, planes and spheres", "statement": "The sandwich of a conformal point by a translator, a rotor or a dilator is the moved point; the contraction of a point and a sphere tells where the point is; exterior products of points and infinity vanish exactly for points on a line or plane. (Violated: the weight of the image is ignored when it is read as a point.)", "quantifier": "all points, translations, rotations, dilations, spheres", "why_tests_cant": "real parameters", "anchors": ["public/gal/cga.hpp:point", "public/gal/expr.hpp:operator%", "public/gal/null_algebra.hpp:to_natural_basis"]}
{"id": "C62", "title": "The debugging interface shows what compute uses", "statement": "The multivector evaluate::ie returns for a lambda has, at the data of the inputs, the value of the lambda; input_map lists inputs of the lambda with the id of their first component. (Violated: the factor of the expression is dropped, so 2 x is shown as x; a lambda that is zero has no multivector.)", "quantifier": "all lambdas over the algebraic operators, all inputs", "why_tests_cant": "unbounded family of expressions and inputs", "anchors": ["public/gal/engine.hpp:evaluate", "public/gal/dfa.hpp:rpn_ids", "public/gal/dfa.hpp:rpn_ctx"]}
{"id": "C63", "title": "The motions written as lambdas in the tests", "statement": "translator(d, l) moves points by d along l, rotor(a, l) turns points and planes about l, circle and torus trace a circle and a torus, v % w reflects, exp(q & p) turns about the line through p and q by twice their distance.", "quantifier": "all angles, distances, radii, lines, planes and points", "why_tests_cant": "the tests check one value of each parameter", "anchors": ["test/test_pga.cpp:rotor", "test/test_pga.cpp:translator", "test/test_pga.cpp:torus", "public/gal/expr.hpp:exp", "public/gal/engine.hpp:compute"]}
{"id": "C64", "title": "The debugging text of a program determines it", "statement": "Two programs have the same to_string text exactly if they have the same scale and agree node by node in operator and shown attributes; two lambdas over the same inputs with the same text have the same value. (Violated with show_checksums: x / y and x / (2 y) have the same text; inputs without components have the id of the next input.)", "quantifier": "all programs, both flags, all lambdas over the algebraic operators", "why_tests_cant": "unbounded family of programs; injectivity of a printer", "anchors": ["public/gal/expr.hpp:to_string"]}
{"id": "C65", "title": "Evaluation stays in bounds", "statement": "The evaluation of a program that the stack machine can run accesses no array out of bounds, reads no cell that was not written and never lacks an operand: it returns the right values or reports an arithmetic overflow.", "quantifier": "all programs, inputs, metrics and bases; rounded and unrounded runs", "why_tests_cant": "absence of undefined behaviour for all programs; the arrays are sized by compile-time bounds that depend on the program", "anchors": ["public/gal/dfa.hpp:rpn_dfa", "public/gal/engine.hpp:compute", "public/gal/algebra.hpp:mv"]}
{"id": "C66", "title": "Reshaping is total, computing is right or fails arithmetically", "statement": "rpn_reshape succeeds on the program of every lambda and tuple: its scans end and access no array out of bounds, and the result fits into three times the capacity. Hence compute either returns the right value or fails by integer overflow, division by zero or rounding; no other outcome is possible. (Violated when a division or function is applied to a nested selection.)", "quantifier": "all programs; all lambdas and tuples of algebraic operators, all inputs, metrics and bases", "why_tests_cant": "totality for all programs; two passes over a program with backward scans whose bounds depend on its shape", "anchors": ["public/gal/dfa.hpp:rpn_reshape", "public/gal/engine.hpp:compute"]}
{"id": "C67", "title": "The inverse kinematics benchmark", "statement": "Each step of the inverse kinematics benchmark computes the geometric object that its name says, for all angles and points: the points of a plane are conformal points, the dual of J ^ P ^ ni is the line through J and P, expp of a line is the rotation about it up to the remainder of the series, and the tuples can be evaluated. (Violated by the point type, by the lines and by two of the tuples.)", "quantifier": "all angles, axes, points and motors", "why_tests_cant": "the test compares one set of angles with a tolerance of 1%, one of its expected values was replaced to make it pass, and it is commented out of the build", "anchors": ["benchmark/ga-benchmark/SpecializedAlgorithmInverseKinematics.hpp:InverseKinematics", "benchmark/ga-benchmark/SpecializedAlgorithmInverseKinematics.hpp:point_xz", "benchmark/ga-benchmark/SpecializedAlgorithmInverseKinematics.hpp:expp", "test/test_ik.cpp:cga-ik"]}
{"id": "C68", "title": "Evaluation in floating point", "statement": "Each component computed in floating point differs from the exact component by at most gamma_n = n u / (1 - n u) times the sum of the absolute values of its monomials, where u is the unit roundoff and n the number of roundings, known at compile time. Terms that cancel symbolically are not rounded at all, and integers are computed exactly while the sums stay within the precision. (A bound relative to the exact component is violated.)", "quantifier": "all algebraic lambdas and programs, all metrics and bases, all inputs, every rounding with relative error u (float and double in particular)", "why_tests_cant": "the tests compare a few values with an absolute tolerance of a test framework; an error bound for all inputs cannot be observed", "anchors": ["public/gal/engine.hpp:cmon::value", "public/gal/engine.hpp:cterm::value", "public/gal/engine.hpp:compute_entity", "public/gal/numeric.hpp:pow"]}
{"id": "C69", "title": "The size of a compiled expression is a function of the lambda", "statement": "The capacity of the expression type compiled from a lambda is determined by its operators alone (not by what the operands simplify to), is never exceeded by the nodes stored, is linear in the number of operators without sandwiches and may be exponential with them; reshaping takes three times as much. Hence the size conditions of the theorems about compute can be checked on the lambda.", "quantifier": "all lambdas and tuples, all inputs", "why_tests_cant": "all expressions; the capacity is a template argument nobody prints, and one node too few is undefined behaviour only when every operand is at its maximum", "anchors": ["public/gal/expr.hpp:operator+", "public/gal/expr.hpp:rpne", "public/gal/dfa.hpp:rpn_reshape"]}
{"id": "C70", "title": "The pointer-level iterators visit and write exactly what the algebra sees", "statement": "The monomial and term iterators (++, +, -, ==) behave as positions; the nested loops through them visit exactly the terms, monomials and indeterminates of the multivector, and the functions written with them (negate, reverse, divide by a constant, extent, sum and its output iterators) store exactly what the list-level model stores; they stop, and stay inside the arrays whenever the multivector is well formed.", "quantifier": "all well-formed multivectors, all positions and distances below 2^64", "why_tests_cant": "an iterator one past the end reads memory without failing; all layouts cannot be enumerated", "anchors": ["public/gal/algebra.hpp:mv::term_it", "public/gal/algebra.hpp:mv::mon_it", "public/gal/algebra.hpp:detail::sum", "public/gal/algebra.hpp:negate"]}
{"id": "C71", "title": "Members, operator[] and mutable selection address the component they name", "statement": "Every member of the entity types, under each of its names, and the operator[] with its position are the same cell; constructors store their arguments in that order; assigning to it changes the multivector that the entity stands for in the coefficient of that blade and nowhere else (for lines and conformal points, in the coordinate named); assigning through select does the same for stored blades and fails for others.", "quantifier": "all entity types, all components, all values, all blades", "why_tests_cant": "all types, members and values", "anchors": ["public/gal/vga.hpp:vector", "public/gal/pga.hpp:line", "public/gal/cga.hpp:point", "public/gal/entity.hpp:entity::select", "public/gal/entity.hpp:entity::operator[]"]}
{"id": "C72", "title": "Plane geometry with pga2", "statement": "In the algebra of pga2.hpp, for lines d e0 + x e1 + y e2 and points on e01, e02, e12: l*l is x^2+y^2; l^P vanishes exactly if P is on l; l^m is the unique intersection, ideal exactly if the lines are parallel; P&Q is the line through P and Q; l|P is the perpendicular through P; (l|P)*l its foot; the sandwich with l is the mirror image of points and lines, and with l*m the one reflection after the other.", "quantifier": "all lines and points of the plane, both arithmetic modes", "why_tests_cant": "pga2 has no tests; all reals", "anchors": ["public/gal/pga2.hpp:pga2_metric", "public/gal/pga2.hpp:line", "public/gal/pga2.hpp:compute"]}
{"id": "C73", "title": "Accuracy of normalization and of rotors in floating point", "statement": "In a type T whose operations have a relative error of at most u, normalize of a vector, rotor or translator returns what it would without rounding, with a relative error of at most gamma(5) = 5u/(1-5u) in each component, and a length within gamma(5) of 1; the rotor constructor stores a cosine and sine within u of those of half the angle; motor::normalize has a relative error of at most gamma(5) in the rotating components and gamma(20) relative to the terms of the others, and its rotating part is a unit up to gamma(10). Normalizing k + 1 times keeps the length as near to one, and the direction (of a vector, or of the rotating part of a motor) within gamma(10k + 5) of the original one.", "quantifier": "all reals, all rounding functions with relative error u, float and double in particular", "why_tests_cant": "tests compare a few vectors with a tolerance; the bound is over all inputs", "anchors": ["public/gal/vga.hpp:vector::normalize", "public/gal/vga.hpp:rotor", "public/gal/pga.hpp:motor::normalize", "public/gal/pga.hpp:translator::normalize"]}
{"id": "C74", "title": "Normalization stays in the range of the format", "statement": "normalize of a vector whose components are finite numbers, not all zero, computes finite numbers: no intermediate result leaves the range of normal numbers.", "quantifier": "all vectors of doubles and floats", "why_tests_cant": "the failing vectors are extreme; tests use vectors of moderate size", "anchors": ["public/gal/vga.hpp:vector::normalize", "public/gal/pga.hpp:rotor::normalize"]}
{"id": "C75", "title": "Accuracy of the logarithm of motors in floating point", "statement": "In a type T whose operations have a relative error of at most u, motor::log of a motor whose scalar part is above the threshold of the code returns the bivector it would return without rounding: each component of the direction with a relative error of at most gamma(12), each component of the moment with an error of at most gamma(28) relative to its terms without the signs; the length of the direction is the angle up to gamma(12), however small or large the angle is (2^-49 in double, 2^-20 in float). Below the threshold (near a half turn) and with d7 not 0, the error is that bound plus the error of p2 relative to d7; with d7 = 0 the length of the direction is 0 or within gamma(8) of PI, so for half turns the result is wrong in every format. For translations it returns nothing.", "quantifier": "all motors on either side of the threshold, normalized or not, all rounding functions with relative error u, both arithmetic modes", "why_tests_cant": "the tests of the logarithm are commented out (test_pga.cpp:289-314); the bound is over all motors and formats", "anchors": ["public/gal/pga.hpp:motor::log"]}
