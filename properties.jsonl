{"id": "C01", "title": "ZZ ring arithmetic is exact and canonical", "statement": "Adding, subtracting, multiplying, negating, incrementing, fused multiply-add/sub and comparing ZZ values gives exactly the mathematical integer result, and the result is stored in the one canonical representation of that integer (inline word iff it fits int64), whether the operands and the result are inline or big, including aliasing/in-place forms.", "quantifier": "every pair/triple of integers of any size in any of the inline/big representation combinations, at every int64 boundary", "why_tests_cant": "the small/big transitions happen at 2^63 boundaries over pairs of unbounded integers; no finite sample covers all carries and promotions", "anchors": ["clpoly/number/ZZ.hh: class ZZ, operator+, operator-, operator*, operator+=, addmul, submul, operator==, operator<"]}
{"id": "C02", "title": "ZZ operations never hit undefined behaviour", "statement": "No ZZ arithmetic operation on well-formed values executes C++ undefined behaviour such as signed overflow.", "quantifier": "every pair of well-formed ZZ values including INT64_MIN", "why_tests_cant": "UB at one single value pair is invisible in sampled tests and on most compilers", "anchors": ["clpoly/number/ZZ.hh: operator+, operator-, operator+=, operator-=, fdiv_ui, sizeinbase, gcd"]}
{"id": "C03", "title": "ZZ division, remainder, gcd and lcm", "statement": "a/b and a%b are the truncated quotient and remainder (a = b*(a/b) + a%b, |a%b|<|b|, sign of a), division by zero is signalled and never silently answered, gcd is the non-negative greatest common divisor and lcm the non-negative least common multiple, for all integers.", "quantifier": "every pair of integers, including 0, INT64_MIN and -1", "why_tests_cant": "quotient overflow INT64_MIN/-1 and representation changes occur only at isolated points in an unbounded domain", "anchors": ["clpoly/number/ZZ.hh: operator/, operator%, gcd, lcm, divexact, fdiv_ui"]}
{"id": "C04", "title": "QQ is an exact ordered field in lowest terms", "statement": "Every QQ arithmetic operation and comparison returns the exact rational result, with positive denominator coprime to the numerator, so that == on QQ decides equality of rationals; division by zero is signalled.", "quantifier": "every pair of rationals of any size", "why_tests_cant": "canonical form is an invariant over all operation sequences on unbounded operands", "anchors": ["clpoly/number/QQ.hh: class QQ"]}
{"id": "C05", "title": "Zp arithmetic is exact arithmetic modulo p", "statement": "For every modulus p representable in 64 bits and all residues, addition, subtraction, negation, multiplication (Barrett reduction with precomputed inverse) and powering return the canonical residue of the mathematical result; for prime p inversion and division return the unique inverse/quotient; no intermediate 64/128-bit computation overflows.", "quantifier": "every modulus 2 <= p < 2^64 and every pair of residues", "why_tests_cant": "the Barrett correction steps depend on 2^192 combinations of (p,a,b)", "anchors": ["clpoly/number.hh: class Zp, __nmod_mul, inv_prime, pow"]}
{"id": "C06", "title": "Variable registry is consistent", "statement": "After any history of creating variables by name, creating anonymous variables and deleting variables, each live name denotes exactly one serial and each live serial exactly one name; asking for an existing name returns the same variable; a fresh variable never equals a live one.", "quantifier": "every finite history of registry operations", "why_tests_cant": "quantifies over all histories of create/delete/re-create", "anchors": ["clpoly/variable.hh: class variable, new_variable, del_variable, get_variable", "clpoly/variable.cc"]}
{"id": "C07", "title": "Monomial orders are admissible", "statement": "lex, grlex, custom-variable-order and univariate-first orders on monomials are strict total orders (irreflexive, transitive, total up to equality) and are compatible with multiplication: m1>m2 implies m1*m>m2*m; the constant monomial is the least.", "quantifier": "every set of variables, every variable order, all monomials of any length and exponents", "why_tests_cant": "order axioms quantify over triples of unbounded monomials", "anchors": ["clpoly/monomial_order.hh", "clpoly/basic_monomial.hh", "clpoly/basic.hh: pair_vec_comp"]}
{"id": "C08", "title": "Monomial algebra", "statement": "Monomial product, quotient, lcm, divisibility test and power act exponent-wise for every variable, keep the sorted no-zero-exponent normal form, and keep the cached total degree equal to the sum of exponents.", "quantifier": "every pair of normal monomials", "why_tests_cant": "merging of sparse lists over unboundedly many variables", "anchors": ["clpoly/basic_monomial.hh: operator*, operator/, gcd, lcm, is_divexact, pow", "clpoly/basic.hh: pair_vec_add, pair_vec_sub"]}
{"id": "C09", "title": "Polynomial addition, subtraction, negation", "statement": "p+q, p-q and -p have on every monomial the sum/difference/negative of the coefficients, and are again in normal form (strictly decreasing monomials, no zero coefficient).", "quantifier": "every pair of normal polynomials over any coefficient ring and any admissible monomial order", "why_tests_cant": "unbounded term lists with arbitrary cancellation patterns", "anchors": ["clpoly/basic.hh: pair_vec_add, pair_vec_sub, pair_vec_negate", "clpoly/basic_polynomial.hh: operator+, operator-"]}
{"id": "C10", "title": "Normal form is unique, so == decides equality", "statement": "Two polynomials in normal form compare equal with == if and only if they have the same coefficient on every monomial; the zero polynomial is the empty one; < is consistent with ==.", "quantifier": "every pair of normal polynomials", "why_tests_cant": "an equivalence between a syntactic test and equality of functions on infinitely many monomials", "anchors": ["clpoly/basic_polynomial.hh: operator==, normalization", "clpoly/basic.hh: pair_vec_equal_to"]}
{"id": "C11", "title": "Normalization yields the normal form of the given terms", "statement": "Constructing a polynomial from an arbitrary list of terms (any order, repeated monomials, zero coefficients) followed by normalization() gives the polynomial in normal form whose coefficient on each monomial is the sum of those given.", "quantifier": "every finite term list, every sorting outcome std::sort may produce", "why_tests_cant": "arbitrary permutations and repetitions; like terms that cancel", "anchors": ["clpoly/basic.hh: pair_vec_normalization", "clpoly/basic_polynomial.hh: basic_polynomial(initializer_list), normalization"]}
{"id": "C12", "title": "Heap multiplication computes the product", "statement": "The chained-heap polynomial multiplication returns, for polynomials in normal form, the product polynomial (coefficient on m is the sum over m1*m2=m of c1*c2) in normal form, it terminates, and every heap/array index it uses is in range.", "quantifier": "every pair of normal polynomials of any length over any integral domain and any admissible order", "why_tests_cant": "the interleaving of heap extractions, chains of equal monomials and cancellations grows with the inputs", "anchors": ["clpoly/basic.hh: VHC_extract, VHC_insert, __pair_vec_multiplies, pair_vec_multiplies", "clpoly/basic_polynomial.hh: operator*"]}
{"id": "C13", "title": "Packed-exponent multiplication agrees with the plain one within its range", "statement": "Whenever every exponent and degree of the product fits the packed field width, multiplying polynomials through the 64-bit packed monomial code gives the same polynomial as unpacked multiplication.", "quantifier": "every pair of normal polynomials over n variables whose product degrees fit 64/(n+1) (grlex) or 64/n (lex) bits", "why_tests_cant": "bit-field layouts for every variable count and all exponents up to the boundary", "anchors": ["clpoly/monomial_order.hh: __monomial_compression, __is_monomial_can_compression", "clpoly/monomial.hh: pair_vec_multiplies"]}
{"id": "C14", "title": "Multiplication never silently overflows the packed code", "statement": "For all polynomials, the product returned by operator* is the mathematical product even if exponents do not fit the packed representation (the implementation must fall back to the unpacked algorithm).", "quantifier": "every pair of normal polynomials with any exponents", "why_tests_cant": "needs huge exponents or many variables that tests rarely use", "anchors": ["clpoly/monomial_order.hh: __is_monomial_can_compression", "clpoly/monomial.hh: pair_vec_multiplies"]}
{"id": "C15", "title": "Power of a polynomial", "statement": "pow(p,n) equals the n-fold product p*...*p for all n >= 0 (p^0=1) and is in normal form; powers of monomials and coefficients likewise.", "quantifier": "every polynomial and every non-negative exponent", "why_tests_cant": "binary powering over unbounded exponents", "anchors": ["clpoly/basic.hh: pair_vec_power", "clpoly/basic_polynomial.hh: power, pow"]}
{"id": "C16", "title": "Exact division", "statement": "If G divides F in the polynomial ring then F/G returns the quotient Q with F=Q*G; conversely whenever division with remainder reports an empty remainder, F=Q*G holds.", "quantifier": "every pair of normal polynomials, divisor non-zero", "why_tests_cant": "heap-driven division with unbounded numbers of terms and heap states", "anchors": ["clpoly/basic.hh: pair_vec_div, __pair_vec_div", "clpoly/basic_polynomial.hh: operator/", "clpoly/monomial.hh: pair_vec_div"]}
{"id": "C17", "title": "Division with remainder identity", "statement": "Division of F by G with quotient Q and remainder R satisfies F = Q*G + R with no monomial of R divisible by the leading monomial of G over a coefficient field.", "quantifier": "every pair of normal polynomials with non-zero divisor over a field", "why_tests_cant": "unbounded inputs and heap states", "anchors": ["clpoly/basic.hh: pair_vec_div", "clpoly/monomial.hh: pair_vec_div"]}
{"id": "C18", "title": "Division with remainder identity over the integers", "statement": "The division-with-remainder routine over ZZ also satisfies F = Q*G + R when leading coefficients do not divide exactly.", "quantifier": "every pair of normal integer polynomials with non-zero divisor", "why_tests_cant": "fails only on inexact coefficient divisions of univariate/uncompressed inputs", "anchors": ["clpoly/basic.hh: pair_vec_div (with R)", "clpoly/upolynomial.hh"]}
{"id": "C19", "title": "Adding a scalar to a polynomial", "statement": "p+c and p-c for a coefficient c equal the polynomial sum with the constant c and are in normal form (so (p+c)-c == p).", "quantifier": "every normal polynomial and every scalar", "why_tests_cant": "needs the cases p empty, cancelling constant term and c=0", "anchors": ["clpoly/polynomial_.hh: operator+, operator-"]}
{"id": "C20", "title": "Scaling by a coefficient and by a monomial", "statement": "c*p and m*p have the expected coefficients and are in normal form for every scalar c (including 0) and every monomial m.", "quantifier": "every normal polynomial, scalar and monomial", "why_tests_cant": "unbounded inputs", "anchors": ["clpoly/basic_polynomial.hh: operator*", "clpoly/polynomial_.hh", "clpoly/monomial.hh: pair_vec_multiplies"]}
{"id": "C21", "title": "Pseudo-remainder", "statement": "prem(G,F,v) = R satisfies lc_v(F)^(max(deg_v G-deg_v F+1,0)) * G = Q*F + R for some polynomial Q with deg_v R < deg_v F, for F with positive degree in v.", "quantifier": "every pair of polynomials and main variable", "why_tests_cant": "a loop invariant over an unbounded number of reduction steps", "anchors": ["clpoly/polynomial.hh: prem, __prem"]}
{"id": "C22", "title": "Pseudo-quotient", "statement": "pquo(G,F,v) together with prem(G,F,v) satisfies the pseudo-division identity lc_v(F)^k * G = pquo*F + prem.", "quantifier": "every pair of polynomials and main variable", "why_tests_cant": "loop invariant over unbounded steps", "anchors": ["clpoly/polynomial.hh: pquo"]}
{"id": "C23", "title": "Substitution of a value for a variable", "statement": "assign(p,v,c) is the polynomial obtained by evaluating v at c (a ring homomorphism) and is in normal form.", "quantifier": "every polynomial, variable and value", "why_tests_cant": "like terms may meet in any position after substitution", "anchors": ["clpoly/polynomial.hh: assign", "clpoly/upolynomial.hh: assign"]}
{"id": "C24", "title": "Derivative", "statement": "derivative(p,v) has the coefficients of the formal partial derivative, satisfies linearity and the Leibniz rule, and is in normal form.", "quantifier": "every polynomial and variable over any coefficient ring (including positive characteristic)", "why_tests_cant": "characteristic-dependent vanishing and unbounded inputs", "anchors": ["clpoly/polynomial.hh: derivative", "clpoly/upolynomial.hh: derivative"]}
{"id": "C25", "title": "Degree and coefficient extraction", "statement": "degree(p,v) is the largest exponent of v; coeff(p,v,i)/leadcoeff(p,v) extract exactly the coefficient of v^i, so p is the sum of coeff(p,v,i)*v^i; get_variables lists exactly the occurring variables.", "quantifier": "every normal polynomial and variable", "why_tests_cant": "unbounded inputs", "anchors": ["clpoly/polynomial.hh: degree, coeff, leadcoeff, get_variables"]}
{"id": "C26", "title": "Conversion between orders and representations", "statement": "poly_convert between monomial orders, to and from univariate polynomials, and between coefficient rings preserves the mathematical polynomial and yields normal form in the target order; converting back restores the original.", "quantifier": "every polynomial and every pair of orders", "why_tests_cant": "re-sorting unbounded term lists", "anchors": ["clpoly/polynomial_convert.hh: poly_convert"]}
{"id": "C27", "title": "GCD result is a common divisor", "statement": "Every value returned by the univariate and multivariate gcd routines divides both inputs exactly, whatever primes and evaluation points the modular/heuristic search picked.", "quantifier": "every pair of non-zero polynomials and every outcome of the randomised/modular search", "why_tests_cant": "the search chooses primes/evaluation points; unlucky ones must never leak a wrong result", "anchors": ["clpoly/polynomial_gcd.hh: polynomial_GCD", "clpoly/polynomial_gcd.cc"]}
{"id": "C28", "title": "Extended GCD satisfies Bezout", "statement": "The extended gcd routines over Zp return r,s,t with s*F+t*G=r, and r divides F and G.", "quantifier": "every pair of univariate polynomials over every prime field", "why_tests_cant": "loop invariant over an unbounded Euclid chain", "anchors": ["clpoly/polynomial_gcd.hh: extended GCD"]}
{"id": "C29", "title": "Content and primitive part", "statement": "cont(p)*pp(p) = p, the content is the gcd of the coefficients (up to sign) and the primitive part has content 1.", "quantifier": "every non-zero polynomial", "why_tests_cant": "unbounded coefficient lists", "anchors": ["clpoly/polynomial_gcd.hh: cont", "clpoly/upolynomial.hh: cont, pp"]}
{"id": "C30", "title": "Squarefree decomposition multiplies back", "statement": "The product of the factors returned by squarefree factorization raised to their multiplicities equals the input.", "quantifier": "every non-zero polynomial", "why_tests_cant": "Yun loop of unbounded length relying on gcds", "anchors": ["clpoly/polynomial_gcd.hh: squarefreefactorize"]}
{"id": "C31", "title": "Groebner normal form", "statement": "normal_form(f,G) over a field returns r with f-r in the ideal generated by G and no monomial of r divisible by a leading monomial of G; it terminates.", "quantifier": "every polynomial, every finite list of non-zero polynomials", "why_tests_cant": "reduction sequences of unbounded length", "anchors": ["clpoly/groebner.hh: normal_form"]}
{"id": "C32", "title": "Ideal membership over ZZ terminates", "statement": "Ideal<ZZ> membership tests terminate with a sound answer for every input.", "quantifier": "every integer polynomial and integer basis", "why_tests_cant": "non-termination cannot be observed by a passing test", "anchors": ["clpoly/groebner.hh: normal_form, Ideal::contains"]}
{"id": "C33", "title": "S-polynomials stay in the ideal", "statement": "s_polynomial(f,g) is a polynomial combination of f and g whose lcm leading term cancels.", "quantifier": "every pair of non-zero polynomials over a field", "why_tests_cant": "unbounded inputs", "anchors": ["clpoly/groebner.hh: s_polynomial"]}
{"id": "C34", "title": "Groebner basis", "statement": "groebner_basis(F) over a field returns polynomials generating the same ideal as F and such that every S-polynomial of the result reduces to 0.", "quantifier": "every finite list of polynomials and every pair selection", "why_tests_cant": "Buchberger criteria discard pairs; soundness quantifies over all runs", "anchors": ["clpoly/groebner.hh: groebner_basis"]}
{"id": "C35", "title": "Real root bound and Moebius transformations", "statement": "Every real root of a univariate integer polynomial lies in the returned bound; the interval transformations used by the root isolation compute exactly the stated substitutions.", "quantifier": "every non-constant integer polynomial", "why_tests_cant": "holds over all reals and all coefficient sizes", "anchors": ["clpoly/realroot.hh", "clpoly/realroot.cc"]}
{"id": "C36", "title": "Real root isolation finds every real root", "statement": "uspensky(p) for a squarefree polynomial returns isolating intervals covering all real roots of p, including 0.", "quantifier": "every squarefree integer polynomial", "why_tests_cant": "needs all polynomials", "anchors": ["clpoly/realroot.cc: uspensky"]}
{"id": "C37", "title": "Resultant is the Sylvester determinant", "statement": "For nonzero F, G of degree below 2^63 in v, resultant(F,G,v) terminates and returns the determinant of the Sylvester matrix of F and G with respect to v, as a normalised polynomial, whatever the monomial order of the arguments; hence, when one of them contains v, the result is free of v, is a combination a*F+b*G, and is zero exactly when F and G have a common factor of positive degree in v. With a zero argument the result is zero.", "quantifier": "every pair of polynomials over ZZ, QQ or Zp, every variable and monomial order", "why_tests_cant": "subresultant chains of unbounded length with arbitrary degree gaps, and determinants of unbounded size", "anchors": ["clpoly/resultant.hh: resultant, BezoutMatrix, det", "clpoly/polynomial.hh: prem, leadcoeff, coeff"]}
{"id": "C38", "title": "Interval intersection, hull and power", "statement": "For intervals A,B and any point x: x in A && B exactly if x is in both; A || B is the smallest interval containing both; pow(A,n) contains x^n for every x in A.", "quantifier": "every pair of intervals (including infinite and empty ones), all points and every exponent", "why_tests_cant": "quantifies over real points and all endpoint kinds", "anchors": ["clpoly/interval.hh", "clpoly/interval.cc"]}
{"id": "C39", "title": "Associated graph and elimination ordering", "statement": "The associated graph joins two variables exactly if they occur together in one polynomial; the chordal completion is a supergraph for which the returned elimination order is perfect.", "quantifier": "every polynomial set", "why_tests_cant": "graph of any size", "anchors": ["clpoly/associatedgraph.hh"]}
{"id": "C40", "title": "Dense Zp polynomial arithmetic", "statement": "Dense univariate polynomials over Zp: addition, subtraction, multiplication, division with remainder, scalar multiplication, gcd and the conversions from and to sparse polynomials agree with the mathematical operations.", "quantifier": "every prime and all dense polynomials", "why_tests_cant": "unbounded degrees, lazy reduction overflow boundaries", "anchors": ["clpoly/dense_upoly_zp.hh"]}
{"id": "C41", "title": "Factorization multiplies back", "statement": "factorize(p) returns a content and factors with multiplicities whose product is exactly p.", "quantifier": "every non-zero polynomial and every random choice", "why_tests_cant": "randomised splitting and Hensel lifting", "anchors": ["clpoly/polynomial_factorize.hh", "clpoly/polynomial_factorize_univar.hh", "clpoly/polynomial_factorize_zp.hh", "clpoly/polynomial_factorize_wang.hh"]}
{"id": "C42", "title": "Characteristic set", "statement": "The characteristic set returned is a triangular set whose members are in the ideal generated by the input and by which every input polynomial pseudo-reduces to 0.", "quantifier": "every finite polynomial set", "why_tests_cant": "loop until closure of unbounded length", "anchors": ["clpoly/charset.hh"]}
{"id": "C43", "title": "Reading a rational never produces an invalid value", "statement": "Every QQ value obtained by parsing text has a non-zero denominator and is in lowest terms.", "quantifier": "every input text", "why_tests_cant": "all inputs, including malformed ones", "anchors": ["clpoly/number/QQ.hh: operator>>"]}
{"id": "C44", "title": "Multiplying polynomials executes no undefined behaviour", "statement": "For all polynomials, operator* performs no operation the C++ standard leaves undefined (in particular no shift by the word size) while packing exponents.", "quantifier": "every pair of normal polynomials, every variable count", "why_tests_cant": "undefined behaviour usually goes unnoticed on the test machine", "anchors": ["clpoly/monomial_order.hh: __monomial_compression, __monomial_decompression", "clpoly/monomial.hh: __pair_vec_multiplies_compression"]}
{"id": "C45", "title": "Comparing and refining isolated real roots is exact", "statement": "For objects that hold isolated real roots (as realroot/uspensky return them), comparing two of them, or one with a rational or with an infinity, answers according to the order of the real numbers they hold, leaves both objects holding the same numbers, and shrinkinterval keeps the root while at least halving the interval.", "quantifier": "every pair of isolated roots (polynomial and interval), every rational, every infinity; roots in any real closed field", "why_tests_cant": "infinitely many polynomials and interval positions; the comparison mutates its arguments and loops until the intervals separate", "anchors": ["clpoly/realroot.cc: uroot::comp, _uroot_check", "clpoly/realroot.hh: class uroot, shrinkinterval"]}
{"id": "C46", "title": "squarefreebasis returns a squarefree basis", "statement": "For every list of integer polynomials, squarefreebasis returns pairwise coprime squarefree polynomials, each with the positions of the inputs in which it occurs and its multiplicity there, such that every non-zero input is, up to a non-zero integer factor, the product of the returned polynomials to the recorded multiplicities.", "quantifier": "every list of integer polynomials (zero polynomials allowed), every monomial order, every sequence of primes and evaluation points used by the gcds", "why_tests_cant": "infinitely many lists; the refinement splits elements again and again, and a lost multiplicity shows only for particular gcd patterns", "anchors": ["clpoly/polynomial_gcd.hh: squarefreebasis"]}
{"id": "C47", "title": "realroot isolates all real roots of a list of polynomials and records their multiplicities", "statement": "For every list of integer polynomials in one variable, realroot returns in increasing order one object for every real root of a non-zero element of the list, holding that root, and with it the positions of the elements that vanish there and the multiplicities of the root in them; the call terminates; a list with two different variables is rejected by an exception.", "quantifier": "every list of polynomials (any order, any real closed field for the roots)", "why_tests_cant": "infinitely many lists, real roots are not finite data, the multiplicities combine the squarefree basis, the isolation and index bookkeeping", "anchors": ["clpoly/realroot.hh: realroot", "clpoly/polynomial_gcd.hh: squarefreebasis", "clpoly/realroot.cc: uspensky"]}
{"id": "C48", "title": "Discriminant", "statement": "For an integer polynomial G of degree m >= 1 (below 2^31) in v, discriminant(G,v) terminates and returns a normalised D with lc_v(G)*D = (-1)^(m(m-1)/2) * det Sylvester(G, dG/dv), so D is zero exactly when G has a repeated factor of positive degree in v; for a G without v it returns zero.", "quantifier": "every integer polynomial, variable and monomial order", "why_tests_cant": "unbounded degrees and arbitrary coefficients; rests on the resultant of every pair G, dG/dv and on an exact division", "anchors": ["clpoly/resultant.hh: discriminant, resultant", "clpoly/polynomial.hh: derivative, leadcoeff"]}
{"id": "C49", "title": "Factorization modulo a prime", "statement": "For a non-zero univariate polynomial f over Z/p (p prime) of degree below 2^62-1, when __factor_Zp answers, it returns the leading coefficient of f and pairwise different monic irreducible polynomials with positive exponents, sorted by degree, such that f is the product of the leading coefficient and the powers; the random numbers drawn do not influence this.", "quantifier": "every prime p below 2^64, every polynomial over Z/p, every sequence of random residues, every sorting permutation", "why_tests_cant": "infinitely many primes and polynomials, and the equal-degree splitting is randomised: a wrong split shows only for some draws", "anchors": ["clpoly/polynomial_factorize_zp.hh: __factor_Zp, __squarefree_Zp, __ddf_Zp, __edf_Zp, __upoly_powmod, __upoly_make_monic, __extract_pth_root"]}
{"id": "C50", "title": "Distinct-degree stage modulo a prime", "statement": "For a non-zero square-free polynomial f over Z/p (p prime), when __ddf_Zp answers it returns pairs (g, d) of monic polynomials with strictly increasing d such that f is a non-zero constant times the product of the g, and every irreducible divisor of g has degree exactly d.", "quantifier": "every prime p below 2^64, every square-free polynomial over Z/p", "why_tests_cant": "infinitely many primes and polynomials; a degree bound wrong by one shows only for particular factor degrees", "anchors": ["clpoly/polynomial_factorize_zp.hh: __ddf_Zp, __upoly_powmod, __upoly_subtract_x"]}
{"id": "C51", "title": "Square-free stage modulo a prime", "statement": "For a non-zero polynomial f over Z/p (p prime), when __squarefree_Zp answers it returns pairs (g, e) of monic square-free polynomials of positive degree with pairwise different positive exponents, pairwise without a common divisor of positive degree, such that f is a non-zero constant times the product of the g^e - including the p-th-root recursion for f' = 0.", "quantifier": "every prime p below 2^64, every polynomial over Z/p", "why_tests_cant": "infinitely many primes and polynomials; exponents divisible by p and mixed cases take separate paths", "anchors": ["clpoly/polynomial_factorize_zp.hh: __squarefree_Zp, __extract_pth_root, __upoly_make_monic"]}
{"id": "C52", "title": "Hensel lifting of a factorization", "statement": "Let p be prime, f in Z[x] with p not dividing its leading coefficient c, and let f be congruent modulo p to c times a product of at least two monic polynomials, pairwise coprime modulo p. __hensel_lift terminates normally and returns a modulus m = p^(2^k) above the requested bound and a list L with one entry per given factor: each entry is monic with coefficients in [0, m), has the degree of its factor and reduces to it modulo p, and every coefficient of f - c * (product of L) is divisible by m.", "quantifier": "every prime p below 2^64, every integer polynomial, every list of at least two factors, every precision target", "why_tests_cant": "infinitely many polynomials, factor counts and precisions; an error in the Bezout update or in the tree shows only after several lifting rounds with particular remainders", "anchors": ["clpoly/polynomial_factorize_univar.hh: __hensel_lift, __hensel_step, __hensel_lift_recursive, __hensel_tree_build_recursive, __hensel_extract_factors, __upoly_divmod_mod, __upoly_mod_coeff"]}
{"id": "C53", "title": "Recombination of lifted factors", "statement": "Let f be a primitive integer polynomial with positive leading coefficient, let the lifted factors be any monic polynomials of positive degree, and let the modulus m be at least twice the leading coefficient of f. __zassenhaus_recombine terminates normally and the product of the returned polynomials is exactly f (sign and constant included), whatever the lifted factors are; each has positive degree and positive leading coefficient, and the list is sorted by degree. If moreover f = g h in Z[x] with positive leading coefficients, lc(h) g is congruent modulo m to lc(f) times the product of a non-empty sublist of at most half of the lifted factors and has coefficients below m/2 in absolute value, and deg f is the sum of the lifted degrees, then at least two factors are returned: the subset search misses no factorization that the lifted factors show.", "quantifier": "every primitive integer polynomial, every list of monic polynomials, every modulus that large, every std::sort", "why_tests_cant": "infinitely many polynomials, factor lists and moduli; the order in which subsets are tried, the pruning and the removal of used factors depend on all of them", "anchors": ["clpoly/polynomial_factorize_univar.hh: __zassenhaus_recombine, __subset_product_mod, __upoly_primitive, __upoly_symmetric_mod, __symmetric_mod, __upoly_const_term"]}
