# CLPoly formal model — design

## Approach

* `/verif/rocq/theories` contains a Rocq/Coq 8.16 model of `/repo/clpoly`.  Model files contain executable Gallina
  definitions, each with a comment citing the C++ file and lines; proof files contain lemmas; the `Props_*.v` files
  contain the property theorems (with `Print Assumptions`), the part of the specification that is special to them, and
  examples showing that non-trivial inputs meet the hypotheses.
* C++ undefined behaviour, thrown exceptions and non-termination are *distinct outcomes*:
  `outcome A := Ok a | Throw | UB | OutOfFuel`.  Loops run on explicit fuel.  "Terminates" means "some fuel gives an
  answer", and then every larger fuel gives the same; the heap algorithms compute enough fuel themselves.
* Coefficients: the templates are modelled generically over a record of operations (`coefs C`, Coef.v); theorems assume
  exactly the laws they need (commutative ring / integral domain / gcd domain / field) and are instantiated at `Z` (ZZ),
  canonical rationals (QQ) and residues (Zp).  That ZZ, QQ and Zp implement these value-level operations is proved
  separately from word-level models (C01-C05).
* Specification (`Spec.v`, independent of the model): a monomial is a list of (variable, exponent); `exp m v` sums the
  exponents of `v`; a polynomial is a list of terms and `coef p m` sums the coefficients on monomials with the same
  exponents as `m`; two polynomials are mathematically equal (`req K p q`) iff `coef` agrees on every monomial.  The
  product is the full term-by-term product.  SpecOps.v adds coefficients in one variable, derivative and substitution;
  ResSpec.v determinants and the Sylvester matrix; CharsetSpec.v, GroebnerSpec.v, RealrootSpec.v, OrderSpec.v, NumSpec.v
  the vocabulary of their properties.
* Randomness, primes drawn, evaluation points, `std::sort`, set iteration order: universally quantified (arbitrary
  streams, any sorted permutation).

## Properties: what is modelled and how it is proved

| id | property | status | model | proof |
|----|----------|--------|-------|-------|
| C01 | ZZ ring arithmetic is exact and canonical | proved | ZZ.v: (int64 word, optional mpz) with the range checks | case analysis against Z (ZZProofs.v) |
| C02 | ZZ operations never hit undefined behaviour | partial | ZZ.v with an explicit UB outcome | case analysis; false at INT64_MIN, refuted by a witness |
| C03 | ZZ division, remainder, gcd and lcm | proved | ZZ.v | against Z.quot / Z.div / Z.gcd |
| C04 | QQ is an exact ordered field in lowest terms | proved | QQ.v: canonicalised pairs | against the rationals of the standard library; field laws |
| C05 | Zp arithmetic is exact arithmetic modulo p | proved | Zp.v: 64/128-bit words, Barrett reduction | error bounds of the reciprocal; extended Euclid invariant; field laws for prime p |
| C06 | Variable registry is consistent | partial | Registry.v: state machine | invariant by induction over histories |
| C07 | Monomial orders are admissible | proved | Mono.v: lex, grlex, variable orders | induction over monomials; well-foundedness |
| C08 | Monomial algebra | proved | Mono.v | exponent functions |
| C09 | Polynomial addition, subtraction, negation | proved | PairVec.v merge loops | induction; coefficient-wise equality |
| C10 | Normal form is unique, so == decides equality | proved | PairVec.v, Poly.v | uniqueness of sorted lists |
| C11 | Normalization yields the normal form of the given terms | partial | PairVec.v, any sorted permutation for std::sort | induction; refuted for cancelling terms |
| C12 | Heap multiplication computes the product | proved | Heap.v: chained heap as arrays with bounds-checked accesses | heap invariant, remaining-products measure (HeapProofs, HeapMulProofs, PolyMulProofs) |
| C13 | Packed-exponent multiplication agrees with the plain one within its range | proved | Pack.v: 64-bit codes | the codes are order-preserving and additive on monomials that fit (PackLayout, PackMulProofs) |
| C14 | Multiplication never silently overflows the packed code | partial | Pack.v | refuted by concrete polynomials; see C13 for the guarded positive theorem |
| C15 | Power of a polynomial | proved | PairVec.v pair_vec_power | binary-exponent invariant |
| C16 | Exact division | proved | Div.v: heap division | loop invariant, well-founded termination (DivProofs, PolyDivProofs, DivExact) |
| C17 | Division with remainder identity | proved | Div.v | as C16, plus uniqueness of quotient and remainder over a field |
| C18 | Division with remainder identity over the integers | partial | Div.v | refuted over ZZ; soundness and completeness of the divisibility test |
| C19 | Adding a scalar to a polynomial | partial | PolyOps.v | refuted for empty / cancelling; guarded positive theorems |
| C20 | Scaling by a coefficient and by a monomial | proved | PolyOps.v | coefficient-wise |
| C21 | Pseudo-remainder | proved | Prem.v | loop invariant lc^k F = Q G + R, degree decreases (PremProofs) |
| C22 | Pseudo-quotient | proved | Prem.v | as C21 |
| C23 | Substitution of a value for a variable | partial | PolyOps.v | against the substitution of SpecOps.v; normal form refuted |
| C24 | Derivative | partial | PolyOps.v | against the formal derivative of SpecOps.v |
| C25 | Degree and coefficient extraction | partial | PolyOps.v | against degree and coefficient of SpecOps.v |
| C26 | Conversion between orders and representations | proved | PolyOps.v, ConvertQQ.v | coefficient-wise, round trips |
| C27 | GCD result is a common divisor | proved | Gcd.v, UGcd.v: modular gcd, GCDHEU, CRT; primes and points are arbitrary streams | trial division gives divisibility, degree bounds give maximality (Gcd*.v, UGcd*.v); gcds exist by Gauss's lemma (GcdDom, GcdPoly) |
| C28 | Extended GCD satisfies Bezout | proved | ExtGcd.v | Bezout invariant of the (pseudo-)Euclidean loops |
| C29 | Content and primitive part | proved | Gcd.v, UGcd.v | content from gcds; Gauss |
| C30 | Squarefree decomposition multiplies back | proved | Sqf.v | Yun's algorithm in characteristic 0, relative to one variable (SqfMath, SqfProofs) |
| C31 | Groebner normal form | proved | Groebner.v | reduction invariant, well-founded termination |
| C32 | Ideal membership over ZZ terminates | partial | GroebnerZZ.v | non-termination refuted by an invariant of the run; soundness over QQ |
| C33 | S-polynomials stay in the ideal | proved | Groebner.v | linear combination; refuted over ZZ |
| C34 | Groebner basis | proved | Groebner.v, GroebnerZZ.v | Buchberger's criterion with the elimination criteria (BuchProofs, BuchLoop); termination by Dickson's lemma (AF.v); uniqueness of the reduced basis |
| C35 | Real root bound and Moebius transformations | proved | Uspensky.v | over every real closed field of mathcomp (UspTrans, UspBound) |
| C36 | Real root isolation finds every real root | partial | Uspensky.v | Descartes' rule of signs (UspMath), halving (UspIso, UspVec), termination by root separation (UspTerm, UspTermV) |
| C37 | Resultant is the Sylvester determinant | proved | Resultant.v: subresultant chain and Bezout determinant | chain theorem by determinant relations (ResDet, ResMath, ResChain, ResInit); Bezout matrix (ResBez*) |
| C38 | Interval intersection, hull and power | proved | Interval.v; mpria arithmetic is any containing product | case analysis over endpoints incl. infinities and NaN |
| C39 | Associated graph and elimination ordering | proved | Graph.v; random choices are arbitrary streams | MCS / MCS-M invariants (GraphMcs*, GraphMath) |
| C40 | Dense Zp polynomial arithmetic | proved | Dense.v: words, Karatsuba, half-gcd | loop invariants, matrix invariant of half-gcd (Dense*.v) |
| C41 | Factorization multiplies back | partial | Factor.v; the modular factorization, the lifting and LLL/Wang's searches are arbitrary oracles | recombination is checked by division: product invariants (Factor*.v) |
| C42 | Characteristic set | proved | Charset.v | well-founded ranks (CharsetWf), ideal membership, pseudo-reduction |
| C43 | Reading a rational never produces an invalid value | partial | QQ.v reading | refuted by 1/0; guarded positive theorem |
| C44 | Multiplying polynomials executes no undefined behaviour | partial | Pack.v with strict shifts | refuted (shift by 64) |
| C45 | Comparing and refining isolated real roots is exact | partial | Uroot.v | signs around simple roots (UrootBase), interval bisection; order refuted by a witness |
| C46 | squarefreebasis returns a squarefree basis | proved | SqfBasis.v | invariant: squarefree, pairwise coprime, every input a product |
| C47 | realroot isolates all real roots of a list of polynomials and records their multiplicities | proved | Realroot.v | C36 + C46 + multiplicities over real closed fields |
| C48 | Discriminant | proved | Resultant.v | row operations on the Sylvester matrix of G, G' (ResDisc) |
| C49 | Factorization modulo a prime | proved | FactorZp.v; the random residues are an arbitrary stream | over 'F_p of mathcomp: FzpMath (Fermat for irreducibles, p-th roots), FactorZpBase; unique factorization |
| C50 | Distinct-degree stage modulo a prime | proved | FactorZp.v | a divisor of X^(p^d)-X has irreducible factors of degree at most d (FzpDdf.v, field extension) |
| C51 | Square-free stage modulo a prime | proved | FactorZp.v | multiplicities of roots over the algebraic closure (FzpMath) |
| C52 | Hensel lifting of a factorization | proved | Hensel.v | congruences modulo m and m^2 in Z[x] (HenselMath, HenselBase, HenselDiv, HenselStep, HenselTree, HenselBuild) |
| C53 | Recombination of lifted factors | proved | Factor.v | termination by the lexicographic rank of the index sets; invariant of the search: f = positive constant * (factors found) * (remaining polynomial), in Z[x] (Props_Recomb); completeness of the enumeration and success of the trial division on a true subset (Props_Recomb2) |

"partial" means, except where the MANIFEST note says otherwise, that the full statement is *false of the code*: it is
answered by a `_refuted` theorem with a concrete witness together with the strongest guarded positive theorem
(suffix `_partial`).  The one property that is partial because of the model is C41 (see below).

## What is false of the code (all stated as theorems)

| theorem | behaviour |
|---------|-----------|
| C02_no_ub_refuted | ZZ: negating INT64_MIN is signed overflow |
| C06_registry_refuted | a user variable named `#var_N` is overwritten by an automatic variable (the name check accepts every name) |
| C11_normal_form_refuted | normalization keeps a term whose coefficients cancelled |
| C14_no_overflow_refuted, C14_no_overflow_grlex_refuted | packed multiplication makes no range check (dangling else) |
| C16_inexact_quotient_normal_refuted, C18_division_refuted, C18_single_term_divisor_refuted | division with remainder over ZZ does not satisfy F = Q G + R |
| C19_add_scalar_refuted | p + c on the zero polynomial dereferences back(); a cancelling constant leaves a zero term |
| C23_assign_normal_refuted, C24_normal_refuted | substitution / derivative over Z/p leave zero terms |
| C25_leadcoeff_lex_constant_refuted | leadcoeff of a constant is 0 |
| C28_zz_gcd_univariate_refuted, C28_zz_gcd_multivariate_refuted | the extended gcd over ZZ does not return a gcd |
| C32_ideal_ZZ_terminates_refuted | Ideal<ZZ>({2x+1}).contains(x) never returns |
| C33_s_polynomial_ZZ_refuted | the S-polynomial over ZZ leaves the ideal |
| C36_single_zero_root_refuted | uspensky of one polynomial misses the root 0 |
| C38_power_huge_refuted | interval pow loops for n above 2^63 |
| C39_connected_branch_isolated_refuted | an isolated node is in no branch |
| C41_refuted | a release build returns a factorization of -p |
| C42_zero_member_refuted | charset of a list with the zero polynomial loops |
| C43_read_refuted | reading "1/0" yields denominator 0 |
| C44_multiplication_UB_refuted | shifts by 64 |
| C45_order_refuted | two rational roots each reported smaller than the other |
| C53_primitive_sign_refuted | __upoly_primitive of -3x is -x: leading coefficient not positive (not reached by the recombination) |
| C46_nonconstant_refuted | a squarefree basis may contain -1 |

Observed but not stated as theorems: `pair_vec_normal_check` on an empty list and `pair_vec_power` with a negative
exponent; the single-polynomial isolation of a non-squarefree polynomial recurses for ever; packed *division* for one
grlex variable with degrees above 2^31; the list-returning `subresultant` leaves a stale entry in the defective case;
`prem(O,G,F)` with O aliasing G; the discriminant's int64 product m*(m-1) for degrees near 2^32; `__squarefree_Zp` of a
constant.

## Modelled and not modelled

Modelled, by source file:

* number/ZZ.hh, number/QQ.hh, number.hh (Zp): ZZ.v, QQ.v, Zp.v - arithmetic, comparison, conversion, gcd; reading QQ.
  Not modelled: printing, hashing.
* variable.hh, variable.cc: Registry.v.
* basic.hh, basic_monomial.hh, basic_polynomial.hh, monomial.hh, monomial_order.hh, polynomial_.hh, upolynomial.hh,
  polynomial.hh, polynomial_convert.hh: PairVec.v, Mono.v, MonoStruct.v, Heap.v, Poly.v, Div.v, Pack.v, PolyOps.v,
  Prem.v, ConvertQQ.v.  Not modelled: I/O, the packed shortcut *inside division* (Div.v is the unpacked algorithm), moved-from objects.
  Where a higher algorithm multiplies or divides, the theorem says whether the packed shortcut is excluded or assumed
  correct when it answers (C13 gives the range where that is proved for multiplication).
* polynomial_gcd.hh, polynomial_gcd.cc: Gcd.v, UGcd.v, ExtGcd.v, Sqf.v, SqfBasis.v.
* groebner.hh: Groebner.v, GroebnerZZ.v.
* resultant.hh: Resultant.v, all but the list-returning `subresultant` (259-535).
* realroot.hh, realroot.cc: Uspensky.v, Uroot.v, Realroot.v.
* interval.hh: Interval.v (the mpria library is an arbitrary containing arithmetic).
* associatedgraph.hh/.cc: Graph.v.  Not modelled: graph_diff_score, elimination_height, heuristics, printing.
* charset.hh: Charset.v (rankcompare, is_reduced, basset, charset).  Not modelled: Wucharset, wrsd, rsd, ZDtoRC.
* dense_upoly_zp.hh: Dense.v (the scratch-buffer layout is not modelled).
* polynomial_factorize_zp.hh: FactorZp.v, in full.
* polynomial_factorize.hh, _univar.hh, _wang.hh: Factor.v - the drivers and the recombinations, which check their
  results by division; the searches (LLL, the lifting used by them, Wang's evaluation and lifting) are arbitrary
  oracles, so C41 holds whatever they answer, and does not claim irreducibility of the factors.  The quadratic Hensel lifting (`__hensel_step`, `__hensel_lift`, _univar.hh 90-600) is modelled and proved separately
  (Hensel.v, C52).  C53 adds termination and the exact product for `__zassenhaus_recombine`.
  Not modelled: `__mignotte_bound`, the linear lifting step, LLL.
* random.hh, crt.hh-style helpers beyond what the above uses, timing/profiling code, and printing are not modelled.

Simplifications are noted in the comment of each definition.  The recurring ones: exponents and degrees are unbounded
integers unless the property is about their range; std::vector capacity and moves are not modelled; std::sort is any
sorted permutation; std::map/std::set are sorted lists; allocation never fails.

## Trusted base

* The Coq 8.16.1 kernel, including `vm_compute` (used for examples and refutation witnesses).
* The reading of the C++ text into the model (no C++ was run), and the specifications named above.
* `Print Assumptions` answers **"Closed under the global context"** for every theorem in MANIFEST.json: no axiom of the
  standard library (no functional extensionality, no classical logic, no proof irrelevance axiom) and none of ours.
* The separate checker run by vcheck lists 53 names such as `mathcomp.ssreflect.bigop.BigOp.bigop`,
  `mathcomp.field.algC.Algebraics.Implementation.type`, `Coq.ssr.ssrunder.Under_rel.Under_rel`.  They are the fields of
  mathcomp's and ssreflect's own *sealed modules* (opaque module types implemented in the same library file, used there
  to block unfolding), not axioms: each has an implementation in the library, and none is ours.  They appear because the
  checker lists module-type fields of every loaded library.  The mathcomp parts used are algebra, field (algC, finite
  fields, field extensions), real_closed (UspMath etc.) and the `realalg` numbers as the example of a real closed field.
* External libraries (GMP, libstdc++, mpria) are assumed to meet their documentation.

## Testing the theorems against wrong programs

`seeded/LOG.jsonl` records each edit of a model definition tried in a scratch copy, the claim it breaks and the
theorems that failed; where none failed the theorem was tightened (recorded there).
