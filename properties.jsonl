{"id": "C01", "title": "Polynomial arithmetic is exact", "statement": "For two `Polynomial`s p, q in the same variables, `p+q`, `p-q`, `p*q`, `-p`, `c*p`, `p+c` and `p**n` (integer n>=0) return a Polynomial whose value at every point is the sum, difference, product, negation, scalar multiple, shift, or n-th power of the values of the operands.", "quantifier": "all pairs of polynomials (any number of terms and variables, repeated terms, negative exponents), all scalars, all n, all evaluation points", "why_tests_cant": "the algorithms merge and reorder terms; a wrong merge shows only for particular coincidences of exponents and cancelling coefficients", "anchors": ["pySecDec/algebra.py:Polynomial._sub_or_add", "pySecDec/algebra.py:Polynomial.__mul__", "pySecDec/algebra.py:Polynomial.__neg__", "pySecDec/algebra.py:Polynomial.__pow__"]}
{"id": "C02", "title": "Polynomial.simplify keeps the value and reaches a unique normal form", "statement": "`p.simplify()` evaluates to the same value as p everywhere; in the result the exponent rows are strictly increasing (hence distinct) and every coefficient is nonzero, except that the zero polynomial is stored as the single term 0; simplify is idempotent and two polynomials that agree coefficient by coefficient simplify to identical data.", "quantifier": "all polynomials, all points", "why_tests_cant": "infinitely many interleavings of duplicate rows, zeros and cancellations", "anchors": ["pySecDec/algebra.py:Polynomial.simplify", "pySecDec/misc.py:argsort_2D_array"]}
{"id": "C03", "title": "Polynomial.derive is the partial derivative", "statement": "`p.derive(i)` evaluates, at every point where p is defined, to the analytic partial derivative of p with respect to variable i (negative exponents included), and returns the single-term zero polynomial when p does not depend on i.", "quantifier": "all polynomials with numeric coefficients, all indices, all points", "why_tests_cant": "a calculus identity over all polynomials", "anchors": ["pySecDec/algebra.py:Polynomial.derive"]}
{"id": "C04", "title": "replace substitutes a value for a variable", "statement": "`p.replace(i, v)` evaluates at every point to p evaluated with coordinate i set to v, and no longer depends on variable i; with `remove=True` the variable disappears from the exponent vectors and the value at the shortened point is the same. On every expression tree (nested coefficients included) `replace` does the same for nonzero values, and for the value 0 as long as coefficients of polynomials are numbers; with the value 0 expression-valued coefficients are left as they are (a defect).", "quantifier": "all polynomials, indices, values and points", "why_tests_cant": "needs all nestings of coefficients and all values including 0 and 1, which take special branches", "anchors": ["pySecDec/algebra.py:Polynomial.replace"]}
{"id": "C05", "title": "refactorize pulls out the largest monomial without changing the product", "statement": "`refactorize(monomial*poly)` leaves the value of the product unchanged at every point with nonzero coordinates; afterwards every (considered) variable has minimal exponent zero in the polynomial, and unselected parameters are untouched; applying it twice equals applying it once.", "quantifier": "all products <monomial>*<polynomial>, all selections of parameters, all points", "why_tests_cant": "universally quantified over exponent matrices", "anchors": ["pySecDec/algebra.py:refactorize", "pySecDec/algebra.py:Polynomial.refactorize", "pySecDec/algebra.py:ExponentiatedPolynomial.refactorize", "pySecDec/decomposition/common.py:refactorize"]}
{"id": "C06", "title": "derive on arbitrary expressions obeys calculus", "statement": "For any expression built from Polynomial, ExponentiatedPolynomial, LogOfPolynomial, Sum, Product, ProductRule, Pow, Log and Exp, `e.derive(i)` terminates and evaluates to the partial derivative of e in variable i at every point in the domain (positive bases for powers and logarithms).", "quantifier": "all expression trees of any depth, all indices, all points of the domain", "why_tests_cant": "structural induction over unbounded trees; sampling trees misses special branches (exponent 1, zero derivative)", "anchors": ["pySecDec/algebra.py:ExponentiatedPolynomial.derive", "pySecDec/algebra.py:LogOfPolynomial.derive", "pySecDec/algebra.py:Sum.derive", "pySecDec/algebra.py:Product.derive", "pySecDec/algebra.py:ProductRule.derive", "pySecDec/algebra.py:Pow.derive", "pySecDec/algebra.py:Log.derive", "pySecDec/algebra.py:Exp.derive"]}
{"id": "C07", "title": "simplify on arbitrary expressions keeps the value", "statement": "For any expression e, `e.simplify()` terminates and evaluates to the same value as e at every point of the domain, provided each ExponentiatedPolynomial in e has no two terms with the same exponent row (or a negative number as exponent); without that the value can change (`(1+1)**1 * x` becomes `x`). A simplified polynomial has no two terms with the same exponents.", "quantifier": "all expression trees, all points", "why_tests_cant": "unbounded trees; the simplification loops restart until nothing changes", "anchors": ["pySecDec/algebra.py:ExponentiatedPolynomial.simplify", "pySecDec/algebra.py:LogOfPolynomial.simplify", "pySecDec/algebra.py:Sum.simplify", "pySecDec/algebra.py:Product.simplify", "pySecDec/algebra.py:Pow.simplify", "pySecDec/algebra.py:Log.simplify", "pySecDec/algebra.py:Exp.simplify"]}
{"id": "C08", "title": "flatten and denest keep the value of nested polynomials", "statement": "`flatten(p, depth)` returns, for every depth, a polynomial with the same value as the nested polynomial p; once the depth covers the nesting no coefficient of the result is a plain Polynomial any more. `p.denest()` keeps the value of every nest of plain polynomials (a coefficient that is a power or a logarithm of a polynomial loses its exponent: a deviation).", "quantifier": "all nested polynomials of any depth, all points", "why_tests_cant": "unbounded nesting", "anchors": ["pySecDec/misc.py:flatten", "pySecDec/algebra.py:Polynomial.denest"]}
{"id": "C09", "title": "Function.compute_derivatives yields exactly the recorded derivatives", "statement": "For a symbolic Function with at most as many arguments as variables, after any sequence of `derive` and `replace` calls on it and on its derivatives: every `derive` succeeds and its value follows the chain rule; the recorded multi-indices are exactly those of the existing derivative objects; `compute_derivatives(expr)` terminates without a missing key and returns, for exactly the recorded multi-indices, the mixed partial derivatives of expr, whatever the order in which they were recorded.", "quantifier": "all histories of derive calls, all argument lists", "why_tests_cant": "quantifies over call histories that grow a shared dictionary", "anchors": ["pySecDec/algebra.py:Function.derive", "pySecDec/algebra.py:Function.compute_derivatives"]}
{"id": "C10", "title": "ProductRule represents the derivative of a product", "statement": "Starting from `ProductRule(f_1,...,f_n)`, any sequence of `derive(i)` and `simplify()` calls gives an object whose value is the corresponding iterated partial derivative of the product f_1*...*f_n, the value does not depend on the order of the derivatives, and `to_sum()` has the same value.", "quantifier": "all factor lists, all sequences of derivative indices", "why_tests_cant": "the term bookkeeping grows with the history of derivatives", "anchors": ["pySecDec/algebra.py:ProductRule.derive", "pySecDec/algebra.py:ProductRule.simplify", "pySecDec/algebra.py:ProductRule.to_sum", "pySecDec/algebra.py:ProductRule.replace"]}
{"id": "C11", "title": "powerset enumerates the subsets of the requested sizes", "statement": "`powerset(s, min_length, stride)` yields every sublist (by position) of s with at least min_length elements whose length is min_length plus a multiple of stride, each exactly once, by increasing length.  (The documented reading, sizes that are multiples of stride, holds only when min_length is one.)", "quantifier": "all lists, min_length >= 0, stride >= 1", "why_tests_cant": "exponentially many outputs for unbounded inputs; the interplay of min_length and stride", "anchors": ["pySecDec/misc.py:powerset"]}
{"id": "C12", "title": "rangecomb enumerates exactly the orders of a box", "statement": "`rangecomb(low, high)` yields exactly the integer vectors v with low <= v <= high componentwise, each once, in lexicographic order, and fails when the lengths differ.", "quantifier": "all integer vectors low, high", "why_tests_cant": "unbounded boxes and dimensions", "anchors": ["pySecDec/misc.py:rangecomb"]}
{"id": "C13", "title": "missing is multiset difference", "statement": "`missing(full, part)` returns the elements of full, in order, with one occurrence (the first) removed per element of part, so that part together with the result is a rearrangement of full; it raises ValueError exactly when part is not a sub-multiset of full.", "quantifier": "all lists", "why_tests_cant": "multiset reasoning over all lists", "anchors": ["pySecDec/misc.py:missing"]}
{"id": "C14", "title": "all_pairs enumerates every perfect matching exactly once", "statement": "For a list of even length 2n, `all_pairs` yields partitions of the list into pairs; every perfect matching of the positions appears exactly once, so there are (2n-1)!! of them; odd lengths are rejected.", "quantifier": "all lists of even length", "why_tests_cant": "the number of matchings grows factorially", "anchors": ["pySecDec/misc.py:all_pairs"]}
{"id": "C15", "title": "det and parallel_det compute the determinant", "statement": "`det(M)` and `parallel_det(M, pool)` return the determinant (Leibniz formula) of any square matrix over a commutative ring.", "quantifier": "all n x n matrices, n>=1", "why_tests_cant": "unbounded size", "anchors": ["pySecDec/misc.py:det", "pySecDec/misc.py:parallel_det"]}
{"id": "C16", "title": "argsort_2D_array is a stable lexicographic sort", "statement": "`argsort_2D_array(a)` (and argsort_ND_array after flattening) returns a permutation of the row indices; applying it sorts the rows lexicographically, equal rows keep their original order, so equal rows end up adjacent.", "quantifier": "all integer matrices", "why_tests_cant": "sorting correctness for all inputs", "anchors": ["pySecDec/misc.py:argsort_2D_array", "pySecDec/misc.py:argsort_ND_array"]}
{"id": "C17", "title": "chunks splits a list without loss", "statement": "`chunks(lst, n)` yields nonempty lists of at most n elements (n=0 counts as 1), all but the last of exactly n, whose concatenation is lst.", "quantifier": "all lists and n>=0", "why_tests_cant": "all lengths and chunk sizes", "anchors": ["pySecDec/misc.py:chunks"]}
{"id": "C18", "title": "matrix sorts only permute rows and columns", "statement": "`iterative_sort`, `Pak_sort` and `light_Pak_sort` turn a matrix into one obtained from it by a row permutation and a permutation of the columns other than the first; iterative_sort and light_Pak_sort terminate.", "quantifier": "all integer matrices", "why_tests_cant": "termination and permutation invariants for all matrices", "anchors": ["pySecDec/matrix_sort.py:iterative_sort", "pySecDec/matrix_sort.py:Pak_sort", "pySecDec/matrix_sort.py:light_Pak_sort"]}
{"id": "C19", "title": "Pak_sort is canonical", "statement": "If two matrices differ only by a permutation of rows and of columns other than the first, `Pak_sort` (all columns considered) brings them to the same matrix.", "quantifier": "all pairs of equivalent matrices", "why_tests_cant": "the equivalence classes have n!*m! members", "anchors": ["pySecDec/matrix_sort.py:Pak_sort"]}
{"id": "C20", "title": "collision-safe hashing separates exactly the different objects", "statement": "`_collision_safe_hash(objs)` terminates, and in the result two positions carry equal hashes if and only if the objects at these positions are equal, whatever the initial hash function.", "quantifier": "all lists of objects, all initial hash functions", "why_tests_cant": "hash collisions cannot be provoked on demand and the repair loop may cascade", "anchors": ["pySecDec/decomposition/common.py:_collision_safe_hash"]}
{"id": "C21", "title": "symmetry squashing conserves the total integral", "statement": "`squash_symmetry_redundant_sectors_sort` (and the variant with dreadnaut, given that equal dreadnaut reports mean isomorphic graphs) returns input sectors with changed Jacobian coefficients, and the sum over sectors of the integrals (any functional additive in the Jacobian coefficient and invariant under renaming of the considered variables) is unchanged, provided the Jacobians do not contain variables excluded by `indices`; with Pak_sort no two returned sectors differ only by a renaming of the considered variables.", "quantifier": "all lists of sectors, all permutation-respecting sort functions, all permutation invariant integrals", "why_tests_cant": "a wrong merge changes a numerical value only for particular symmetric sectors", "anchors": ["pySecDec/decomposition/common.py:squash_symmetry_redundant_sectors_sort", "pySecDec/decomposition/common.py:_sector2array", "pySecDec/decomposition/common.py:_remove_variables"]}
{"id": "C22", "title": "dreadnaut graph encoding is faithful", "statement": "The vertex-coloured graph that `_array_to_dreadnaut` writes for two (expolist, coeffs) arrays is isomorphic by a colour preserving isomorphism if and only if the arrays are equal up to a permutation of rows and columns.", "quantifier": "all pairs of arrays with common unique exponent and coefficient lists", "why_tests_cant": "an isomorphism statement over all matrices", "anchors": ["pySecDec/decomposition/common.py:_array_to_dreadnaut"]}
{"id": "C23", "title": "primary_decomposition sets one Feynman parameter to one", "statement": "The i-th primary sector returned by `primary_decomposition(sector, indices)` has, for each polynomial, the value of the original with parameter indices[i] set to 1 and the parameter removed; there are exactly len(indices) sectors (one for a single index, where the parameter is kept with exponent 0).", "quantifier": "all sectors, all index lists, all points", "why_tests_cant": "all sectors and points", "anchors": ["pySecDec/decomposition/iterative.py:primary_decomposition", "pySecDec/decomposition/iterative.py:primary_decomposition_polynomial"]}
{"id": "C24", "title": "remap_parameters performs the sector substitution and its Jacobian", "statement": "`remap_parameters([a,b1..bk], Jacobian, polys)` makes every polynomial's value at x equal the original value at the point with x_b replaced by x_a*x_b, and multiplies the Jacobian by x_a^k, the exact Jacobian determinant of this map.", "quantifier": "all polynomials, all parameter sets, all points", "why_tests_cant": "an algebraic identity over all exponent matrices", "anchors": ["pySecDec/decomposition/iterative.py:remap_parameters"]}
{"id": "C25", "title": "an iteration step covers the integration region", "statement": "The subsectors of `iteration_step` correspond to the chosen parameter set S: for each s in S exactly one subsector, in which x_s is the largest of the parameters in S; the images of the unit cube under the substitutions cover the unit cube and overlap only where two of the parameters in S are equal; cast, other and Jacobian are all transformed by the same substitution, and the factored form keeps the value.", "quantifier": "all sectors not yet in standard form, all points of the unit cube", "why_tests_cant": "geometric statement over all points and all sectors", "anchors": ["pySecDec/decomposition/iterative.py:iteration_step", "pySecDec/decomposition/iterative.py:find_singular_set"]}
{"id": "C26", "title": "find_singular_set returns a smallest nullifying set and follows its heuristic", "statement": "For a sector whose polynomials have been refactorized, `find_singular_set` either signals that every polynomial has a constant term, or returns a set of at least two parameters such that the first unfinished polynomial vanishes when they are set to zero and no smaller set does; its assertions never fail; among the smallest sets it returns one with the largest sum of maximal powers.  (The comments in the code additionally announce a preference for sets that nullify most polynomials of the sector; the loop does not look at the set, and the preference does not hold.)", "quantifier": "all refactorized sectors with nonnegative exponents", "why_tests_cant": "combinatorial minimality over all polynomials", "anchors": ["pySecDec/decomposition/iterative.py:find_singular_set", "pySecDec/algebra.py:Polynomial.becomes_zero_for", "pySecDec/algebra.py:Polynomial.has_constant_term"]}
{"id": "C27", "title": "iterative_decomposition ends in standard form", "statement": "Whenever `iterative_decomposition` finishes, every returned sector has each cast polynomial in the form monomial*(const + ...), a sector already in standard form is returned unchanged, and the returned sectors' images tile the unit cube.", "quantifier": "all sectors, all terminating runs", "why_tests_cant": "the recursion depth is unbounded", "anchors": ["pySecDec/decomposition/iterative.py:iterative_decomposition"]}
{"id": "C28", "title": "remap_one_to_zero substitutes x -> 1-x", "statement": "`remap_one_to_zero(p, i1, ..., ik)` evaluates at x to p at the point with the selected coordinates replaced by 1 minus them, for nonnegative exponents and distinct indices; doing it twice gives back the polynomial.", "quantifier": "all polynomials, all index sets, all points", "why_tests_cant": "binomial expansion for every degree", "anchors": ["pySecDec/decomposition/splitting.py:remap_one_to_zero"]}
{"id": "C29", "title": "split tiles the unit interval", "statement": "`split(sector, seed, indices)` yields 2^k sectors; each polynomial's value in a subsector is the original at x_i -> s*x_i or x_i -> 1-(1-s)*x_i, the Jacobian carries exactly the product of the scale factors, and the images of the unit cube tile the unit cube, for every splitting point s in (0,1).", "quantifier": "all sectors, seeds, index lists, points", "why_tests_cant": "random splitting points and all sectors", "anchors": ["pySecDec/decomposition/splitting.py:split", "pySecDec/decomposition/splitting.py:split_singular"]}
{"id": "C30", "title": "find_singular_sets_at_one finds every endpoint singularity", "statement": "`find_singular_sets_at_one(p)` yields exactly those sets of occurring parameters for which the constant term of p vanishes when the parameters in the set are set to one, each once.", "quantifier": "all polynomials", "why_tests_cant": "all subsets of all polynomials", "anchors": ["pySecDec/decomposition/splitting.py:find_singular_sets_at_one"]}
{"id": "C31", "title": "transform_variables is a monomial substitution", "statement": "`transform_variables(p, T)` evaluates at y to p at x_i = prod_j y_j^T_ij; composing two transformations equals transforming with the matrix product.", "quantifier": "all polynomials, integer matrices, points with nonzero coordinates", "why_tests_cant": "identity over all matrices", "anchors": ["pySecDec/decomposition/geometric.py:transform_variables"]}
{"id": "C32", "title": "convex_hull keeps every vertex of the Newton polytope", "statement": "`convex_hull(p1,...,pn)` returns exponent vectors that all belong to the product p1*...*pn, and includes every vertex of its Newton polytope, whatever the coefficients.", "quantifier": "all nonempty lists of polynomials with pairwise distinct monomials, any dimension", "why_tests_cant": "geometric statement in any dimension", "anchors": ["pySecDec/polytope.py:convex_hull"]}
{"id": "C33", "title": "Cheng_Wu sets one parameter to one", "statement": "`Cheng_Wu(sector, index)` returns the sector whose polynomials have the value of the originals with the chosen parameter set to one; the other parameters are untouched.", "quantifier": "all sectors and indices", "why_tests_cant": "all sectors", "anchors": ["pySecDec/decomposition/geometric.py:Cheng_Wu"]}
{"id": "C34", "title": "apply_region rescales the variables by the region vector", "statement": "`apply_region(polys, v, i)` replaces, in every term, the smallness parameter power by the scalar product of the region vector with the exponents, i.e. evaluates to the original at x_j -> x_j * z^(v_j) for the other variables and z -> z^(v_i) for the smallness parameter; no other exponent and no coefficient changes.", "quantifier": "all polynomials, all region vectors, all points", "why_tests_cant": "universally quantified identity", "anchors": ["pySecDec/make_regions.py:apply_region"]}
{"id": "C35", "title": "derive_prod implements the derivative of a product of powers with a numerator", "statement": "`derive_prod(poly_list, numerator, index, polynomial_name_indices)` returns the same bases with every exponent lowered by one and a new numerator N' such that prod_i P_i^(a_i-1) * N' is the partial derivative of prod_i P_i^a_i * N with respect to the variable `index`, where the numerator may refer to the P_i by name; wherever the P_i are positive. The result can be fed to `derive_prod` again.", "quantifier": "all polynomial lists, real exponents, numerators and variables", "why_tests_cant": "calculus identity over all points", "anchors": ["pySecDec/make_regions.py:derive_prod"]}
{"id": "C36", "title": "integrate_by_parts preserves the integral", "statement": "`integrate_by_parts(polyprod, power_goals, indices)` returns products whose (analytically continued) integrals over the unit cube sum to that of the input wherever the input is defined; in each of them, for each selected variable, the exponent at vanishing regulators is at least the power goal or the product does not depend on that variable; it fails with an AssertionError exactly when the numbers of goals and variables differ, and with a ValueError exactly when a negative exponent contains no regulator. (The remaining factors are expressions with numerical coefficients, in which no power is a positive integer.)", "quantifier": "all products of the documented form (any number of variables, regulators and factors), all goals, all regulator values where the input is defined", "why_tests_cant": "an integral identity for all functions and exponents", "anchors": ["pySecDec/subtraction.py:integrate_by_parts"]}
{"id": "C37", "title": "integrate_pole_part subtracts exactly the endpoint poles", "statement": "`integrate_pole_part(polyprod, *indices)` returns products whose analytically continued integrals sum to that of the input wherever the input is defined; in each of them, for each selected variable, the exponent is not negative or the remaining factors have a zero of the order required to make the integrand integrable at vanishing regulators; it fails with a ValueError exactly when a negative exponent of a selected variable contains no regulator. (The remaining factors are expressions with numerical coefficients, in which no power is a positive integer.)", "quantifier": "all products of the documented form (any number of variables, regulators and factors), all pole orders, all regulator values where the input is defined", "why_tests_cant": "an integral identity for all functions and pole orders", "anchors": ["pySecDec/subtraction.py:integrate_pole_part", "pySecDec/subtraction.py:pole_structure"]}
{"id": "C38", "title": "expand_Taylor gives the Taylor coefficients", "statement": "`expand_Taylor(expr, indices, orders)` gives for each combination of orders the Taylor coefficient at zero (the mixed derivative divided by the factorials), each coefficient being free of the expansion variables, so that in one variable the remainder is o(t^order); unequal numbers of variables and orders and negative orders are rejected. Polynomials inside expr have numerical coefficients; when expanding in several variables no power inside expr is a positive integer at the expansion point (simplify may otherwise change the value).", "quantifier": "all expressions, orders", "why_tests_cant": "all orders", "anchors": ["pySecDec/expansion.py:_expand_Taylor_step", "pySecDec/expansion.py:expand_Taylor"]}
{"id": "C39", "title": "expand_singular gives the Laurent expansion of a quotient", "statement": "`expand_singular(product, index, order)` of a product of polynomials and inverse polynomials returns the Laurent coefficients from the lowest occurring order to the requested one, free of the expansion variable, with a remainder o(t^order) (trailing zero coefficients may be left out); OrderError is raised exactly when the requested order is below the lowest order of the quotient. In several variables the coefficients are expanded in turn. Other input is rejected with TypeError. (Deviation: a vanishing coefficient counts as order zero, so a zero coefficient raises OrderError when a negative order is requested in the next variable.)", "quantifier": "all numerators and denominators, all orders", "why_tests_cant": "power series division for all inputs", "anchors": ["pySecDec/expansion.py:_expand_singular_step", "pySecDec/expansion.py:expand_singular"]}
{"id": "C40", "title": "LoopIntegralFromGraph: U is the sum over complements of spanning trees", "statement": "For a connected graph the first Symanzik polynomial U computed from the graph is the sum, over all sets of L propagators whose removal leaves a spanning tree, of the product of their Feynman parameters; it is homogeneous of degree L.", "quantifier": "all finite connected graphs", "why_tests_cant": "all graphs; wrong cuts appear only for particular topologies (tadpoles, multiple edges)", "anchors": ["pySecDec/loop_integral/from_graph.py:LoopIntegralFromGraph.preliminary_U"]}
{"id": "C41", "title": "LoopIntegralFromGraph: F sums over spanning two-forests", "statement": "The massless part of the second Symanzik polynomial sums, over all sets of L+1 propagators whose removal leaves a spanning two-forest, minus the squared momentum flowing between the two trees times the parameters, whichever tree is used to compute it, provided the external momenta sum to zero; the massive part is U times the sum of m_i^2 x_i; F is homogeneous of degree L+1.", "quantifier": "all finite connected graphs", "why_tests_cant": "all graphs", "anchors": ["pySecDec/loop_integral/from_graph.py:LoopIntegralFromGraph.preliminary_F"]}
{"id": "C42", "title": "propagator powers are split into a representable power and derivatives", "statement": "For any propagator power a (a rational number plus regulators) the number k >= 0 of derivatives is the smallest one for which a + k at vanishing regulators is exactly 0 if a is a nonpositive integer there, and at least 1 otherwise. U, F, numerator, measure and integration variables remove the same Feynman parameters: those whose power is a nonpositive integer without regulators.", "quantifier": "all rational powers", "why_tests_cant": "case analysis over signs, integrality and regulator parts", "anchors": ["pySecDec/loop_integral/common.py:LoopIntegral.set_common_properties"]}
{"id": "C43", "title": "the Feynman parametrised integrand is projective", "statement": "With the exponents `exponent_U`, `exponent_F`, the `numerator` and the `measure` computed for the given powers, the integrand U^exponent_U F^exponent_F numerator measure is homogeneous of degree minus the number of remaining Feynman parameters, so that the Cheng-Wu theorem applies (whenever U depends on the parameters that are differentiated, or U_derivatives accounts for it).", "quantifier": "all loop numbers, dimensions, powers and numerator ranks", "why_tests_cant": "holds for symbolic dimension and powers", "anchors": ["pySecDec/loop_integral/common.py:LoopIntegral.exponent_U", "pySecDec/loop_integral/common.py:LoopIntegral.exponent_F"]}
{"id": "C44", "title": "generating_vector returns an adequate lattice", "statement": "`generating_vector(n, m)` (64-bit m, n >= 1) returns (N, z) with N >= m, N the smallest tabulated lattice size >= m among the tables serving n variables, and z of length n with every entry in 1..N-1 coprime to N; for n <= 100 it raises ValueError exactly when m exceeds `max_lattice_size(n)`, for more than 100 variables always; larger m never give smaller N.", "quantifier": "all n >= 1 and all m", "why_tests_cant": "all sizes; tables of thousands of integers", "anchors": ["pySecDec/generating_vectors.py:generating_vector", "pySecDec/generating_vectors.py:max_lattice_size"]}
{"id": "C45", "title": "QMC transform options are normalised and every option has a macro", "statement": "`validate_pylink_qmc_transforms` maps any list of admissible names to an ordered duplicate-free list of canonical names, is idempotent, rejects every other name; `generate_pylink_qmc_macro_dict` has an entry for exactly the canonical names, with different instantiations for different names, and the instantiation files list one per selected transform.", "quantifier": "all lists of strings", "why_tests_cant": "all strings and lists", "anchors": ["pySecDec/code_writer/template_parser.py:validate_pylink_qmc_transforms", "pySecDec/code_writer/template_parser.py:generate_pylink_qmc_macro_dict"]}
{"id": "C46", "title": "names accepted by the code writer are legal identifiers", "statement": "`_validate(name)` accepts, among the names without comma and newline, exactly those consisting of letters, digits and underscores (underscores only if allowed) that do not start with a digit, that are not reserved words and that do not start with a reserved prefix, in any capitalisation.", "quantifier": "all strings", "why_tests_cant": "all strings", "anchors": ["pySecDec/code_writer/make_package.py:_validate"]}
{"id": "C47", "title": "splitting long FORM definitions keeps the expression", "statement": "The splitting of long sums, products, product rules and polynomials into numbered partial definitions in the generated FORM code has, after executing the identification statements in order, the same value as the original expression at all arguments, for every length limit; no undefined name is left, other functions are untouched, the defined names are pairwise different, and every expression written out is within the limit unless its class cannot be split. The splitting ends with a result unless a single polynomial term with a number as coefficient exceeds the limit (which is an AttributeError).", "quantifier": "all expressions and limits", "why_tests_cant": "unbounded recursion over expression size", "anchors": ["pySecDec/code_writer/make_package.py:_make_FORM_function_definition"]}
{"id": "C48", "title": "a worker delivers each answer to its own caller exactly once", "statement": "For any interleaving of calls, cancellations and replies on a `Worker` in which `multicall` is not used while the most recently issued request is unanswered, outstanding requests have different tokens, each reply is delivered to the callback of the request it answers, exactly once, cancelled requests excepted, and the future of a nonempty `multicall` without errors completes with the answers in the order of the calls exactly when the last one arrives.", "quantifier": "all interleavings of call_cb, call, multicall and replies", "why_tests_cant": "all schedules", "anchors": ["pySecDec/disteval.py:Worker"]}
{"id": "C49", "title": "the scheduler's pending count and drain are exact", "statement": "At every moment the `RandomScheduler`'s pending count equals the number of requests issued through `call_cb` and neither answered nor cancelled, provided no request is cancelled twice; `drain` returns only when nothing is pending and is always woken up when this happens; after `cancel_cb` the callback of the request never runs.", "quantifier": "all interleavings of call_cb, cancel_cb, replies and drain", "why_tests_cant": "all schedules", "anchors": ["pySecDec/disteval.py:RandomScheduler"]}
{"id": "C50", "title": "bracket multiplication is truncated series multiplication", "statement": "`bracket_mul` multiplies two multivariate series given as order->coefficient maps; the result contains exactly the orders up to the requested maximal powers, with the Cauchy product coefficients.", "quantifier": "all maps and cut-offs", "why_tests_cant": "all sparsity patterns", "anchors": ["pySecDec/disteval.py:bracket_mul"]}
{"id": "C51", "title": "disteval refines the lattices monotonically and stops for a reason", "statement": "In `iterate_integration` the number of points of each integral never decreases from one pass to the next; what is evaluated in a pass are exactly the integrals whose lattice has grown (at least one), so that during a run every integral is evaluated on strictly larger and larger lattices; the run stops only because time is up, because every amplitude has the requested precision, or because no lattice grows. Without median lattices the second phase only uses lattices of the tables. The value of an integral is the average of the integrand over all points of all shifts (for an integer number of points); value and error always come from the same evaluation, and the error of the real part never grows. Among an odd number of candidate generating vectors the one chosen gives a median of the candidate values.", "quantifier": "all sequences of measured values and errors, any number of passes, kernels and amplitudes", "why_tests_cant": "the control loop depends on the whole history of measured values", "anchors": ["pySecDec/disteval.py:do_eval.iterate_integration", "pySecDec/disteval.py:do_eval.propose_lattices1", "pySecDec/disteval.py:do_eval.propose_lattices2", "pySecDec/disteval.py:do_eval.schedule_kernel"]}
{"id": "C52", "title": "point allocation reaches the target variance", "statement": "Without caps on the lattices, `adjust_1d_n` keeps every integral at or above its current number of points, meets the target for the predicted variance exactly (before truncation to integers; at the current points if these suffice) and does so at the lowest possible cost; with caps that allow the target it stays between the current points and the caps and meets the target, and it never exceeds the caps. `adjust_n` keeps every integral at or above its current number of points and meets every amplitude's target up to the truncation to integers, a factor ((N+1)/N)^a where N is the smallest current number of points.", "quantifier": "all weights, variances, costs and targets", "why_tests_cant": "an optimisation statement over all real inputs", "anchors": ["pySecDec/disteval.py:adjust_1d_n", "pySecDec/disteval.py:adjust_n"]}
{"id": "C53", "title": "command line shorthands are parsed faithfully", "statement": "`parse_array_shorthand` and `parse_unit` of disteval, and `parse_number`/`metric_prefix`/`round_up`/`round_down` of formset denote the number that the notation means; rounding is to a multiple, in the stated direction, within one step.", "quantifier": "all strings / integers", "why_tests_cant": "all inputs", "anchors": ["pySecDec/disteval.py:parse_unit", "pySecDec/formset.py:round_up", "pySecDec/formset.py:round_down"]}
{"id": "C54", "title": "secdecutil::Series arithmetic is correct below the truncation order", "statement": "For Series s, t with the same parameter, s+t, s-t, s*t, -s, s/t (leading coefficient of t nonzero) and multiplication or division by a scalar have exactly the coefficients of the corresponding operations on Laurent series for all orders up to the returned order_max, whatever the coefficients beyond the truncation of the operands are; the truncation flag of s+t, s-t and s*t is set iff an operand was truncated, that of a quotient unless the quotient is exact; the order ranges of s+t, s-t and s*t are the largest justified ones; operands with different parameters throw; == compares all of the data.", "quantifier": "all order ranges and coefficients", "why_tests_cant": "all combinations of overlapping, disjoint and truncated ranges", "anchors": ["pySecDecContrib/util/secdecutil/series.hpp:Series"]}
{"id": "C55", "title": "UncorrelatedDeviation arithmetic follows Gaussian propagation", "statement": "Sum, difference, product and negation of UncorrelatedDeviation values, and sum, difference, product and quotient with a number, have the exact value of the operation and, for independent operands, exactly the standard deviation of the result as uncertainty; so do whole expressions built from them in which every uncertain quantity occurs once. Complex values are treated by real and imaginary part. Uncertainties stay nonnegative. (Division by an uncertain quantity is not offered.)", "quantifier": "all values and uncertainties", "why_tests_cant": "all real inputs", "anchors": ["pySecDecContrib/util/secdecutil/uncertainties.hpp:UncorrelatedDeviation"]}
{"id": "C56", "title": "adaptive integral refinement never loses precision", "statement": "In the amplitude evaluation the number of function evaluations of an Integral never decreases, an integral is recomputed only if more points are requested, the lattices a QMC integral uses grow, and among the numeric results of a QMC integral the one with the smallest error is kept.", "quantifier": "all sequences of requests and results", "why_tests_cant": "all histories", "anchors": ["pySecDecContrib/util/secdecutil/amplitude.hpp:Integral", "pySecDecContrib/util/secdecutil/amplitude.hpp:QmcIntegral"]}
{"id": "C57", "title": "rec_subs returns a fixed point or fails", "statement": "`rec_subs(expr, repl, n)` returns an expression that one more application of the rules leaves unchanged and that is reached from expr by fewer than n applications; it raises ValueError exactly when none of the first n applications is without effect.", "quantifier": "all expressions, rule sets and depths (the effect of one sympy expand().subs() is an arbitrary function)", "why_tests_cant": "all rule sets", "anchors": ["pySecDec/misc.py:rec_subs"]}
{"id": "C58", "title": "geometric decompositions are changes of variables into standard form", "statement": "Every subsector returned by `geometric_decomposition` and `geometric_decomposition_ku` is the input sector after a monomial substitution x = y^C in the selected variables, its Jacobian factor being multiplied by exactly |det(dx/dy)|; all factorised polynomials have a constant term in the selected variables; each simplicial cone delivered by normaliz yields a subsector. (geometric_decomposition: for sectors with a monomial Jacobian.)", "quantifier": "all sectors, index choices and triangulations", "why_tests_cant": "an identity for every polytope, with arbitrarily many variables", "anchors": ["pySecDec/decomposition/geometric.py:geometric_decomposition", "pySecDec/decomposition/geometric.py:geometric_decomposition_ku"]}
{"id": "C59", "title": "generate_fan covers the integration region exactly once", "statement": "`generate_fan(p1,...,pn)` returns cones such that every point of the open unit cube at which no two monomials of a polynomial agree lies in exactly one of them, each cone being the region where one fixed monomial of each polynomial is the largest.", "quantifier": "all nonempty lists of polynomials with distinct monomials, all points", "why_tests_cant": "a covering statement about infinitely many points", "anchors": ["pySecDec/decomposition/geometric.py:generate_fan"]}
{"id": "C60", "title": "find_regions returns valid region vectors", "statement": "`find_regions(i, poly, indices)` returns vectors whose smallness parameter component is positive, that vanish outside the (sorted) `indices`, and along which the exponents of the polynomial are bounded below: given the facets and equations of normaliz.", "quantifier": "all polynomials, sorted indices, positive and negative positions of the smallness parameter", "why_tests_cant": "all polytopes", "anchors": ["pySecDec/make_regions.py:find_regions"]}
{"id": "C61", "title": "template files are written with all references replaced", "statement": "`parse_template_file(src, dest, replacements)` writes the text of src in which every reference %(name)s is replaced by the value of its name and everything else is unchanged, in whatever pieces a long value is written; it fails if a name is not defined. (For templates without an escaped percent sign directly before a parenthesis.)", "quantifier": "all template texts, dictionaries and buffer sizes", "why_tests_cant": "all texts and all positions of references", "anchors": ["pySecDec/code_writer/template_parser.py:parse_template_file"]}
{"id": "C62", "title": "template trees are copied completely and renamed", "statement": "`parse_template_tree(src, dest, replacements, filesystem_mapping)` creates, for every directory and file of the source tree not mapped to None (and not below such a directory), the directory or file at the same place under dest with every mapped name replaced, and nothing else; every directory is created before anything is put into it.", "quantifier": "all directory trees and mappings", "why_tests_cant": "all trees", "anchors": ["pySecDec/code_writer/template_parser.py:parse_template_tree"]}
{"id": "C63", "title": "Kernel weights give the Laurent coefficients of prefactor times coefficient times integral", "statement": "For every sum and every requested order, the weights disteval assigns to the kernels of the different orders of an integral combine the kernel values into exactly the coefficients, up to the requested order and as far as all kernels are known, of the product of the prefactor's expansion, the coefficient's expansion and the integral's expansion; terms of the coefficient or of the integral beyond what can contribute do not change any of these coefficients.", "quantifier": "all numbers of regulators, all finite Laurent expansions of prefactor and coefficient, all lists of kernel orders, all kernel values", "why_tests_cant": "The multi-dimensional truncated convolution must be right for every combination of leading orders and numbers of known orders, including negative ones; tests fix a few expansions.", "anchors": ["pySecDec/disteval.py:split_integral_into_orders", "pySecDec/disteval.py:do_eval", "pySecDec/disteval.py:bracket_mul"]}
{"id": "C64", "title": "Variances of complex coefficients are propagated correctly for independent kernels", "statement": "When real and imaginary parts of every kernel value are uncorrelated and different kernels are independent, the variance reported for an amplitude (variance of the real part as real part, of the imaginary part as imaginary part) is the variance of the weighted sum of the kernels.", "quantifier": "all complex weights, all numbers of kernels, all (finite) distributions of the kernel values that are pairwise uncorrelated", "why_tests_cant": "It is a statement about every distribution of random values; a test observes single samples.", "anchors": ["pySecDec/disteval.py:mul_variance", "pySecDec/disteval.py:do_eval"]}
{"id": "C65", "title": "refinement of an amplitude terminates and stays within the point budget", "statement": "WeightedIntegralHandler::evaluate ends after a bounded number of passes, with a result for every integral, whatever the integrators return, whatever number of points the error extrapolation asks for and whenever the wall clock limit strikes; no integral is evaluated with more points than the lattice belonging to the largest of the first request, mineval and maxeval; a loop that ends without time pressure leaves no refinable integral below maxeval for which the extrapolation asks for more points; once the time is up nothing more is computed. (The maximal increase factor has to exceed one.)", "quantifier": "all lists of sums and integrals, all results and extrapolations, all clock behaviours", "why_tests_cant": "all histories of an adaptive loop with an arbitrary environment", "anchors": ["pySecDecContrib/util/secdecutil/amplitude.hpp:WeightedIntegralHandler"]}
{"id": "C66", "title": "repeating a failing integration terminates", "statement": "When the contour deformation sign check fails, an integration is repeated with deformation parameters decreased by the given factor but never below the minimal value; for factors below one this ends after finitely many attempts, and the failure is passed on only when every parameter has reached the minimal value.", "quantifier": "all sequences of failures, all parameters, all factors in (0,1)", "why_tests_cant": "all failure histories", "anchors": ["pySecDecContrib/util/secdecutil/amplitude.hpp:Integral"]}
{"id": "C67", "title": "linear combinations of integrals", "statement": "+, -, * and / of vectors of weighted integrals act on the coefficients of the integrals: the result is the linear combination with the sum, difference, product or quotient of the coefficients, an integral occurs at most once in a sum if it does in the left operand, and exactly the integrals of the operands occur; the value of such a combination is the sum of coefficient times value and its uncertainty is the standard deviation for independent integrals if each occurs once.", "quantifier": "all vectors of weighted integrals, all coefficients and values", "why_tests_cant": "all histories of building a sum", "anchors": ["pySecDecContrib/util/secdecutil/amplitude.hpp:WeightedIntegral", "pySecDecContrib/util/secdecutil/amplitude.hpp:compute_sum"]}
{"id": "C68", "title": "numerator is the numerator of the differentiated integrand", "statement": "For every list of propagator powers, `U^exponent_U * F^exponent_F * numerator(x, U, F)` equals the function obtained from `preliminary_U^(N_nu-(L+1)D/2-r) * preliminary_F^-(N_nu-L*D/2) * preliminary_numerator` by differentiating k_i times with respect to each Feynman parameter with k_i derivatives and setting the removed parameters to zero, wherever U and F are positive.", "quantifier": "all numbers of parameters, powers, dimensions, loop numbers, ranks and polynomials", "why_tests_cant": "identity between an iterated symbolic product-rule loop and analytic derivatives", "anchors": ["pySecDec/loop_integral/common.py:LoopIntegral.numerator", "pySecDec/loop_integral/common.py:LoopIntegral.U", "pySecDec/loop_integral/common.py:LoopIntegral.exponent_U"]}
{"id": "C69", "title": "expansion by regions: terms, prefactors and remainder", "statement": "`expand_region` returns floor(order)+1 terms, the i-th being 1/i! times the i-th derivative in the smallness parameter at zero. For a region vector v the terms produced by `make_regions` carry the prefactor smallness_parameter**((lowest+i)/v_n) with lowest = sum_j a_j*m_j + m_numerator + sum of v over the integration variables, none lies beyond `expansion_by_regions_order`, and their sum equals the integrand times the measure in the rescaled variables up to a power beyond the requested order.", "quantifier": "all products of polynomials with real exponents, numerators (with names), region vectors, orders and points where the leading parts are positive", "why_tests_cant": "asymptotic statement about every integrand, region and order", "anchors": ["pySecDec/make_regions.py:expand_region", "pySecDec/make_regions.py:make_regions", "pySecDec/make_regions.py:apply_region"]}
{"id": "C70", "title": "lines with power zero are contracted", "statement": "For a connected graph in which the lines with power zero form no closed loop, `LoopIntegralFromGraph` drops exactly these lines (the other masses stay, in order), keeps the loop number, and its U and F are the U and F of the full graph with the Feynman parameters of the dropped lines set to zero.", "quantifier": "all connected graphs, masses, external lines with conserved momenta, sets of zero powers and vertex orders", "why_tests_cant": "graph-theoretic identity for every graph and every set of contracted lines", "anchors": ["pySecDec/loop_integral/from_graph.py:LoopIntegralFromGraph"]}
{"id": "C71", "title": "maximal degrees only drop derivatives that vanish", "statement": "`MaxDegreeFunction.get_maxdegrees` of a polynomial with numerical coefficients gives degrees beyond which every mixed partial derivative is zero, so `MaxDegreeFunction.derive`, which omits these terms, still returns the full derivative.", "quantifier": "all polynomials (also with negative powers), index sets, multi-indices and call histories", "why_tests_cant": "statement about all derivatives of all polynomials", "anchors": ["pySecDec/code_writer/make_package.py:MaxDegreeFunction"]}
{"id": "C72", "title": "Multiplication modulo the lattice size is exact", "statement": "The routines which multiply two lattice indices modulo the number of lattice points with the help of double precision arithmetic return exactly a*b mod k, in the range 0..k-1, for all factors between 0 and k and every lattice size below 2^53 (QMC library: factors below k, sizes below 2^52), even when the product does not fit into 64 bits.", "quantifier": "all factors 0<=a,b<=k, all lattice sizes k below 2^53 (2^52)", "why_tests_cant": "The rounding of the quotient depends on all bits of the three numbers; a failure for one pair of factors would silently move a lattice point.", "anchors": ["pySecDecContrib/disteval/common_cpu.h:mulmod", "pySecDecContrib/disteval/common_cuda.h:mulmod", "pySecDecContrib/qmc.hpp:mul_mod"]}
{"id": "C73", "title": "The integration kernels sum exactly the requested lattice points", "statement": "For every range of indices, generating vector, shift and integrand, the GPU worker returns the sum of weight times integrand over exactly the points frac(i*z/n + shift) of the range, whatever the number of threads, of points per thread and of blocks per batch, and NaN iff one of these points fails a sign check. The CPU worker does the same for a whole number of vectors; for other ranges it does so if the points of the unused lanes after the end also pass the sign checks, and a failing point of the range always gives NaN. Ranges can be cut into pieces for different workers. In the QMC library the work packages cover every lattice point exactly once, with or without batching.", "quantifier": "all lattices with n < 2^53 (2^52 in the QMC library), all index ranges, shifts, integrands, vector lengths, thread counts, batch sizes, partitions", "why_tests_cant": "A boundary error in tiling drops or repeats single points out of millions, which is below the statistical error of any test.", "anchors": ["pySecDecContrib/bin/export_sector:DIST_SECTOR_ORDER_CPP", "pySecDecContrib/bin/export_sector:DIST_SECTOR_ORDER_CU", "pySecDecContrib/disteval/builtin.cu", "pySecDecContrib/disteval/cudaworker.cpp", "pySecDecContrib/qmc.hpp:core::generic::compute"]}
{"id": "C74", "title": "The integral transforms keep the integral", "statement": "For every number of integration variables and every integrand continuous on the closed unit cube, the transformed integrand (product of the weights times the integrand at the transformed point) of each available transform - none, baker, korobov<i>x<j> and sidi<i> of the QMC library for all i, j, and none, baker, korobov1x1 to korobov10x10 of disteval - has the same integral over the unit cube as the integrand itself; transformed points stay in the unit interval, and with korobov or sidi of positive weight the transformed integrand vanishes on the boundary, so it is periodic.", "quantifier": "all weights, dimensions and continuous integrands", "why_tests_cant": "The functions contain coefficient tables and recursions whose errors would change every result by a small amount or only for weights nobody tests; the claim is about all integrands.", "anchors": ["pySecDecContrib/qmc.hpp:KorobovImpl", "pySecDecContrib/qmc.hpp:SidiImpl", "pySecDecContrib/qmc.hpp:BakerImpl", "pySecDecContrib/disteval/common_cpu.h:korobov3x3_f", "pySecDecContrib/disteval/common_cuda.h:korobov3x3_f"]}
{"id": "C75", "title": "The Symanzik polynomials obtained from propagators do not depend on the routing of the loop momenta", "statement": "For every list of propagators whose terms are scalars or products of two momenta, LoopIntegralFromPropagators returns polynomials U and F that complete the square of the weighted propagator sum: with the adjugate matrix (M adj M = det M) and the shifted momenta l = U k - adj(M) Q, U^2 sum_i x_i D_i(k,p) = sum_ab M_ab l_a.l_b - U F for all loop and external momenta in any dimension and metric. U is homogeneous of degree L and F of degree L+1 in the Feynman parameters. Replacing the loop momenta by R k + s multiplies both by det(R)^2, so that unimodular re-routings and shifts change nothing. A propagator that is at most linear in the loop momenta does not enter U.", "quantifier": "all numbers of loops and external momenta, all propagators at most quadratic in the momenta, all Feynman parameters, all momenta in every dimension and non-degenerate diagonal metric, all linear changes of the loop momenta, every field in which 2 is invertible", "why_tests_cant": "unit tests compare U and F for a few diagrams with fixed routing", "anchors": ["pySecDec/loop_integral/from_propagators.py:LoopIntegralFromPropagators.M", "pySecDec/loop_integral/from_propagators.py:LoopIntegralFromPropagators.preliminary_F", "pySecDec/loop_integral/from_propagators.py:LoopIntegralFromPropagators.Q", "pySecDec/loop_integral/from_propagators.py:LoopIntegralFromPropagators.J", "pySecDec/misc.py:adjugate"]}
{"id": "C76", "title": "The tensor reduction of a loop integral's numerator keeps the value and does not depend on the order of the factors", "statement": "For every numerator term of a loop integral given by propagators, with any number of loop-momentum and external-momentum factors whose Lorentz indices each occur at most twice: the numerator always exists; contracting metric tensors with each other, with loop vectors and with external momenta does not change the value of the product in any number of dimensions, with any non-degenerate diagonal metric and any components of the vectors (the trace of a metric tensor is the dimensionality); metric tensors that remain carry two different free indices; the sum over all subsets and all pairings equals Isserlis' formula (each loop-momentum factor is either replaced by its mean or paired with another one, every pairing exactly once) with the weight (-1/2)^m F^m and a ratio of Gamma functions for m pairs, and U to the power of the missing rank; writing the factors in another order gives the same value.", "quantifier": "all dimensions, metrics, vector components, index names, numbers of factors, permutations of the factors", "why_tests_cant": "the number of pairings grows factorially with the rank; tests compare a few numerators of low rank with known expressions", "anchors": ["pySecDec/loop_integral/from_propagators.py:LoopIntegralFromPropagators.preliminary_numerator", "pySecDec/misc.py:all_pairs", "pySecDec/misc.py:powerset", "pySecDec/misc.py:missing"]}
{"id": "C77", "title": "Expansion orders requested for a sum reach the kernels", "statement": "sum_package asks each integral for its orders minus the leading orders of the coefficients, make_package expands pole parts, regular parts and the prefactor to orders derived from that, and the coefficients are expanded to orders derived from what the integral reports. Every coefficient of the requested orders of coefficient * prefactor * integral then comes out exactly (no missing contribution from a truncated factor), provided there is one regulator or the integral enters a single sum; the kernels listed under an order sum to the coefficient of that order, and the integral has no terms below the lowest orders it reports. The search for the leading orders of a coefficient ends for every coefficient and returns them when they are within maxorder. The distributed evaluation expands coefficients far enough for every coefficient, the compiled interface when the leading orders are at most 1.", "quantifier": "all numbers of regulators, requested orders, Laurent series of coefficient, prefactor, pole parts and regular parts, all lists of sectors and summands, all maxorder", "why_tests_cant": "Which orders of which factor are needed depends on all pole orders at once; a truncation one order short only shows for inputs with exactly that pole structure and gives a silently wrong number.", "anchors": ["pySecDec/code_writer/sum_package.py:_generate_one_term", "pySecDec/code_writer/sum_package.py:Coefficient.leading_orders", "pySecDec/code_writer/make_package.py:_process_secondary_sector", "pySecDec/code_writer/make_package.py:make_package", "pySecDec/code_writer/templates/sum_package/src/name_weighted_integral.cpp:compute_required_orders", "pySecDecContrib/util/secdecutil/coefficient_parser.hpp:run_ginsh", "pySecDec/disteval.py:do_eval"]}
{"id": "C78", "title": "Suggested extra regulator exponents regulate all internal facets", "statement": "For every polynomial with region polytopes whose facets are proper, suggested_extra_regulator_exponent (called by loop_regions when an extra regulator is named without exponents) ends; it returns None exactly if no pair of opposite facet normals through the origin occurs among the regions, and otherwise exponents that sum to zero (the integrand stays homogeneous), that are not orthogonal to any such normal vector (every divergence that dimensional regularisation leaves between regions is regulated) and that vanish for all variables not involved. extra_regulator_constraints returns exactly one of each pair of opposite normals, with a zero in the column of the expansion parameter.", "quantifier": "all vertex sets with non-negative exponents, all numbers of variables, all facet lists satisfying the facet contract, all ascending prime sequences", "why_tests_cant": "The search increases primes until all constraints hold; that it ends for every constraint matrix is a statement about infinitely many candidate vectors, and a non-terminating or non-regulating choice depends on the region geometry.", "anchors": ["pySecDec/loop_integral/loop_regions.py:suggested_extra_regulator_exponent", "pySecDec/loop_integral/loop_regions.py:extra_regulator_constraints", "pySecDec/loop_integral/loop_regions.py:loop_regions"]}
{"id": "C79", "title": "Statistics of the integrator", "statement": "After any sequence of rounds of the built-in QMC integrator, the reported integral and error are the arithmetic mean and the standard error of the mean of the estimates by all random shifts taken since the lattice size was changed last, no matter how these shifts were split into rounds and packages; the reported numbers of evaluations, shifts and iterations are the true totals; for complex integrands this holds for real and imaginary part separately.", "quantifier": "all sequences of rounds, lattice sizes, numbers of shifts (at least two at the current lattice after every round) and values of the integrand", "why_tests_cant": "The update formulas are recursive and restart from stored errors; tests compare a few integrals within the error.", "anchors": ["pySecDecContrib/qmc.hpp:reduce", "pySecDecContrib/qmc.hpp:compute_variance", "pySecDecContrib/qmc.hpp:compute_error", "pySecDecContrib/qmc.hpp:sample"]}
{"id": "C80", "title": "Every lattice point is evaluated exactly once", "statement": "For every number of CPU threads and devices, every size of packages and every interleaving of the threads, a round of the QMC integrator evaluates the integrand at every lattice point of every shift exactly once and adds all values to the estimate of the right shift; no value is lost or counted twice, all threads finish, and no two threads ever write to the same location.", "quantifier": "all interleavings of threads, numbers of points, shifts, threads, lanes and package sizes", "why_tests_cant": "Races and lost work packages depend on the schedule; a test sees one schedule per run.", "anchors": ["pySecDecContrib/qmc.hpp:sample_worker", "pySecDecContrib/qmc.hpp:evaluate_worker", "pySecDecContrib/qmc.hpp:sample", "pySecDecContrib/qmc.hpp:evaluate"]}
{"id": "C81", "title": "Adaptive loop of the integrator", "statement": "The QMC integrator ends after finitely many rounds, and when it ends the error is within the absolute or the relative goal (for complex integrands with a positive absolute goal: of both parts, or of the larger parts, according to the error mode) or at least maxeval evaluations have been made; the lattice is the smallest available one of at least the preferred size (if there is none, the largest one, or the preferred size with the median rule), it never shrinks, and the result averages at least two random shifts of the last lattice. If a lattice is found by the median rule, the chosen generating vector has coordinates coprime to its size, and its value is a median of an odd number of candidates. (maxeval itself can be exceeded by the last round.)", "quantifier": "all integrands, goals, sets of lattices, limits and random numbers", "why_tests_cant": "Termination and the stopping criterion concern every history of results, including infinite and undefined error ratios.", "anchors": ["pySecDecContrib/qmc.hpp:integrate_no_fit_no_transform", "pySecDecContrib/qmc.hpp:update", "pySecDecContrib/qmc.hpp:get_next_n", "pySecDecContrib/qmc.hpp:compute_error_ratio", "pySecDecContrib/qmc.hpp:get_median_z"]}
{"id": "C82", "title": "The contour deformation does not change the integral", "statement": "With contour deformation switched on, every integration variable x_k is replaced by z_k = x_k - i*lambda_k*x_k*(1-x_k)*d(Re F)/dx_k, the end points 0 and 1 stay where they are, the Jacobian's entries are the partial derivatives of the z_k, and the integral of Jacobian determinant times factored monomial times deformation factors times the remaining integrand at z over the unit cube equals the integral of the original integrand, for every value of the deformation parameters for which the integrand has no singularity between the two contours. In particular this holds for U*(F - i*delta)^e with every delta > 0 and integer e when Im F <= 0 along the deformation.", "quantifier": "every number of integration variables, every deformation polynomial, every choice of lambda, every natural power of the factored monomials (for other powers the factorisation holds at every point), every integrand that is holomorphic between the contours", "why_tests_cant": "the equality is between two integrals over infinitely many points, for all polynomials; a test integrates one example to a finite accuracy.", "anchors": ["pySecDec/code_writer/make_package.py:RealPartFunction", "pySecDec/code_writer/make_package.py:make_package", "pySecDec/code_writer/make_package.py:_process_secondary_sector"]}
{"id": "C83", "title": "The deformation parameters are chosen within their bounds and lower the imaginary part", "statement": "To first order the deformation changes Im F by -sum_k lambda_k x_k (1-x_k) (d Re F/dx_k)^2, so the sign is the one of the Feynman prescription. optimize_deformation_parameters always ends when the decrease factor is between 0 and 1; each parameter is between the given minimum and maximum before the sign check and is the smallest of the maximum and of the samples' 1/|x_k(1-x_k) dRe F/dx_k| (not below the minimum); the sign check multiplies all of them by a common power of the decrease factor; no sample's coordinate is displaced by more than 1 into the imaginary direction unless the minimum forces it; the last sample passes the sign check. Earlier samples need not pass it with the parameters returned.", "quantifier": "every polynomial, number of variables, sample sequence, minimum, maximum and decrease factor", "why_tests_cant": "the loop's end depends on the behaviour of an arbitrary polynomial near a point, and the bounds quantify over all sample sequences.", "anchors": ["pySecDecContrib/util/secdecutil/sector_container.hpp:optimize_deformation_parameters", "pySecDecContrib/util/secdecutil/sector_container.hpp:contour_deformation_polynomial_passes_sign_check", "pySecDecContrib/lib/write_contour_deformation.frm"]}
{"id": "C84", "title": "Printed results are read back and converted faithfully", "statement": "The text in which the C++ libraries print results (nested series in the regulators of real or complex numbers, with or without standard deviations) is read back by the Python interface as the same numbers at the same orders, with the variable and the truncation order. series_to_ginac, series_to_sympy, series_to_maple and series_to_mathematica turn it into two texts per result that have, in the syntax of the respective system, the mean value and the standard deviation of the result as their value, including the order terms; series_to_json returns a dictionary with exactly the coefficients under their orders, the outermost regulator first. Exceptions: for Mathematica, nested series in a series that is not truncated are written without brackets (two different results give the same text), and series_to_json lists None for a regulator whose only order is 0 in a series that is not truncated.", "quantifier": "every nesting depth, every order range, every truncation, every number of results, every number, every value of the regulators", "why_tests_cant": "The parser splits texts by counting brackets and by greedy regular expressions; tests have a handful of texts, while the claim is about all nests, signs and orders.", "anchors": ["pySecDec/integral_interface.py:_parse_series", "pySecDec/integral_interface.py:_parse_series_coefficient", "pySecDec/integral_interface.py:_convert_series", "pySecDec/integral_interface.py:series_to_mathematica", "pySecDec/integral_interface.py:series_to_json", "pySecDecContrib/util/secdecutil/series.hpp:operator<<", "pySecDecContrib/util/secdecutil/uncertainties.hpp:operator<<"]}
{"id": "C85", "title": "The text that disteval writes is read back and converted faithfully", "statement": "The text that disteval prints for its results (format sympy: one line for the value and one for the error of each order) is read back by the Python interface as nested series in the regulators with exactly the terms that were written, each value and error with its powers, and truncated one order above the highest order. The conversions to GiNaC, SymPy and Maple return texts with the sum of all values times powers, and of all errors times powers, as their value; the conversion to Mathematica does so too, or raises an exception because of a gap in the orders, which cannot happen for a single regulator. Exceptions: the lines of results that are nan or inf are skipped, so that the order is missing without an error, and a sum without terms makes the reader fail for all sums.", "quantifier": "every number of regulators, sums and terms, all powers, all finite numbers in scientific notation", "why_tests_cant": "The reader splits a number pair with a greedy regular expression and regroups terms by powers; a test cannot cover all sign patterns, orders and gaps.", "anchors": ["pySecDec/disteval.py:result_to_sympy", "pySecDec/integral_interface.py:_parse_disteval_series", "pySecDec/integral_interface.py:_convert_series", "pySecDec/integral_interface.py:series_to_mathematica"]}
{"id": "C86", "title": "the FORM buffers respect `form_memory_use`", "statement": "For every work space, thread number and `form_memory_use`, the buffer sizes that the package functions write to `form.set` are such that FORM, reading them with its defaults for the rest, arrives at exactly the buffers the package assumed (the estimate is idempotent and raises parameters only to what FORM enforces), and their estimated memory is at most `form_memory_use`, unless the unscaled buffers already exceed it: exactly then the warning is printed, with the true memory. The search for the scale never fails, needs no monotonicity of the estimate, and stops within the stated resolution of the largest scale. Numbers with suffixes are rounded to the announced side and read back exactly.", "quantifier": "all setups with non-negative buffers, all budgets, thread numbers and lowest scales; all numbers >= 100", "why_tests_cant": "the estimate is a chain of maxima and floor divisions and the search 50 data-dependent steps: tests sample a few budgets, the guarantee is for all", "anchors": ["pySecDec/formset.py:Setup.calc", "pySecDec/formset.py:Setup.scale", "pySecDec/formset.py:round_human_readable", "pySecDec/formset.py:parse_number", "pySecDec/code_writer/make_package.py:_convert_input", "pySecDec/code_writer/templates/make_package/codegen/form.set"]}
{"id": "C87", "title": "parallel FORM wrappers keep form.set intact and terminate", "statement": "However many FORM wrappers run at the same time in the directory of a package, in any interleaving and with any of them killed at any point: `form.set` is at every moment the original file or a complete new one with all other settings in their order and exactly one WorkSpace line; the work space never falls below the initial one nor exceeds three times what some sector found too small (at least 10 MB); all wrappers together take a bounded number of steps, so none of them reruns FORM for ever; and a wrapper exits by itself only after a FORM run with enough work space. A wrapper alone ends at the first work space of the sequence that is enough. (Refuted: with several wrappers the work space is not monotone; and a last line without newline is glued to the new one.)", "quantifier": "all numbers of wrappers, needs, schedules, kill points and files ending with a newline", "why_tests_cant": "interleavings and kill points of concurrent make jobs cannot be enumerated by tests", "anchors": ["pySecDecContrib/bin/formwrapper:main loop", "pySecDec/code_writer/templates/make_package/Makefile:formwrapper call", "pySecDec/code_writer/templates/make_package/codegen/form.set"]}
{"id": "C88", "title": "NaN answers and retries in a disteval pass", "statement": "In one pass of disteval (all kernels whose lattice changed are integrated with nshifts random shifts each, by many workers, answers in any order), the counter of pending jobs always equals the number of requests whose answer will still be used, however often jobs are cancelled. A NaN answer cancels the kernel's other jobs, multiplies its deformation parameters by 0.9 and starts all its shifts again; answers to cancelled jobs are never recorded, and every recorded value belongs to the kernel's current deformation parameters, random shift, lattice and generating vector. When the wait ends (nothing pending, no worker failed), every kernel has exactly one value per shift, all computed with the same final deformation parameters, which are the initial ones times a power of 0.9; kernels outside the pass are untouched. If small enough deformation parameters give no NaN, the pass ends within a bound on the number of answers, and until then something can always happen.", "quantifier": "every number of kernels, shifts and workers, every order of answers and of scheduling, every pattern of NaN answers", "why_tests_cant": "the order of answers and the interleaving of retries with late answers of cancelled jobs cannot be enumerated by tests", "anchors": ["pySecDec/disteval.py:shift_done_cb", "pySecDec/disteval.py:schedule_kernel", "pySecDec/disteval.py:RandomScheduler.cancel_cb", "pySecDec/disteval.py:Worker.cancel_cb", "pySecDec/disteval.py:RandomScheduler.drain"]}
{"id": "C89", "title": "Decomposition with split=True is exact and removes endpoint singularities", "statement": "With `split=True` and the iterative strategy the sectors obtained from alternating splitting and decomposition reproduce the integral of the sector they come from, whatever splitting points in the open unit interval are drawn; every one of them is in standard form, no further split would be made in it, and if all integration variables are decomposed none of its polynomials to be cast vanishes at any corner of the unit cube. A sector for which there is nothing to do is returned unchanged.", "quantifier": "all simplified sectors with non-negative exponents in any number of variables, all splitting points, all numbers of rounds of splitting and decomposition, all natural powers of the polynomials", "why_tests_cant": "A test decomposes a few polynomials with one seed; whether the recursion loses or double counts a piece, or returns a sector with a singularity left at some corner, depends on the polynomial and on the points drawn.", "anchors": ["pySecDec/code_writer/make_package.py:make_package", "pySecDec/decomposition/splitting.py:split_singular"]}
{"id": "C90", "title": "The generated C++ prefactor is the expansion of the prefactor", "statement": "The C++ function written for the prefactor returns, for any number of regulators, the nested series whose coefficient at every combination of orders up to the required ones is the coefficient of the expanded prefactor (zero where the expansion has no term), each series in the right regulator, ending at the required order and marked as truncated, and no series constructor throws; within the function each real or complex parameter stands for the entry at its position, and the macros are removed afterwards. The conversion of the expansion succeeds whenever the required orders are non-negative.", "quantifier": "all expansions (lists of terms), all numbers of regulators, all required orders, all lists of distinct parameter names", "why_tests_cant": "The text is produced by a recursion over regulators and read back by C++ brace initialisation by position; tests compare two fixed strings, gaps in the orders and different lowest orders per coefficient depend on the prefactor.", "anchors": ["pySecDec/code_writer/make_package.py:_make_prefactor_function", "pySecDec/expansion.py:sympy_to_nested_Polynomial", "pySecDecContrib/util/secdecutil/series.hpp:Series"]}
{"id": "C91", "title": "Generated source files and derivatives have distinct names", "statement": "No two of the source files written for a package (one per sector, and one integrand, contour deformation and deformation parameter file, distributed-evaluation and Mathematica file per sector and order in the regulators) have the same name, negative orders included, so no file overwrites another, and every order of every sector has its file. The name of a derivative of a function determines the multi-index.", "quantifier": "all lists of sectors with distinct indices, any number of regulators, all sets of orders, with and without contour deformation; all multi-indices", "why_tests_cant": "Names are built by concatenating decimal numbers, separators and a replaced minus sign; whether two of them can coincide is a statement about all pairs of integers vectors.", "anchors": ["pySecDec/code_writer/make_package.py:_make_sector_order_names", "pySecDec/code_writer/make_package.py:_make_sector_cpp_files", "pySecDec/code_writer/make_package.py:_make_sector_distsrc_files", "pySecDec/code_writer/make_package.py:_make_sector_mma_files", "pySecDec/code_writer/make_package.py:_derivative_muliindex_to_name"]}
