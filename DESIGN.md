# Formal model of pySecDec (gudrunhe/secdec) in Rocq/Coq 8.16.1

Everything is under `rocq/theories` (logical name `Verif`).  For every area `X` of the code there are

* `XModel.v` – proof-free Gallina definitions, one per Python/C++ function, each with a comment that cites
  file and lines in `/repo` and says what is simplified; exceptions are values (`option` / `result`);
* `XSpec.v` (or a `Spec` section in the property file) – the small independent vocabulary of the statements;
* `XProofs.v` – lemmas and proofs;
* `PropX.v` – only the property theorems (`exact lemma`), a non-vacuity `Example` beside each, and
  `Print Assumptions`.

Suffix `_partial`: the theorem covers part of the English property (the note says what is missing).
Suffix `_refuted`: the English property is false of the faithful model; the theorem exhibits the witness.

## Plan / status per property

* **C01 Polynomial arithmetic is exact** — flat polynomials over an arbitrary field (record of operations with a sound zero test); list-of-rows model of the arrays; evaluation homomorphism by induction.
* **C02 Polynomial.simplify keeps the value and reaches a unique normal form** — same model; merge loop modelled index by index; invariant on the scanned prefix.
* **C03 Polynomial.derive is the partial derivative** — algebraic derivative over any field, and Coquelicot-style derivability over R.
* **C04 replace substitutes a value for a variable** — flat polynomials: identity by induction; expression trees: ExprModel with real semantics, structural induction; refutation for value 0 with nested coefficients.
* **C05 refactorize pulls out the largest monomial without changing the product** — column minima; identity with integer powers.
* **C06 derive on arbitrary expressions obeys calculus** — ExprModel: trees of all classes with real semantics (value and open domain), derive with fuel; well-founded induction on a multiset measure (derive of a Product simplifies first); ProductRule cache: entries are mixed partial derivatives (Schwarz theorem proved).
* **C07 simplify on arbitrary expressions keeps the value** — ExprModel: simplify with fuel; termination by the same measure, value by induction; refutation through the unsimplified exponent-one branch.
* **C08 flatten and denest keep the value of nested polynomials** — ExpModel.flatten/denest on the expression trees of ExprModel; PropFlat: induction on the depth and on the nest.
* **C09 Function.compute_derivatives yields exactly the recorded derivatives** — FunModel: heap of function objects with one shared dictionary, caches, derive/replace/compute_derivatives; FunProofs: invariants over all histories; FunChain: chain rule for continuous partial derivatives; order of derivatives by the symmetry proved in ExprMixed.
* **C10 ProductRule represents the derivative of a product** — histories of derive/simplify calls on rule_of; invariant: iterated derivative along the reversed directions; order independence from the symmetry of mixed derivatives.
* **C11 powerset enumerates the subsets of the requested sizes** — itertools.combinations as a recursive function; membership/NoDup; stride/min_length refutation.
* **C12 rangecomb enumerates exactly the orders of a box** — product of ranges; membership iff, NoDup, sortedness.
* **C13 missing is multiset difference** — list.remove loop; Permutation.
* **C14 all_pairs enumerates every perfect matching exactly once** — recursion by length; completeness, NoDup, counting.
* **C15 det and parallel_det compute the determinant** — list-of-rows Laplace recursion related to a Leibniz determinant (mathcomp).
* **C16 argsort_2D_array is a stable lexicographic sort** — merge sort of (row,index) pairs; Permutation, StronglySorted, stability.
* **C17 chunks splits a list without loss** — recursion on the list.
* **C18 matrix sorts only permute rows and columns** — matrices as lists of rows; permutations as Permutation on rows/columns.
* **C19 Pak_sort is canonical** — greedy minimisation keeps all minimisers; uniqueness of the lexicographic minimum.
* **C20 collision-safe hashing separates exactly the different objects** — loop with well-founded measure.
* **C21 symmetry squashing conserves the total integral** — hash/equality grouping over an abstract sort; additive functional.
* **C22 dreadnaut graph encoding is faithful** — graph as edge list; explicit reconstruction of the permutation from the isomorphism.
* **C23 primary_decomposition sets one Feynman parameter to one** — flat polynomials.
* **C24 remap_parameters performs the sector substitution and its Jacobian** — flat polynomials; partial derivatives over R; Leibniz determinant over any commutative ring (mathcomp).
* **C25 an iteration step covers the integration region** — flat polynomials; order argument on points of the cube; integral identity for polynomial integrands via moments, moments = iterated Riemann integral (Coquelicot).
* **C26 find_singular_set returns a smallest nullifying set and follows its heuristic** — as implemented; `_refuted` for the preference claim.
* **C27 iterative_decomposition ends in standard form** — fuel-indexed recursion; statement on finished runs (termination is not claimed: the strategy need not terminate); tree of substitution paths; integral identity.
* **C28 remap_one_to_zero substitutes x -> 1-x** — binomial theorem.
* **C29 split tiles the unit interval** — recursion over indices.
* **C30 find_singular_sets_at_one finds every endpoint singularity** — powerset + simplify lemmas.
* **C31 transform_variables is a monomial substitution** — GeoModel.transform_variables; evaluation at the monomial map, composition with matrix products.
* **C32 convex_hull keeps every vertex of the Newton polytope** — GeoModel.convex_hull; a vector dropped by the coefficient filter has two different decompositions, hence is the midpoint of two others (HullProofs), so not a vertex.
* **C33 Cheng_Wu sets one parameter to one** — as C23.
* **C34 apply_region rescales the variables by the region vector** — GeoModel.apply_region.
* **C35 derive_prod implements the derivative of a product of powers with a numerator** — RegModel.derive_prod; RegSpec.product_value substitutes the bases for their names; RegDerive: product and chain rule along the coordinate.
* **C36 integrate_by_parts preserves the integral** — model of subtraction.py in SubModel on top of the expression trees of ExprModel; the integral is the continuation of ContSpec (improper integral where it exists, integrations by parts elsewhere; independence of order and number of steps proved in ContJ); CalmProofs: the class of integrands is closed under simplify, derive and replace; SubProofs: one variable; SubMulti: all variables.
* **C37 integrate_pole_part subtracts exactly the endpoint poles** — as C36, with the Taylor subtraction identity for the continued integral (SubInt.taylor_split) and vanishing derivatives of the remainder.
* **C38 expand_Taylor gives the Taylor coefficients** — ExpModel: the Taylor loop with fuel-indexed simplify/derive; ExpSpec: iterated partial derivatives at zero over factorials; ExpTaylor: every step keeps the value on an open set, Peano remainder by induction on the order; several variables by induction on the list, the coefficients staying in the class closed under simplify/derive/replace (CalmProofs).
* **C39 expand_singular gives the Laurent expansion of a quotient** — ExpModel.singular_step on polynomials with numerical coefficients; SingSpec: leading behaviour, Laurent expansion as o(t^order), iterated for several variables; ExpSing: the loop keeps num/den equal to the i-th derivative, Taylor with Peano remainder for the quotient with the lowest powers pulled out.
* **C40 LoopIntegralFromGraph: U is the sum over complements of spanning trees** — GraphModel: vertmatrix, cut matrices, matrix powers (unbounded integers), for every iteration order of the python set of vertices. GraphSpec: paths, acyclic line lists, spanning trees, no matrices. GraphConn: components of a forest by union-find labels; GraphMat: the N-th power has a zero exactly where there is no path; GraphProofs: names vs indices and external leaves; GraphU: rows are the complements of spanning trees, existence.
* **C41 LoopIntegralFromGraph: F sums over spanning two-forests** — as C40 with spanning two-forests; momenta are vectors with an arbitrary symmetric additive scalar product (the replacement rules), conservation is a hypothesis; GraphF: the chosen side does not matter.
* **C42 propagator powers are split into a representable power and derivatives** — ParamModel: number of derivatives from a rational power and regulator coefficients; case analysis with Qfloor.
* **C43 the Feynman parametrised integrand is projective** — ParamModel.measure and the loop of numerator over the reals; homogeneity is transported through partial derivatives (uniqueness of the derivative) and restriction to zero; for graphs degrees come from C40/C41.
* **C44 generating_vector returns an adequate lattice** — GenVecData copies the sizes and vectors of both tables as data; GenVecModel models np.searchsorted and the table choice; finite facts (sorted, coprime) by computation, lifted to all n, m.
* **C45 QMC transform options are normalised and every option has a macro** — StrModel.validate_qmc, qmc_macro_dict on Coq strings.
* **C46 names accepted by the code writer are legal identifiers** — StrModel.validate_name: the regular expression as a character-class recogniser; specification by characters.
* **C47 splitting long FORM definitions keeps the expression** — FormModel: the recursion with fuel emits a list of (name, right hand side); FormSpec: trees with named calls and a statement as substitution of all calls; induction over the fuel with an invariant about descendant names; injectivity of the part names from decimal digits.
* **C48 a worker delivers each answer to its own caller exactly once** — RpcModel: worker state (serial number, callback dictionary) together with the messages under way and a history of deliveries; invariant over every sequence of operations and answers in any order; the multicall future as a small state machine.
* **C49 the scheduler's pending count and drain are exact** — RpcModel: scheduler over a list of workers; count of pending requests as a sum over the workers.
* **C50 bracket multiplication is truncated series multiplication** — DistModel: bracket_mul on finite maps from exponent vectors to coefficients in an arbitrary field; coefficient-wise specification (Cauchy product, truncated).
* **C51 disteval refines the lattices monotonically and stops for a reason** — IterModel: a pass of the loop as a function of the results reported by the workers (an oracle), over real numbers; invariants by induction over the passes, on top of AdjustModel and GenVecModel.
* **C52 point allocation reaches the target variance** — AdjustModel: the loops of adjust_1d_n over real numbers with masks; invariant: total equals the target and masked entries are beyond their bound; optimality by the tangent of the convex variance (Lagrange multiplier). adjust_n by induction over the amplitudes.
* **C53 command line shorthands are parsed faithfully** — DistModel: character-level model of the array shorthand, units, number suffixes and human-readable rounding.
* **C54 secdecutil::Series arithmetic is correct below the truncation order** — SeriesModel over an arbitrary field; specification: Laurent series as functions from orders to coefficients and what a (truncated) Series stands for; loop invariants of the Cauchy product and of the back substitution.
* **C55 UncorrelatedDeviation arithmetic follows Gaussian propagation** — UncModel over R (operators as written, including the in-place ones); specification UncSpec: finite distributions, mean, variance, distribution of a function of independent quantities.
* **C56 adaptive integral refinement never loses precision** — AmpModel: Integral and QmcIntegral as state machines over arbitrary sequences of requests and integrator outcomes; invariant along runs.
* **C57 rec_subs returns a fixed point or fails** — (planned)
* **C58 geometric decompositions are changes of variables into standard form** — GeoModel.geometric_decomposition(_ku): normaliz is an argument with stated hypotheses; every subsector is the monomial substitution with Jacobian |det| prod x / prod y, proved to be the determinant of the partial derivatives over R; standard form.
* **C59 generate_fan covers the integration region exactly once** — GeoModel.generate_fan; each cone is the set of points of the unit cube where one chosen monomial per polynomial dominates; generic points in exactly one.
* **C60 find_regions returns valid region vectors** — GeoModel.find_regions; normaliz facets/equations as arguments.
* **C61 template files are written with all references replaced** — StrModel.parse_file: splitting at references, python formatting of the rest, values written in pieces of any size; specification on token lists (literal text, escaped percent sign or reference).
* **C62 template trees are copied completely and renamed** — StrModel.parse_tree: os.walk as a tree traversal; specification by paths in the tree.
* **C63 Kernel weights give the Laurent coefficients of prefactor times coefficient times integral** — DistModel: split_integral_into_orders and the accumulation in do_eval, on finite Laurent expansions over an arbitrary field; the product series is specified coefficient-wise.
* **C64 Variances of complex coefficients are propagated correctly for independent kernels** — DistModel: mul_variance and the amplitude variance over finite probability spaces with real weights.
* **C65 refinement of an amplitude terminates and stays within the point budget** — AmpModel: the passes of ensure_mineval, the minimal-precision loop and ensure_error_goal over an arbitrary environment (results, requested points, clock); measure: number of possible refinements up to maxeval.
* **C66 repeating a failing integration terminates** — AmpModel.attempts: the retry loop; geometric decrease of the parameters.
* **C67 linear combinations of integrals** — AmpModel.wadd/wmul/wdiv/compute_sum; coefficient functionals over a field, variance over R from UncSpec.
* **C68 numerator is the numerator of the differentiated integrand** — ParamModel: state machine of the loop of numerator; one step is the chain rule along a curve (ParamReal.poly_curve); ParamSpec.parametric states iterated partial derivatives and removal of parameters without polynomials.
* **C69 expansion by regions: terms, prefactors and remainder** — RegModel: expand_region as a list, one region of make_regions (rescaling, refactorization, scaling of the numerator, powers). RegTaylor: Taylor bound by induction and the mean value theorem; RegRegion: the rescaled product times the power of t equals the original one in rescaled variables; RegFinal: prefactors and remainder.
* **C70 lines with power zero are contracted** — GraphModel.pinch/pinch_all (the backward loop with renaming); GraphPinch: contraction of one line maps spanning trees (forests) containing it to spanning trees (forests) of the contracted graph; GraphPinchU: U and F restricted to zero; induction over the loop.
* **C71 maximal degrees only drop derivatives that vanish** — FunModel.get_maxdegrees and the omitted arguments in derive_args; explicit derivatives of monomials, permutation of the directions.
* **C72 Multiplication modulo the lattice size is exact** — MulmodModel: the unsigned and signed 64 bit wrap-around and the two IEEE roundings (Flocq FLT rounding to nearest even) of the quotient; proof: the truncated quotient is off by less than two, the C remainder and one correction then give the residue.
* **C73 The integration kernels sum exactly the requested lattice points** — KernModel: vector loop with masked lanes, thread/block/sum kernels and batch loop, QMC work packages with and without batching; KernSpec: points frac(i z/n+shift) and the sum over a range with NaN as absorbing element; induction over loops, tiling of intervals.
* **C74 The integral transforms keep the integral** — TransModel: the coefficient recursions, Horner and trigonometric sums and the tables of disteval, over R; proof: closed forms by Pascal, derivative = weight by the binomial theorem / multiple angle formulas, normalisation by the beta and Wallis integrals, substitution rule (Coquelicot) and induction over the dimension with uniform continuity.
* **C75 The Symanzik polynomials obtained from propagators do not depend on the routing of the loop momenta** — FpropModel models propagator_sum, M, Q, J, detM, aM, preliminary_U, preliminary_F (from_propagators.py:185-244) and misc.adjugate on expanded expressions (lists of terms with momentum exponents) over any field, at an arbitrary value of the Feynman parameters; FpropSpec gives vectors, a diagonal metric and the value of an expression. Proof by splitting each term by its degree in the loop momenta and matrix algebra over mathcomp (adj(AB) = adj B adj A through the characteristic polynomial).
* **C76 The tensor reduction of a loop integral's numerator keeps the value and does not depend on the order of the factors** — Model from_propagators.py:323-541 with metric tensors as (left, right, unmatched) entries exactly as in the code (matching sweeps, contraction with vectors, traces) and the sum over powerset/all_pairs/missing (the models of C16). The specification is the value of a product of metrics and vectors as an explicit sum over components, and Isserlis' recursion. Contraction: each matching step preserves the value (sum of deltas); completeness from the last sweep without match. Isserlis: the sum over subsets and pairings equals the recursion by induction; permutation invariance of the recursion.
* **C77 Expansion orders requested for a sum reach the kernels** — Model the order arithmetic of sum_package.py, make_package.py, name_weighted_integral.cpp and disteval.py on integer lists, with the two expansion routines as parameters satisfying what C38/C39 prove about them. The specification is Laurent series as functions from order lists to a field and coefficients of products as finite sums covering all non-vanishing contributions (unique). Proof: componentwise inequalities show that every contribution to a requested order uses only orders kept; kernels by re-indexing of polynomial products; leading_orders by a decreasing measure.
* **C78 Suggested extra regulator exponents regulate all internal facets** — Model loop_regions.py:292-458 on integer rows with normaliz (facets of a point set) and sympy.prime as parameters; facets are specified as valid inequalities that are not equations. Each selected normal has a positive and a negative entry (both it and its opposite are proper facets of polytopes with non-negative points); a sum of fractions with distinct prime denominators larger than the numerators vanishes only if all numerators do, hence the search ends. The converse (a constraint constant on the needed variables keeps it running) makes the termination criterion exact.
* **C79 Statistics of the integrator** — QmcModel: core::reduce with its real and complex overloads and the splitting of shifts in sample, over R; QmcSpec: textbook mean and standard error of the pooled estimates. Invariant: the stored result determines mean and sum of squares of the pooled shifts; Welford's recurrence by induction over the shifts.
* **C80 Every lattice point is evaluated exactly once** — QmcWork: threads as step relations (take a package, load, evaluate lanes, store) over shared memory and a shared package counter, executed by an arbitrary schedule; invariant: packages taken partition the prefix of the work list, every thread owns its column; serial replay for the values.
* **C81 Adaptive loop of the integrator** — QmcLoopModel: error ratios over R with infinity and NaN, get_next_n, update, the do-while loop with fuel, get_median_z with a list of random numbers; termination because every round adds at least one evaluation; composed with the statistics of C79 for real and complex integrands.
* **C82 The contour deformation does not change the integral** — DefModel: the deformed variables, their symbolic derivatives, Jacobian (det of misc.py as in C21's model) and cal_I over the complex numbers of Coquelicot. DefSpec: complex differentiability in several variables, iterated Riemann integrals, the contour with a parameter t from 0 to 1. Proof: the derivative with respect to t of det(dz/dx)*G(z) is a divergence (mathcomp determinants, symmetric second derivatives), whose flux vanishes because the faces of the cube are fixed; Stokes on the cube by Fubini for continuous functions and the fundamental theorem of calculus.
* **C83 The deformation parameters are chosen within their bounds and lower the imaginary part** — DefOptModel: the two phases of optimize_deformation_parameters over R, infinity as None. First order by the chain rule; the loop ends because the scaled deformation passes the check for all small scales (strictly negative first-order term, or no displacement at all); counterexample quintic for the earlier samples.
* **C84 Printed results are read back and converted faithfully** — TextModel: operator<< of series.hpp and uncertainties.hpp on trees of printed numbers; the parser of integral_interface.py with its regular expressions as functions on lists of characters. TextSpec, TextOutSpec: the tree that Python should see, and the value of a text by a grammar of each target language over an arbitrary field. Round trip by bracket counting (Dyck words) and induction over the nesting; converters by induction over the tree; JSON by a dictionary invariant. Float conversion (float(), %.18g) is a parameter with the contract that a literal has the value of the number.
* **C85 The text that disteval writes is read back and converted faithfully** — TextDistModel: the lines of result_to_sympy, the regular expression with the greedy pair of signed parts, the dictionary of slots, the regrouping into nested series. TextDistSpec: numbers in scientific notation, the coefficient of a nested series at given powers, the value of a sum. Proofs: uniqueness of the split of a number pair, line by line reading, permutation invariant of the grouping, induction over the regulators.
* **C86 the FORM buffers respect `form_memory_use`** — model formset.py (Setup.calc, _thread_alloc_sort, scale with its bisection, round_human_readable, parse_number) and its use in make_package; prove idempotence by characterising the fixed points as the constraints FORM enforces, the search by an invariant on its two ends; show that reading back the six written values gives the same buffers
* **C87 parallel FORM wrappers keep form.set intact and terminate** — transition system of any number of wrapper processes over one file (text level for form.set, regexes included), kill steps; invariant on file and temporary contents; termination by a weighted sum over the levels of the work space
* **C88 NaN answers and retries in a disteval pass** — NanModel.v: a pass as a transition system over the callbacks of all workers, npending, shift_tag, shift_rnd, deformp, shift_val and the kernels still to be scheduled; a step is the scheduling of a kernel or one answer (ignored, number, NaN, error). Invariant (NanProofs.v): tokens are distinct, npending counts the live requests, every live request is current, and every scheduled (kernel, shift) is live or has a current value. The bound is an exact potential: every step lowers it by one.
* **C89 Decomposition with split=True is exact and removes endpoint singularities** — SecSplitModel transcribes secondary_decomposition_with_splitting on top of SplitModel and SectorModel. Invariant by induction over the recursion depth: sectors stay well formed, non-negative and simplified, and the sum of the integrals is preserved (step lemmas of C25/C29). That flipping a variable never makes a polynomial vanish identically uses the identity theorem for real polynomials (SecSplitNonzero). Corners: an unsplit sector has no singular sets, the origin is covered by the standard form.
* **C90 The generated C++ prefactor is the expansion of the prefactor** — PrefModel transcribes sympy_to_nested_Polynomial on lists of terms, the writer of the nested brace initialiser as a token list, and a reader for C++ brace initialisation with the constructor's checks. Proof by induction over the regulators: read after write gives the value of the nested polynomial, whose exponents form a gap-free range, so position equals order.
* **C91 Generated source files and derivatives have distinct names** — FileNameModel transcribes the name builders on lists of characters. Injectivity: decimal numbers contain neither separator nor the letter n, so names are cut at the first separator; the minus sign is replaced injectively; families of files differ in prefix or extension. Derivatives: the number of letters d gives the order, the chunks d<index> give the indices.

## Trusted base

* Coq 8.16.1's kernel (and `coqchk`).
* The axioms of the standard library listed below; no axioms of our own, no other library's.
* The reading of the Python/C++ sources: the model is tied to the code only by the citations.
* The specification vocabulary (`XSpec.v`, `Spec` sections, statements in `PropX.v`).

### Modelled parts of the code (header of each model file)

* `AdjustModel.v`: Model of /repo/pySecDec/disteval.py:287-346, [adjust_1d_n] and [adjust_n]. Simplification: real numbers instead of floating point numbers (no rounding, no overflow).
* `AmpModel.v`: Model of /repo/pySecDecContrib/util/secdecutil/amplitude.hpp: class Integral (51-128), compute_impl of QmcIntegral (149-187), CubaIntegral (223-246), CQuadIntegral (274-281) and MultiIntegratorIntegral (309-316), the operators on vectors of WeightedIntegral (321-456), compute_sum (776-783), the loop around a failing integration (511-561) and the refinement loops of WeightedIntegralHandler (800-1310); and get_next_n of /repo/pySecDecContrib/qmc.hpp (3281-3304). Simplifications: numbers of points are natural numbers (no overflow); the result of an integration is whatever the integrator returns (an oracle), [err] is the absolute value of its uncertainty, None if that is not a number; integration times, verbose output and threads (each integral is computed by one thread) are left out.
* `DefModel.v`: Model of the contour deformation of /repo/pySecDec/code_writer/make_package.py.
* `DefOptModel.v`: Model of the choice of the deformation parameters: sector_container.hpp.
* `DetModel.v`: Model of [det] and [parallel_det] of /repo/pySecDec/misc.py over an arbitrary ring of matrix entries.
* `DistModel.v`: Model of the arithmetic of /repo/pySecDec/disteval.py: [bracket_mul] (265-278), [mul_variance] (280-285), [split_integral_into_orders] (930-946), [parse_array_shorthand] (948-966), [parse_unit] (968-972). Simplification: floating point numbers are exact (elements of a field, real numbers).
* `ExpModel.v`: Model of /repo/pySecDec/expansion.py 31-227, 269-290 (expand_Taylor, expand_singular), /repo/pySecDec/misc.py:389-419 (flatten) and /repo/pySecDec/algebra.py:770-788 (Polynomial.denest). Simplifications: those of ExprModel; orders are integers (the assertion of 51-52 rejects other numbers).
* `ExprModel.v`: Model of the expression classes of /repo/pySecDec/algebra.py: Polynomial with expression valued coefficients (333-788), ExponentiatedPolynomial (790-961), LogOfPolynomial (963-1060), Sum (1062-1176), Product (1178-1297), ProductRule (1299-1528), Pow (1530-1645), Log (1647-1713), Exp (1715-1777). Simplifications: numbers and sympy constants are real numbers; symbols are not modelled (all parts of an expression have the same [nv] variables, numbered from 0); python mutates the objects in place, here every method returns a new tree; the flag [simplified] (a shortcut for objects already simplified) is not modelled.
* `FileNameModel.v`: Model of the names of the generated source files: /repo/pySecDec/code_writer/make_package.py:577-619 (_make_sector_order_names, _make_sector_cpp_files, _make_sector_distsrc_files, _make_sector_mma_files) and of the names of derivatives, 620-634 (_derivative_muliindex_to_name). Simplifications: the order of the entries (sorted by the orders) and the Makefile's line continuations between the names are not modelled.
* `FnumModel.v`: Model of the tensor reduction of the numerator of [LoopIntegralFromPropagators], /repo/pySecDec/loop_integral/from_propagators.py:323-541. Simplifications: Lorentz indices are natural numbers (symbols or numbers with decidable equality); the polynomials aM, Q, U, F are represented by their values at a point (Polynomial arithmetic: C01-C03), a contravariant vector by its components; the replacement rules are identities between scalar products (applied by evaluation). A summand is kept as scalar coefficient, list of the remaining metric tensors and list of the vectors with their Lorentz index.
* `FnumTermModel.v`: Model of [LoopIntegralFromPropagators._numerator_tensors], /repo/pySecDec/loop_integral/from_propagators.py:246-306. Simplification: a term of the expanded numerator is a product of factors [momentum(index)] (given as two lists, for the loop and the external momenta; a factor occurs in the list as often as its power says) times a non-zero remainder that contains none of them, so that [term.subs(momentum(index), 0) == 0] holds exactly when the factor is present.
* `FormModel.v`: Model of /repo/pySecDec/code_writer/make_package.py:451-558, [_make_FORM_function_definition]: splitting a long expression into a sequence of FORM identifications. Simplifications: the length of the string representation is an arbitrary function [len] of the expression; the left hand sides [name(arg?,...)] and calls [name(arg,...)] are represented by the names (all carry the same arguments); the codelines are trees instead of strings, the text of an unsplit expression stands for the expression itself. Symbolic functions inside expressions are not modelled.
* `FpropModel.v`: Model of the Symanzik polynomials of [LoopIntegralFromPropagators], /repo/pySecDec/loop_integral/from_propagators.py:185-244, and of [adjugate], /repo/pySecDec/misc.py:234-266. The polynomials in the Feynman parameters are represented by their values at an arbitrary point [x] (Polynomial arithmetic and [Polynomial.from_expression] preserve values: C01-C03, C08, C65); masses and other scalars are part of the coefficients. Expanded sympy expressions in the momenta are lists of terms: coefficient, exponents of the loop momenta, exponents of the external momenta. The replacement rules are identities between scalar products and are applied when the result is evaluated (FpropSpec).
* `FsetModel.v`: Model of /repo/pySecDec/formset.py: the memory estimate of FORM's buffers, its scaling to a budget, and the numbers with suffixes; and of the use make_package makes of it (/repo/pySecDec/code_writer/make_package.py:242-254, 362-368). Python integers are [Z]; the scale factors are exact rationals where Python uses doubles (all factors of the search are dyadic with at most 51 bits; the product with a size is rounded by Python when it exceeds 53 bits: not modelled).
* `FunModel.v`: Model of symbolic functions: /repo/pySecDec/algebra.py:98-331 (class Function) and /repo/pySecDec/code_writer/make_package.py:694-806 (RealPartFunction, MaxDegreeFunction). A Function object shares the dictionary [derivative_tracks] with all its derivatives, copies and replaced versions; so the model is a heap of objects with one dictionary. A [copy] shares all mutable parts with the original and is not distinguished from it. Simplifications: symbols and the sets of names are not modelled; [differentiated_args] (a cache of [arg.derive(index)]) is recomputed; [simplify], which simplifies the arguments in place, is not modelled.
* `GenVecModel.v`: Model of /repo/pySecDec/generating_vectors.py:206-222 (tables: GenVecData.v).
* `GeoModel.v`: Model of /repo/pySecDec/decomposition/geometric.py, of the python part of polytope.py and of the polynomial part of make_regions.py. The executable [normaliz] is not modelled: its outputs (vertices, facets, equations, triangulations) are arguments.
* `GraphModel.v`: Model of /repo/pySecDec/loop_integral/from_graph.py: class LoopIntegralFromGraph.
* `IterModel.v`: Model of the integration loop of /repo/pySecDec/disteval.py, [do_eval]: proposals of new lattices (lines 650-695), [iterate_integration] (699-828). Simplification: floating point numbers are real numbers, an infinite variance is [None]; a kernel is a record instead of one column of many arrays; the workers are an oracle (per pass: what was obtained, and whether the deadline was hit).
* `KernModel.v`: Model of the lattice summation kernels: - /repo/pySecDecContrib/bin/export_sector:453-510 [DIST_SECTOR_ORDER_CPP] (the same loop in disteval/builtin.cpp:7-160), - export_sector:604-666 [DIST_SECTOR_ORDER_CU], the sum kernel disteval/builtin.cu:11-32 and the loop over batches disteval/cudaworker.cpp:394-450, - /repo/pySecDecContrib/qmc.hpp:2137-2187 [core::generic::compute]. Simplifications: doubles are real numbers except in mulmod; the integrand is an arbitrary function of the point which fails when a sign check fails (the kernel then returns NaN, here None); results are real; [body] stands for the code after "return(".
* `MatSortModel.v`: Model of /repo/pySecDec/matrix_sort.py. A matrix is the list of its rows together with the number [w] of columns ([matrix.shape[1]]); the functions modifying their argument in place return the new matrix.
* `MiscModel.v`: Model of the helper functions of /repo/pySecDec/misc.py.
* `MulmodModel.v`: Model of [mulmod] in /repo/pySecDecContrib/disteval/common_cpu.h:82-92 (identical in common_cuda.h:111-121) and of [mul_mod] in /repo/pySecDecContrib/qmc.hpp:98-113. Integers are unbounded, every unsigned (signed) 64 bit operation is followed by an explicit reduction [u64] ([s64]); double precision multiplication and division are the exact results rounded to nearest even (Flocq); overflow to infinity cannot occur for the sizes considered.
* `NanModel.v`: Model of the integration jobs of one pass of disteval: /repo/pySecDec/disteval.py:597-625 ([shift_done_cb], [schedule_kernel]) on top of the scheduler (173-228) and the workers (71-141), when every kernel of the pass is scheduled (726-729) and results come back in any order. The tokens of all workers are numbered together (a token is a pair of worker and serial number in the code; that answers reach the callback of their token is C48). The median construction of lattices (627-651) uses the same protocol with other callbacks and is not modelled; neither are the timing counters kern_db, kern_di, kern_dt.
* `OrdModel.v`: Model of the bookkeeping of expansion orders, from the orders requested for a sum of integrals down to the kernels of the sectors: /repo/pySecDec/code_writer/sum_package.py:54-119 [Coefficient.leading_orders], 131-176 [_generate_one_term]; /repo/pySecDec/code_writer/make_package.py:1150-1188, 1361-1362, 1798-1802, 1892-1893, 2135-2136, 2151-2158 (orders), 580-583 [_make_sector_order_names]; /repo/pySecDec/code_writer/templates/sum_package/src/name_weighted_integral.cpp:31-48 [compute_required_orders]; /repo/pySecDecContrib/util/secdecutil/coefficient_parser.hpp:186-195; /repo/pySecDec/disteval.py:489-493. A list of orders has one entry per regulator. Coefficients are elements of a field; [ginsh] and the two expansion routines (C38, C39) are parameters.
* `ParamModel.v`: Model of /repo/pySecDec/loop_integral/common.py: powers, exponents, numerator and measure of the Feynman parametrised integrand.
* `PolyModel.v`: Model of the numeric part of /repo/pySecDec/algebra.py: class Polynomial.
* `PrefModel.v`: Model of the path of the expanded prefactor into the generated C++ function: /repo/pySecDec/expansion.py:425-441 (sympy_to_nested_Polynomial), /repo/pySecDec/code_writer/make_package.py:639-674 (_make_prefactor_function) and the brace initialisation of nested secdecutil::Series, /repo/pySecDecContrib/util/secdecutil/series.hpp:585-600. Simplifications: the expression returned by ginsh is the list of its terms (exponents of the regulators, coefficient); the text is a list of tokens and ccode(coeff.evalf(20)) is one token that stands for the coefficient.
* `QmcLoopModel.v`: Model of the adaptive part of the QMC integrator, /repo/pySecDecContrib/qmc.hpp: 1264-1276 and 1321-1342 [compute_error_ratio], 3225-3281 [update], 3283-3310 [get_next_n], 3313-3364 [integrate_no_fit_no_transform], 3380-3433 [get_median_z]. Simplifications: floating point numbers are real numbers, extended by infinity and NaN where divisions by zero matter; unsigned integers are natural numbers; the checks of [n] against the largest representable numbers (3303-3307) are left out.
* `QmcModel.v`: Model of the statistics of the QMC integrator, /repo/pySecDecContrib/qmc.hpp:2557-2612 [core::reduce] with the overloads of 1241-1262 (real numbers) and 1301-1319 (complex numbers), and of the splitting of the shifts in [Qmc::sample], 2769-2778 and 2914. Simplifications: floating point numbers are real numbers; unsigned integers are natural numbers; the vector of previous iterations is a list with the last element first; logging is left out.
* `RegModel.v`: Model of /repo/pySecDec/make_regions.py: the expansion of a product of powers in the smallness parameter of a region.
* `RpcModel.v`: Model of the message layer of /repo/pySecDec/disteval.py: [Worker] (lines 71-141) and [RandomScheduler] (173-228). Requests are numbered in the order in which they are issued; the number of a request stands for its contents. Fields marked "ghost" are not in the code: they record the history for the statements.
* `SecSplitModel.v`: Model of the decomposition with splitting of the integration region: /repo/pySecDec/code_writer/make_package.py:1871-1884 ([secondary_decomposition_with_splitting]), for decomposition_method='iterative' or 'iterative_no_primary' (the secondary strategy is [iterative_decomposition]).
* `SectorModel.v`: Model of /repo/pySecDec/decomposition/iterative.py and the Sector class of decomposition/common.py.
* `SeriesModel.v`: Model of /repo/pySecDecContrib/util/secdecutil/series.hpp, class template Series: constructor (583-600), add (126-173), subtract (76-121), multiply_series (176-221), multiply_scalar (224-238), division_series_by_series (256-337), division_series_by_scalar (340-352), unary minus (436-444), comparison (412-434), operators with scalars (484-560). Simplifications: the coefficients are elements of a field (no nested Series, no rounding); [int] is unbounded; a thrown exception is a value.
* `SortModel.v`: Lexicographic order on integer rows and the stable sort used by /repo/pySecDec/misc.py:argsort_2D_array.
* `SplitModel.v`: Model of /repo/pySecDec/decomposition/splitting.py.
* `StrModel.v`: Model of the text handling of /repo/pySecDec/code_writer: template_parser.py and the name checks of make_package.py.
* `SubModel.v`: Model of /repo/pySecDec/subtraction.py 17-366: pole_structure, integrate_pole_part, integrate_by_parts. Simplifications: a [polyprod] is a record of its three kinds of factors; a monomial factor is its row of exponents with coefficient 1; numbers are real numbers; python objects are not shared or mutated (see ExprModel); the exponent of [regulator_poles] is -1 (as the documentation, 188-193, demands) and [Pow(base, -1)] with a polynomial [base], which [Pow.simplify] (algebra.py:1577-1583) turns into an ExponentiatedPolynomial first, is built as one.
* `SymModel.v`: Model of the symmetry finder in /repo/pySecDec/decomposition/common.py (lines 124-713).
* `TextConvModel.v`: Model of the converters of /repo/pySecDec/integral_interface.py.
* `TextDistModel.v`: Model of the textual form of the results of disteval: /repo/pySecDec/disteval.py:973-1005 writes it, /repo/pySecDec/integral_interface.py:87-128 reads it.
* `TextJsonModel.v`: Model of series_to_json of /repo/pySecDec/integral_interface.py:274-320.
* `TextModel.v`: Model of the textual form of results: the stream operators of secdecutil (series.hpp, uncertainties.hpp) and the functions of /repo/pySecDec/integral_interface.py that read it. Texts are lists of characters.
* `TransModel.v`: Model of the periodising transforms: - /repo/pySecDecContrib/qmc.hpp: None (416-445), Baker (459-505), IPow (533-569), Binomial (587-620), KorobovCoefficient (638-668), KorobovTerm (683-706), KorobovImpl (719-748), Factorial (804-820), SidiCoefficient (841-870), SidiTerm (892-945), SidiImpl (961-1070), - /repo/pySecDecContrib/disteval/common_cpu.h:237-341 (none, baker, korobov1x1 ... korobov10x10; the same formulas up to 6x6 in common_cuda.h:64-110). Simplifications: real numbers instead of doubles, integrands with real values, unbounded integers in Binomial and Factorial.
* `UncModel.v`: Model of /repo/pySecDecContrib/util/secdecutil/uncertainties.hpp: UncorrelatedDeviation for a real type (41-201) and its specialisation for complex types (205-478). Simplifications: real numbers instead of floating point numbers; printing and [isnan] are left out. A compound assignment is the function from the old to the new content of the object.
* `WrapModel.v`: Model of /repo/pySecDecContrib/bin/formwrapper: it runs FORM, and when FORM reports that its WorkSpace is too small, raises WorkSpace in the file form.set of the current directory and runs FORM again. The Makefile of a package (templates/make_package/Makefile:48) runs one wrapper per sector, in parallel, all in the same directory. Line ends are single newlines (Python's universal newlines are not modelled).
* `XregModel.v`: Model of the choice of extra regulator exponents, /repo/pySecDec/loop_integral/loop_regions.py:217-241 (in [loop_regions]), 292-352 [suggested_extra_regulator_exponent] and 354-458 [extra_regulator_constraints]. Exponents are rational numbers. normaliz is a parameter ([facets_of], the facets of the convex hull of a list of points as rows normal ++ [offset], polytope.py), and so is [sympy.prime].

### Not modelled

Python's object identity, aliasing, caching (`cached_property`, `simplified` flags) and pickling; numpy overflow of
fixed-size integers; floating point rounding (the numeric parts are over fields or real numbers) unless a model says otherwise;
sympy (expressions it manipulates are values of the model, its decisions are parameters or oracles); the external
programs normaliz, dreadnaut, FORM, nauty, make and the C++ compiler; the Monte Carlo integrators (QMC, CUBA, CUDA);
documentation, examples, drawing of diagrams, command line parsing, file system and network effects except where a model
above says so.  Properties still without a claim in MANIFEST.json are listed in the plan above with the model intended for them.

### Print Assumptions

* Closed under the global context (no axioms): C01_add_sub, C01_add_sub_number, C01_mul, C01_neg, C01_mul_number, C01_pow, C02_simplify_value, C02_simplify_normal_form, C02_simplify_canonical, C02_simplify_idempotent, C03_derive_independent, C04_replace, C05_refactorize_value, C05_refactorize_minimal, C05_col_min_is_minimum, C05_refactorize_other_parameters, C05_refactorize_idempotent, C11_powerset_members, C11_powerset_multiples, C11_powerset_multiples_refuted, C11_powerset_once_in_order, C11_powerset_by_position, C11_combinations_lexicographic, C12_rangecomb_members, C12_rangecomb_count, C13_missing_multiset_difference, C13_missing_error, C14_all_pairs_matchings, C14_all_pairs_once, C14_all_pairs_by_position, C14_all_pairs_count, C15_det, C15_parallel_det, C16_argsort_2D, C16_argsort_2D_unique, C16_argsort_3D, C16_equal_rows_adjacent, C17_chunks, C18_Pak_sort_permutes, C18_Pak_sort_default_permutes, C18_light_Pak_sort_permutes, C18_iterative_sort_terminates, C18_iterative_sort_permutes, C19_Pak_sort_smallest, C19_Pak_sort_default_smallest, C19_Pak_sort_canonical, C19_single_column_refuted, C20_terminates, C20_distinguishes, C20_no_collision, C21_sort_functions, C21_terminates, C21_outputs_are_inputs, C21_sum_preserved, C21_Pak_finds_all, C21_ignored_variables_refuted, C21_dreadnaut_sum_preserved, C22_graph_encodes_array, C22_number_of_terms, C23_primary_decomposition, C23_default_indices, C24_remap_parameters, C24_jacobian_determinant, C25_iteration_step, C26_find_singular_set, C26_prefers_highest_powers, C26_most_polynomials_refuted, C27_every_field, C27_standard_form_unchanged, C27_initial_sectors, C28_value, C28_involution, C28_negative_exponent_fails, C29_sectors, C29_choices, C30_singular_sets, C30_appears, C30_split_parameters, C31_transform_value, C31_composition, C32_points_belong_to_product, C32_coefficients_irrelevant, C33_Cheng_Wu, C34_apply_region, C34_other_exponents, C40_spanning_trees, C40_homogeneous, C40_vertex_order_irrelevant, C40_errors, C41_two_forests, C41_homogeneous, C41_unconserved_order_dependent_refuted, C42_power_split, C42_removed_consistent, C42_positive_fraction_refuted, C44_returned_lattice, C44_fails_above_maximum, C44_too_many_variables, C44_monotone, C44_stable, C45_accepted, C45_result, C45_default, C45_idempotent, C45_macros, C45_macros_injective, C45_macro_arguments, C45_instantiation_files, C46_accepts_exactly_legal_names, C46_characters, C46_comma_refuted, C46_newline_refuted, C48_answers_reach_their_callers, C48_nothing_lost, C48_exactly_once, C48_tokens, C48_calls_are_safe, C48_idle_multicall_is_safe, C48_multicall_token_reuse_refuted, C48_multicall_result, C48_empty_multicall_refuted, C48_two_errors_refuted, C49_npending_exact, C49_drain, C49_cancelled_never_runs, C49_double_cancel_refuted, C50_cauchy_product, C50_general, C51_make_odd, C53_array_shorthand, C53_array_single, C53_unit, C53_no_unit, C53_timeout, C53_round_down, C53_round_up, C53_human_readable, C53_parse_number, C53_parse_plain_number, C54_add, C54_sub, C54_neg, C54_scale, C54_unscale, C54_scalar, C54_mul, C54_div, C54_product_exists, C54_quotient_exists, C54_add_largest, C54_sub_largest, C54_mul_largest, C54_mismatch, C54_equal, C56_get_next_n, C57_rec_subs_fixed_point, C58_geometric_ku, C58_geometric_ku_complete, C58_geometric, C58_jacobian_terms_refuted, C59_indices_counted_twice_refuted, C60_find_regions, C60_unsorted_indices_refuted, C60_negative_index_refuted, C61_template_file, C61_python_rules, C61_escaped_reference_refuted, C62_template_tree, C62_parents_first, C63_weights, C63_truncation_is_harmless, C67_add, C67_mul, C67_div, C67_neg, C67_sub, C67_once, C67_once_scaled, C70_zero_powers, C70_zero_loop_refuted, C75_adjugate, C75_complete_square, C75_homogeneous, C75_routing, C75_linear_propagator, C76_contraction_keeps_value, C76_contraction_complete, C76_gamma_recursion, C76_numerator_is_isserlis, C76_order_of_factors, C76_k_squared, C76_term_factors_found, C76_index_more_than_twice_rejected, C76_term_value, C77_order_values, C77_lowest_orders, C77_sum_exact, C77_disteval_orders, C77_pylink_orders, C77_pylink_leading_order_two_refuted, C77_two_regulators_two_sums_refuted, C77_leading_orders, C77_leading_order_above_maxorder_refuted, C78_one_normal_per_internal_facet, C78_region_vertices, C78_small_parameter_column, C78_search, C78_suggestion, C78_primes_exist, C78_constant_constraint_refuted, C78_indices_refuted, C78_called_twice_refuted, C79_packages_of_shifts, C80_package_size, C81_get_next_n, C84_read_back, C84_ginac, C84_sympy, C84_maple, C84_mathematica, C84_single, C84_mathematica_brackets_refuted, C84_json, C84_json_regulators_refuted, C85_convert, C85_mathematica, C85_mathematica_single, C85_read, C85_nan_refuted, C85_empty_refuted, C86_calc, C86_calc_fixed, C86_scale_total, C86_scale_budget, C86_scale_largest, C86_package, C86_human, C86_parse, C87_file, C87_lines, C87_range, C87_exit, C87_terminates, C87_raises, C87_message, C87_progress, C87_alone, C87_package, C87_decreases_refuted, C87_last_line_refuted, C88_pending, C88_consistent, C88_no_stale, C88_frame, C88_terminates, C88_progress, C88_timeout_mixed_refuted, C88_error_refuted, C89_unchanged, C90_prefactor, C90_succeeds, C90_negative_order_refuted, C90_missing_order, C90_parameters, C91_files, C91_every_order, C91_derivatives, C91_different_functions_refuted.
* `sig_forall_dec`: C47_names_distinct, C47_short, C47_number_coefficient_refuted, C51_start_tabled, C80_terminates, C80_evaluate.
* `functional_extensionality_dep`, `sig_forall_dec`: C03_derive, C09_recorded, C24_partial_derivatives, C25_image_of_cube, C25_cover_and_overlap, C27_standard_form_and_tiling, C29_tiling, C32_contains_every_vertex, C32_repeated_monomials_refuted, C38_errors, C39_errors, C39_zero_refuted, C51_pass, C51_strictly_larger_lattices, C51_value_is_average, C51_update, C51_error_grows_refuted, C51_even_candidates_refuted, C55_convert, C55_negation, C55_add_number, C55_sub_number, C56_monotone, C56_no_recompute, C56_request, C56_not_refinable, C56_lattices_grow, C56_best, C56_not_a_number_refuted, C56_failure_at_largest_lattice_refuted, C58_ku_image, C58_jacobian_determinant, C59_cone_is_region, C59_fan_covers_once, C64_mul_variance, C64_amplitude_variance, C64_correlated_refuted, C65_terminates, C65_goal_min_prec, C65_goal_error, C65_time_up, C65_points, C65_increase_factor_one_refuted, C66_ends, C66_parameters, C66_factor_one_refuted, C68_U_F_at_zero, C69_ex, C69_region_ex, C73_tiles, C74_korobov_boundary, C74_baker_periodic, C80_every_point_once, C80_serial, C80_no_race, C81_goal, C81_goal_all, C81_goal_all_refuted, C81_goal_largest, C81_median, C82_split, C83_deterministic, C83_no_presamples, C83_all_samples_refuted.
* `functional_extensionality_dep`, `sig_forall_dec`, `sig_not_dec`: C51_first_phase_leaves_tables_refuted, C51_noninteger_lattice_refuted, C51_stop_first_phase, C55_mul_number, C55_div_number, C55_add, C55_sub, C55_mul, C55_expression, C55_formulas, C55_complex_mul, C55_complex_add, C55_complex_left, C55_complex_number, C55_self_assignment_refuted, C55_complex_chain_refuted, C67_value, C67_sum, C67_repeated_integral_refuted, C74_baker, C74_none, C74_dist_baker, C74_dist_none, C74_sidi_boundary, C79_pooled_statistics, C79_sample, C79_complex, C82_point, C82_jacobian, C83_first_order, C83_first_phase, C83_terminates, C83_displacement.
* `classic`, `functional_extensionality_dep`, `sig_forall_dec`: C51_median_candidate.
* `classic`, `functional_extensionality_dep`, `sig_forall_dec`, `sig_not_dec`: C04_replace_nested, C04_nested_zero_refuted, C06_derive, C06_derive_any, C07_simplify, C07_simplify_any, C07_no_duplicates, C07_duplicate_terms_refuted, C08_flatten, C08_denest, C08_exponent_lost_refuted, C09_compute_derivatives, C09_order, C09_chain_rule, C09_derive_succeeds, C09_more_arguments_refuted, C10_history, C10_order, C10_to_sum, C21_integral_preserved, C25_integral_preserved, C27_integral_preserved, C29_integral_preserved, C35_derive_prod, C35_ex, C36_by_parts, C36_sample, C37_pole_part, C37_pole_structure, C37_value_integral, C37_sample, C37_integrable_error_refuted, C38_Taylor, C38_free, C38_approximates, C38_nested_refuted, C39_one_variable, C39_several_variables, C39_only_OrderError, C39_zero_coefficient_refuted, C43_measure, C43_projective, C43_graph, C47_split, C47_call, C47_succeeds, C51_stop, C51_second_phase_stays_in_tables, C51_gives_up_early_refuted, C52_unlimited, C52_capped, C52_never_above_cap, C52_returned, C52_truncation_refuted, C52_below_floor_refuted, C52_all_amplitudes, C68_numerator_is_derivative, C68_bridge_refuted, C69_expand_region, C69_zero_exponent_refuted, C69_region, C71_maxdegrees, C71_polynomial_function, C71_nested_refuted, C72_mulmod, C72_mul_mod, C72_range, C73_cpu_sum, C73_cpu_fail, C73_cpu_exact, C73_cuda, C73_cuda_tiles, C73_cpu_extra_lane_refuted, C73_package, C73_packages_cover, C73_batching, C74_korobov, C74_sidi, C74_dist_korobov, C74_dist_same, C74_integrable, C80_lattice_rule, C81_update, C81_integrate, C81_maxeval_refuted, C81_integrate_complex, C89_integral, C89_finished, C89_corners.
* `classic`, `constructive_indefinite_description`, `functional_extensionality_dep`, `sig_forall_dec`, `sig_not_dec`: C82_integral, C82_idelta.

