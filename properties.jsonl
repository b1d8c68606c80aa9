{"id": "C01", "title": "Segment ordering is a strict order", "statement": "Comparing two pieces of a piecewise function with < and > is irreflexive, transitive and mirror-symmetric, and two pieces are incomparable exactly when they span the same interval or one lies strictly inside the other with no common end.", "quantifier": "all pairs and triples of pieces with arbitrary finite or infinite ends", "why_tests_cant": "Sorting and bisection silently misbehave if the order law fails for a single triple; tests only try a handful of triples.", "anchors": ["pacal/segments.py: Segment.__lt__, Segment.__gt__"]}
{"id": "C02", "title": "Adding pieces keeps the function ordered and loses nothing", "statement": "Building a piecewise function by adding pieces with disjoint interiors never raises, leaves the pieces sorted from left to right and non-overlapping, and contains exactly the pieces that were added.", "quantifier": "every finite sequence of additions, in every order, of pieces with pairwise disjoint interiors and atoms further apart than the merge tolerance", "why_tests_cant": "The number of orders and shapes is unbounded; the bisection used for insertion is only correct as an invariant over all histories.", "anchors": ["pacal/segments.py: PiecewiseFunction.addSegment", "pacal/segments.py: Segment.__lt__"]}
{"id": "C03", "title": "The order of adding pieces does not matter", "statement": "Two piecewise functions built from the same disjoint pieces added in different orders have identical piece lists, hence identical values everywhere.", "quantifier": "every finite multiset of disjoint pieces and every pair of permutations of it", "why_tests_cant": "n! permutations for every n.", "anchors": ["pacal/segments.py: PiecewiseFunction.addSegment"]}
{"id": "C04", "title": "Adding atoms never loses or creates probability mass", "statement": "Every successful addition of an atom increases the total atomic mass by exactly its mass, and an addition of a continuous piece does not change it, whether the atom is merged with a close one, inserted, or relocated.", "quantifier": "every starting function and every finite sequence of additions", "why_tests_cant": "Mass bookkeeping is an invariant over all histories.", "anchors": ["pacal/segments.py: PiecewiseFunction.addSegment", "pacal/segments.py: DiracSegment"]}
{"id": "C05", "title": "An atom inside a continuous piece is moved to the left end of that piece", "statement": "Adding an atom strictly inside an existing continuous piece does not place the atom where it was asked for: it always ends up at the left end of that piece (so the location of an atom is only respected at piece boundaries or outside all pieces).", "quantifier": "every function whose pieces are ordered, every atom strictly inside one of its pieces", "why_tests_cant": "A universal statement about silent relocation; a test shows one relocation only.", "anchors": ["pacal/segments.py: PiecewiseFunction.addSegment lines 1093-1099"]}
{"id": "C06", "title": "Scalar lookup finds the piece containing the point", "statement": "For a gap-free function without atoms, evaluating at a point returns the value of the unique piece [a,b) containing it (the last piece is closed on the right) and 0 outside the support; with gaps the lookup returns the piece to the right of the gap and extrapolates it.", "quantifier": "every ordered gap-free function, every real point; every function with a gap for the second half", "why_tests_cant": "Correctness of binary search over all list lengths and positions.", "anchors": ["pacal/segments.py: PiecewiseFunction.findSegment", "pacal/segments.py: PiecewiseFunction.__call__"]}
{"id": "C07", "title": "Scalar and vector evaluation agree on gap-free functions", "statement": "For a gap-free function without atoms the scalar call and the vectorised call return the same value at every point.", "quantifier": "every gap-free function without atoms, every real point; a counterexample for gaps and for atoms", "why_tests_cant": "Two independent algorithms (binary search, masked sweep) must agree on all inputs.", "anchors": ["pacal/segments.py: PiecewiseFunction.__call__"]}
{"id": "C08", "title": "Reported breakpoints are exactly the piece ends", "statement": "getBreaks returns a strictly increasing sequence whose elements are exactly the left and right ends of the pieces, and the incrementally maintained breaks attribute agrees with it after any sequence of additions of disjoint pieces.", "quantifier": "every sequence of additions", "why_tests_cant": "Invariant over histories.", "anchors": ["pacal/segments.py: PiecewiseFunction.getBreaks", "pacal/segments.py: PiecewiseFunction.addSegment"]}
{"id": "C09", "title": "Splitting does not change the function", "statement": "splitByPoints at increasing points returns an ordered function with the same value at every point, the same atoms, and no split point strictly inside any piece; unsorted points can produce inverted pieces.", "quantifier": "every ordered function and every strictly increasing list of split points, every evaluation point", "why_tests_cant": "Unbounded numbers of pieces and split points.", "anchors": ["pacal/segments.py: PiecewiseFunction.splitByPoints"]}
{"id": "C10", "title": "Restriction keeps exactly the requested interval", "statement": "restrictToInterval(a,b) has the value of the function inside (a,b) and no piece outside [a,b]; atoms are kept exactly when a <= position < b.", "quantifier": "every ordered function, every a < b", "why_tests_cant": "All positions of a and b relative to all piece layouts.", "anchors": ["pacal/segments.py: PiecewiseFunction.restrictToInterval"]}
{"id": "C11", "title": "Pointwise arithmetic of piecewise functions is pointwise", "statement": "For piecewise functions without atoms, (f+g)(x), (f-g)(x) and (f*g)(x) equal the corresponding operation on f(x) and g(x) at every point that is not a breakpoint of either function, treating a function as 0 off its pieces.", "quantifier": "every pair of ordered functions without atoms, every operation with op(0,0)=0, every non-breakpoint", "why_tests_cant": "The common-refinement algorithm must line up for every interleaving of breakpoints.", "anchors": ["pacal/segments.py: PiecewiseFunction._operation__", "pacal/segments.py: _makeCommonSegmentList", "pacal/segments.py: PiecewiseFunction.findSegmentByEnds"]}
{"id": "C12", "title": "f - r computes r - f, and f / r fails", "statement": "Subtracting a number from a piecewise function returns number minus function on every piece, and dividing a piecewise function by a number raises; number*f, f*number, number+f and number-f behave pointwise on the pieces.", "quantifier": "every piecewise function and every number", "why_tests_cant": "Sign errors for all inputs.", "anchors": ["pacal/segments.py: PiecewiseFunction.__sub__", "pacal/segments.py: PiecewiseFunction.__truediv__", "pacal/segments.py: PiecewiseFunction._roperation__"]}
{"id": "C13", "title": "Atoms in sums of piecewise functions add up; in differences one-sided atoms keep the wrong sign", "statement": "The atoms of f+g are the union of positions with masses added; for f-g an atom present only in g appears with positive sign.", "quantifier": "every pair of functions with atoms", "why_tests_cant": "All overlap patterns of atoms.", "anchors": ["pacal/segments.py: PiecewiseFunction.op_diracs", "pacal/segments.py: PiecewiseFunction._operation__"]}
{"id": "C14", "title": "Integrals are additive over adjacent intervals and non-negative for non-negative pieces", "statement": "For ordinary and half-infinite pieces with exact quadrature, the integral over [u,w] is the sum of the integrals over [u,v] and [v,w] for every u<=v<=w, is 0 when the interval misses the piece, and is >=0 for a non-negative density. For a constant piece the result is negative when the interval lies outside the piece.", "quantifier": "every integrable piece, all interval ends including infinite ones", "why_tests_cant": "All relative positions of interval and piece.", "anchors": ["pacal/segments.py: Segment.integrate", "pacal/segments.py: ConstSegment.integrate", "pacal/segments.py: PInfSegment.integrate", "pacal/segments.py: MInfSegment.integrate"]}
{"id": "C15", "title": "Atoms are integrated over open intervals", "statement": "An atom contributes its whole mass to an interval exactly when it lies strictly inside it (or the interval is the degenerate point), hence splitting an interval exactly at an atom loses its mass.", "quantifier": "every atom and interval", "why_tests_cant": "Boundary behaviour for all coincidences.", "anchors": ["pacal/segments.py: DiracSegment.integrate"]}
{"id": "C16", "title": "The CDF is a distribution function", "statement": "For a non-negative gap-free density with atoms at breakpoints and exact quadrature, the CDF built by cumint is 0 left of the support, non-decreasing, equals the integral of the continuous part up to x plus the atoms at or before x, and equals the total mass right of the support.", "quantifier": "every such density with any number of pieces and atoms, every real x", "why_tests_cant": "Accumulation over unbounded numbers of pieces.", "anchors": ["pacal/segments.py: PiecewiseFunction.cumint", "pacal/segments.py: Segment.cumint", "pacal/segments.py: PInfSegment.cumint", "pacal/segments.py: MInfSegment.cumint"]}
{"id": "C17", "title": "Shift and scale transform probabilities correctly", "statement": "The density of s*X+t built piece by piece assigns to every interval the probability that the original density assigns to the preimage interval, for positive and negative s, and two successive shift/scales compose into one.", "quantifier": "every piece kind, every t, every s<>0, every interval", "why_tests_cant": "Continuous family of parameters.", "anchors": ["pacal/segments.py: Segment.shiftAndScale", "pacal/segments.py: PiecewiseFunction.copyShiftedAndScaled"]}
{"id": "C18", "title": "Monotone transformations push probability forward", "statement": "For an injective differentiable g with inverse and derivative as supplied, the transformed piece assigns to g(I) the probability the original assigns to I.", "quantifier": "every finite piece, every monotone g with continuous inverse derivative, every subinterval", "why_tests_cant": "Change of variables for all functions.", "anchors": ["pacal/segments.py: Segment.probComposition", "pacal/segments.py: PiecewiseFunction.copyComposition"]}
{"id": "C19", "title": "Square and absolute value", "statement": "The pieces produced for X^2 and |X| from a piece on one side of zero assign to each interval of the target the probability of its preimage in that piece.", "quantifier": "every piece not crossing zero, every target interval", "why_tests_cant": "Continuous family; sign cases.", "anchors": ["pacal/segments.py: Segment.squareComposition", "pacal/segments.py: Segment.absComposition", "pacal/segments.py: PiecewiseFunction.copySquareComposition", "pacal/segments.py: PiecewiseFunction.copyAbsComposition"]}
{"id": "C20", "title": "Quantiles bracket the requested level", "statement": "inverse(y) of a CDF returns a point x with F(x-) <= y <= F(x) whenever y is strictly between 0 and 1, given exact root finding inside pieces.", "quantifier": "every CDF produced by cumint, every level", "why_tests_cant": "Unbounded number of pieces, jumps and plateaus.", "anchors": ["pacal/segments.py: PiecewiseFunction.inverse_scalar", "pacal/distr.py: Distr.quantile"]}
{"id": "C21", "title": "Arithmetic on independent discrete variables is exact", "statement": "The atoms computed for op(X,Y) carry, at each value z, exactly the sum of P(X=x)P(Y=y) over op(x,y)=z, and the total mass is the product of the totals.", "quantifier": "every pair of finite discrete distributions, every binary operation", "why_tests_cant": "All collision patterns.", "anchors": ["pacal/indeparith.py: convdiracs", "pacal/segments.py: _conv_diracs"]}
{"id": "C22", "title": "Minimum and maximum of discrete variables are exact", "statement": "The atoms computed for min(X,Y) and max(X,Y) of two independent distributions give at each atom z the mass P(X=z)P(Y>z)+P(X>z)P(Y=z)+P(X=z)P(Y=z) (mirror image for max), and for two purely discrete probability distributions the masses sum to one.", "quantifier": "every pair of distributions with atoms", "why_tests_cant": "All tie patterns.", "anchors": ["pacal/indeparith.py: _probDiracsInMin", "pacal/indeparith.py: _probDiracsInMax"]}
{"id": "C23", "title": "A zero factor collects the right mass in a product", "statement": "The mass placed at zero in the product of two independent variables equals P(X=0)+P(Y=0)-P(X=0)P(Y=0).", "quantifier": "every pair of distributions with total mass one", "why_tests_cant": "All combinations of atoms at zero.", "anchors": ["pacal/indeparith.py: _probDiracAtZeroInProd"]}
{"id": "C24", "title": "The convolution integral covers every contribution exactly once", "statement": "For densities without atoms and exact quadrature, the value computed for X+Y at z equals the full convolution integral of the two densities, i.e. the chosen pairs of pieces and integration limits neither miss nor double count.", "quantifier": "every pair of piecewise densities with finite pieces, every z", "why_tests_cant": "All interleavings of pieces.", "anchors": ["pacal/indeparith.py: Convxrunner.conv_at_point", "pacal/indeparith.py: _findSegListAdd"]}
{"id": "C25", "title": "Minimum and maximum densities", "statement": "The density computed for min(X,Y) at x equals f(x)(1-G(x)) + g(x)(1-F(x)), and for max f(x)G(x)+g(x)F(x), and each integrates to the corresponding distribution function.", "quantifier": "every pair of piecewise densities, every x", "why_tests_cant": "All piece layouts.", "anchors": ["pacal/indeparith.py: Convxrunner.convminx_at_point", "pacal/indeparith.py: Convxrunner.convmax_at_point"]}
{"id": "C26", "title": "The quotient with a discrete denominator uses the wrong argument", "statement": "For X continuous and Y an atom at c, the density of X/Y at z should be |c| f(z c); the code evaluates f(c) instead, so the result is wrong whenever f(c) differs from f(z c).", "quantifier": "every continuous piece and atom", "why_tests_cant": "Formula level defect for all inputs.", "anchors": ["pacal/indeparith.py: Convxrunner.convdiv_at_point lines 531-574"]}
{"id": "C27", "title": "Piece pairs for products and quotients are complete", "statement": "The pairs of pieces selected for a product or quotient at z contain every pair of quadrant-aligned pieces that has points x,y in their interiors with x*y=z (x/y=z).", "quantifier": "every pair of ordered functions split at zero, every z", "why_tests_cant": "All sign and infinity combinations.", "anchors": ["pacal/indeparith.py: _findSegList", "pacal/indeparith.py: _findSegListDiv"]}
{"id": "C28", "title": "Discrete distributions store what they were given", "statement": "A discrete distribution built from distinct values and probabilities has exactly these atoms in increasing order whatever the input order, and evaluates P(X=x) as the given probability.", "quantifier": "every list of distinct values with probabilities", "why_tests_cant": "All permutations.", "anchors": ["pacal/distr.py: DiscreteDistr.__init__", "pacal/distr.py: DiscreteDistr.init_piecewise_pdf"]}
{"id": "C29", "title": "Conditioning renormalises", "statement": "X | X>a, X | X<a and X | a<X<b have total mass one and the probability of each sub-event equals P(event and condition)/P(condition).", "quantifier": "every density and threshold with positive probability of the condition", "why_tests_cant": "Continuous family.", "anchors": ["pacal/distr.py: CondGtDistr", "pacal/distr.py: CondLtDistr", "pacal/distr.py: CondDistr"]}
{"id": "C30", "title": "Operators with numbers simplify without changing the value", "statement": "Every expression X+c, c+X, X-c, c-X, X*c, c*X, X/c, c/X, X**c, c**X, -X returns an object that samples to the same arithmetic on the sample of X, including the special cases 0, 1, -1, 2; the failing cases raise.", "quantifier": "every expression over every constant and every sample", "why_tests_cant": "The dispatch has special cases at single constants; a sampled test hits each only by luck.", "anchors": ["pacal/distr.py: Distr.__add__ ... Distr.__rpow__ lines 410-535"]}
{"id": "C31", "title": "Shared variables are sampled consistently", "statement": "When sampling with a shared cache, every occurrence of the same variable in an expression yields the same sample, so the sample of an expression equals the expression evaluated on one joint sample of its base variables; with independent sampling it does not.", "quantifier": "every expression DAG and every stream of base samples", "why_tests_cant": "All DAG shapes.", "anchors": ["pacal/distr.py: Distr.rand", "pacal/distr.py: OpDistr.rand"]}
{"id": "C32", "title": "Dependence detection is exact", "statement": "The set of ancestors reported for a variable is exactly the set of variables reachable through the operands, and the dependence warning is raised exactly when the two operands share an ancestor.", "quantifier": "every expression DAG", "why_tests_cant": "All DAG shapes.", "anchors": ["pacal/rv.py: RV.getAncestorIDs", "pacal/rv.py: OpRV", "pacal/distr.py: OpDistr"]}
{"id": "C33", "title": "Reported ranges contain all values", "statement": "The range reported for sums, shifted/scaled variables and products contains every value the expression takes on values within the operand ranges; for differences it does not.", "quantifier": "every operand ranges and all values within them", "why_tests_cant": "Continuous family with sign cases.", "anchors": ["pacal/rv.py: SumRV.range", "pacal/rv.py: SubRV.range", "pacal/rv.py: MulRV.range", "pacal/rv.py: ShiftedScaledRV.range", "pacal/rv.py: DivRV.range"]}
{"id": "C34", "title": "Variable transforms for infinite intervals are inverse bijections", "statement": "Each transform of an infinite interval to a finite one is inverted by its inverse on the whole domain, in both directions, is strictly monotone, and the supplied derivative is the absolute value of the derivative of the inverse, so that integrating through a transform returns the integral.", "quantifier": "every real argument in the domain and every shape parameter", "why_tests_cant": "Continuous families.", "anchors": ["pacal/vartransforms.py: VarTransformReciprocal_*", "pacal/vartransforms.py: VarTransformAlgebraic_*"]}
{"id": "C35", "title": "Function distributions use matching inverses and derivatives", "statement": "For exp, log, atan, tanh, sigmoid the supplied inverse is the inverse on the range and the supplied derivative is the derivative of the inverse, so that the density transformation is exact; for sin the second branch inverse is not an inverse.", "quantifier": "every real argument in the relevant domain", "why_tests_cant": "Continuous families.", "anchors": ["pacal/distr.py: ExpDistr", "pacal/distr.py: LogDistr", "pacal/distr.py: AtanDistr", "pacal/distr.py: TanhDistr", "pacal/distr.py: SigmoidDistr", "pacal/distr.py: SinDistr"]}
{"id": "C36", "title": "Barycentric interpolation reproduces node values and is the interpolating polynomial", "statement": "With the weights computed by the interpolator the value at a node is the stored value, and at any other point it equals the unique polynomial of degree < n through the nodes.", "quantifier": "every list of distinct nodes, every values, every point", "why_tests_cant": "All node configurations.", "anchors": ["pacal/interpolation.py: BarycentricInterpolator.interp_at", "pacal/bary_interp.pyx: bary_interp"]}
{"id": "C37", "title": "Chebyshev node refinement is nested", "statement": "Doubling the number of Chebyshev nodes keeps the old nodes at even positions, the incremental nodes are exactly the odd ones, and interleaving old and new rebuilds the full increasing node list.", "quantifier": "every node count n>=2 and every interval a<b", "why_tests_cant": "All n.", "anchors": ["pacal/utils.py: cheb_nodes", "pacal/utils.py: incremental_cheb_nodes", "pacal/utils.py: combine_interpolation_nodes_fast"]}
{"id": "C38", "title": "The convergence monitor returns the best result seen", "statement": "Whatever errors are reported, the result returned by get_best_result is one that was added, with minimal error among the eligible ones, and test_convergence stops only for the documented reasons.", "quantifier": "every history of reported errors and values", "why_tests_cant": "Unbounded histories.", "anchors": ["pacal/utils.py: convergence_monitor"]}
{"id": "C39", "title": "n-fold i.i.d. operations combine exactly n copies", "statement": "The i.i.d. sum, product, minimum and maximum computed by repeated doubling equal the n-fold combination of X for every n>=1, the 'all' variant lists all of them for 1..n, and the dependence-warning flag is restored afterwards.", "quantifier": "every n>=1 and every associative operation", "why_tests_cant": "All n.", "anchors": ["pacal/stats/iid_ops.py: _int_exp", "pacal/stats/iid_ops.py: _int_exp_all", "pacal/stats/iid_ops.py: iid_op"]}
{"id": "C40", "title": "Binomial and multinomial coefficients are exact", "statement": "binomial_coeff(n,k) and multinomial_coeff(n,ks) return the exact combinatorial number.", "quantifier": "all natural n, k and lists", "why_tests_cant": "All integers.", "anchors": ["pacal/utils.py: binomial_coeff", "pacal/utils.py: multinomial_coeff"]}
{"id": "C41", "title": "Binomial distribution probabilities", "statement": "The recurrence in BinomialDistr yields exactly C(n,k) p^k (1-p)^(n-k) at every k=0..n, and the probabilities sum to one.", "quantifier": "every n and every p other than 1", "why_tests_cant": "All n and real p.", "anchors": ["pacal/standard_distr.py: BinomialDistr"]}
{"id": "C42", "title": "Order statistics", "statement": "The density used for the k-th order statistic is the derivative of P(at least k of n observations <= x), hence integrates to one.", "quantifier": "every n, 1<=k<=n and every differentiable CDF", "why_tests_cant": "All n, k.", "anchors": ["pacal/stats/iid_ops.py: iid_order_stat"]}
{"id": "C43", "title": "Mixtures are sampled with the wrong weights", "statement": "Sampling a mixture chooses each component with equal probability instead of the given weights, so the sampled law equals the declared one only when the weights are uniform (or the components agree).", "quantifier": "every mixture", "why_tests_cant": "Law-level statement.", "anchors": ["pacal/standard_distr.py: MixDistr.rand_raw", "pacal/standard_distr.py: MixDistr.init_piecewise_pdf"]}
{"id": "C44", "title": "Sparse grid index sets are complete and weights are consistent", "statement": "The generated index sets are exactly all tuples of positive integers with the required sums, without repetition, and the combination coefficients of a sparse grid sum to one, so constants are reproduced exactly.", "quantifier": "every dimension and every nesting depth", "why_tests_cant": "All d and q.", "anchors": ["pacal/depvars/sparse_grids.py: gen_partitions", "pacal/depvars/sparse_grids.py: gen_Q", "pacal/depvars/sparse_grids.py: AdaptiveSparseGridInterpolator.get_nodes"]}
{"id": "C45", "title": "Multi-dimensional interpolation visits every grid point once", "statement": "The compiled dense-grid loop enumerates all index tuples in lexicographic order exactly once and accumulates the tensor-product sum.", "quantifier": "every dimension and every grid shape", "why_tests_cant": "All shapes.", "anchors": ["pacal/bary_interp.pyx: c_dense_grid_interp"]}
{"id": "C46", "title": "Evaluating a multivariate density at one point disagrees with evaluating at many", "statement": "For scalar arguments a point is considered inside when any coordinate is inside, for array arguments when all are; the two agree exactly when all or none of the coordinates are inside (or the function is zero there).", "quantifier": "every box and point", "why_tests_cant": "All coordinate combinations.", "anchors": ["pacal/depvars/nddistr.py: NDFun.__call__"]}
{"id": "C47", "title": "Products of factors: elimination and constants", "statement": "Collapsing constants does not change a product density, and eliminating a variable from a product only integrates the factors that contain it, giving the same marginal as integrating the whole product.", "quantifier": "every list of factors and every variable, every linear integration operator", "why_tests_cant": "All factor structures.", "anchors": ["pacal/depvars/nddistr.py: NDProductDistr.optimize", "pacal/depvars/nddistr.py: NDProductDistr.eliminate", "pacal/depvars/nddistr.py: NDProductDistr.factor_out"]}
{"id": "C48", "title": "Exchanging and eliminating variables keeps a model consistent", "statement": "After any sequence of successful exchange, elimination and conditioning steps, free and dependent variables are disjoint, each dependent variable has one equation over variables of the model, no eliminated variable is mentioned, and the set of solutions of the equations is preserved.", "quantifier": "every model and every finite sequence of operations", "why_tests_cant": "Unbounded histories.", "anchors": ["pacal/depvars/models.py: Model.varschange", "pacal/depvars/models.py: Model.eliminate", "pacal/depvars/models.py: Model.condition"]}
{"id": "C49", "title": "Copulas have uniform margins and lie between the Frechet bounds", "statement": "For the independence, upper-bound, lower-bound, Gumbel, Clayton and Frank copulas C(u,1)=u=C(1,u), and W(u,v) <= C(u,v) <= M(u,v) for the first three; the Archimedean generators are inverted by their inverses.", "quantifier": "all u,v in [0,1] and all admissible parameters", "why_tests_cant": "Continuous families.", "anchors": ["pacal/depvars/copulas.py: PiCopula", "pacal/depvars/copulas.py: MCopula", "pacal/depvars/copulas.py: WCopula", "pacal/depvars/copulas.py: GumbelCopula", "pacal/depvars/copulas.py: ClaytonCopula", "pacal/depvars/copulas.py: FrankCopula"]}
{"id": "C50", "title": "Bisection brackets a root", "statement": "The bisection helper returns, for any function with a sign change, an interval end within tolerance of a sign change, never leaves the initial bracket and stops after finitely many steps.", "quantifier": "every function with opposite signs at the ends, every tolerance", "why_tests_cant": "All functions.", "anchors": ["pacal/utils.py: bisect", "pacal/utils.py: findinv"]}
{"id": "C51", "title": "Wide-interval partitions tile the interval", "statement": "The sub-intervals used to integrate over a wide interval start at its left end, end at its right end, and are consecutive and increasing.", "quantifier": "every interval handled by the wide integration", "why_tests_cant": "All magnitudes.", "anchors": ["pacal/integration.py: integrate_wide_interval"]}
{"id": "C52", "title": "Near-duplicate removal", "statement": "epsunique returns input elements in increasing order, any two further apart than the relative tolerance; infinities are kept and a dropped element is near the previous distinct input (but may be far from every returned one). _unique_breakpoints returns input positions more than eps apart such that every input is within eps of a returned one that carries its flags.", "quantifier": "every list and tolerance", "why_tests_cant": "All lists.", "anchors": ["pacal/utils.py: epsunique", "pacal/indeparith.py: _unique_breakpoints"]}
{"id": "C53", "title": "Adding functions adds probabilities", "statement": "The sum of two piecewise functions gives every interval the sum of the probabilities the two functions give it, atoms included, whatever the two break point lists.", "quantifier": "every two functions with ordered pieces and separated atoms, every interval", "why_tests_cant": "All piece layouts; the break points are merged and the pieces split.", "anchors": ["pacal/segments.py: PiecewiseFunction.operation"]}
{"id": "C54", "title": "Truncated discrete laws", "statement": "The Poisson constructor stops for every rate and positive tolerance, lists the values 0..m with the Poisson probabilities where m is the first index whose tail is below the tolerance; the general truncated law is the given probability function on 0..m rescaled to total one.", "quantifier": "every rate, every probability function, every positive tolerance", "why_tests_cant": "Infinite families and a loop whose length depends on a real series.", "anchors": ["pacal/standard_distr.py: PoissonDistr.__init__", "pacal/standard_distr.py: TruncDiscreteFunDistr.__init__"]}
{"id": "C55", "title": "The quotient of independent variables is their law, end to end", "statement": "convdiv returns an ordered piecewise function whose value, away from finitely many break points, is the density of X/Y when Y has no atoms; for two discrete variables the atoms carry exactly the probabilities of the quotients; and P(X = 0) is kept as an atom at zero (it is not).", "quantifier": "all piecewise functions with separated break points, denominators crossing, touching or avoiding zero, finite and infinite ends", "why_tests_cant": "Break points arise from all pairs of ends, infinities are added by sign rules and cells are filled by probing one point; tests see a handful of shapes.", "anchors": ["pacal/indeparith.py: convdiv lines 1094-1190", "pacal/indeparith.py: _split_for_prod_and_div lines 880-899", "pacal/indeparith.py: _distr_signs, _distr_zero_signs lines 1060-1077"]}
{"id": "C56", "title": "Functions become pieces exactly where their poles are", "statement": "The constructor that takes a function, break points and two lists of pole flags returns consecutive pieces covering the whole range, each carrying the function, half-line pieces at infinite ends and pieces with a pole exactly where a flag is set, and refuses nothing that can be represented (it does).", "quantifier": "every function, every increasing list of break points with finite or infinite ends, all pole flags with at most one pole per piece", "why_tests_cant": "All combinations of flags and lengths; the shipped distributions use only a few.", "anchors": ["pacal/segments.py: PiecewiseFunction.__init__ lines 998-1063"]}
{"id": "C57", "title": "Standard distributions have their textbook laws", "statement": "For every admissible parameter the constructor of a standard distribution returns a non-negative piecewise density that covers its support, whose integral over any (a,b) is F(b)-F(a) for the textbook distribution function F, with total mass one; inadmissible parameters raise.", "quantifier": "all real parameters: Normal, Uniform, Trapezoidal, Cauchy, Exponential, Pareto, Levy, Laplace, Semicircle, Weibull, Frechet, LogLogistic, Gumbel, Gamma, ChiSquare, Beta, F, Student", "why_tests_cant": "Break points, pole flags and normalising constants depend on parameters through many branches; tests check a few parameter values.", "anchors": ["pacal/standard_distr.py lines 141-862", "pacal/segments.py: PiecewiseFunction.__init__"]}
{"id": "C58", "title": "Ranges, limiting values, relations and samplers of standard distributions", "statement": "range() is the support of the density; values at the ends of the support are the limits of the density; special cases of one family equal the other family; the inverse-transform samplers return values whose distribution function is the uniform number they used; array calls agree with scalar calls.", "quantifier": "all parameters and all arguments", "why_tests_cant": "Equalities between families and limits at a pole cannot be sampled.", "anchors": ["pacal/standard_distr.py lines 141-862"]}
{"id": "C59", "title": "Moments are those of the law", "statement": "The mean returned for a density is the mean of its law and depends on the probabilities of intervals only; variance, standard deviation and moments are consistent with each other; shifting and scaling acts on mean, variance, skewness and kurtosis as it must; the mean lies in the range and Chebyshev's inequality holds; means of mixtures and means and variances of sums and products of independent discrete variables combine correctly.", "quantifier": "all piecewise densities with atoms, poles and infinite ends for which the moments exist, all shifts and scales, all error estimates of the quadrature", "why_tests_cant": "A test compares a few numbers; that the loops over pieces and atoms compute a functional of the law needs the tail formula for arbitrary densities.", "anchors": ["pacal/segments.py: PiecewiseDistribution.mean, meanf, var, std lines 1893-1950", "pacal/distr.py: moment, skewness, kurtosis lines 157-173"]}
{"id": "C60", "title": "Named distributions have their textbook mean and variance", "statement": "For every admissible parameter the density built by a named distribution has the textbook mean and variance, mean() and var() return them whenever they return a number, and the distributions without a mean have none.", "quantifier": "all real parameters of Uniform, Normal, Exponential, Gamma, ChiSquare, Laplace, Weibull, Frechet, Pareto, Student, Beta, F, LogLogistic, Semicircle, Cauchy and Levy, all error estimates of the quadrature", "why_tests_cant": "Tests compare decimals for a few parameters; the exact formulas, and the parameter values at which a moment ceases to exist, hold for a continuum of parameters.", "anchors": ["pacal/standard_distr.py lines 141-862", "pacal/segments.py: PiecewiseDistribution.mean, var lines 1893-1950"]}
{"id": "C61", "title": "Quadrature weights are exact and the adaptive rule is reliable", "statement": "The Clenshaw-Curtis and Fejer weights computed through the inverse Fourier transform are positive, sum to two and integrate every polynomial below the stated degree exactly; both rules converge for every continuous integrand. The adaptive Fejer rule returns a value within 2(b-a)d of the integral when the integrand is within d of a polynomial of degree below 128, and between the bounds of the integrand times the length.", "quantifier": "all numbers of nodes from three on, all intervals, all polynomials, all continuous integrands, all tolerances and node limits", "why_tests_cant": "Tests check a few node counts and integrands to a tolerance; exactness and positivity for every number of nodes rest on cosine-sum identities, convergence on the Weierstrass theorem.", "anchors": ["pacal/integration.py: clenshaw_coefficients, fejer2_coefficients, integrate_clenshaw, integrate_fejer2 lines 43-162"]}
{"id": "C62", "title": "Chebyshev transforms are inverse and the derivative of an interpolator is the derivative", "statement": "chebt2 finds the Chebyshev coefficients of the interpolating polynomial (the leading one doubled) and ichebt2 undoes it. The derivative interpolator is exact for polynomials of degree below n-1 on n nodes, and for every interpolated polynomial when it is resampled; for degree n-1 with n >= 4 it is wrong.", "quantifier": "all numbers of nodes, all data, all intervals, all polynomials, all evaluation points", "why_tests_cant": "A test on a few smooth functions has a negligible leading coefficient and cannot see that it is doubled; exactness for all polynomials needs the orthogonality of cosines.", "anchors": ["pacal/utils.py: chebt2, ichebt2 lines 172-192", "pacal/interpolation.py: BarycentricInterpolator.diff lines 151-169"]}
{"id": "C63", "title": "Roots and trimming of Chebyshev interpolators", "statement": "The eigenvalues of the Chebyshev companion matrix are exactly the zeros of the series. roots passes it doubled leading coefficients and so returns zeros of another polynomial, or raises; trim keeps an interpolator whose leading coefficient is large and otherwise changes the function.", "quantifier": "all series with at least three coefficients, all polynomials, all intervals and tolerances, all answers of the eigenvalue routine", "why_tests_cant": "Tests can compare roots of a few functions; that the companion matrix is right and its use is wrong for every polynomial is a statement about all of them.", "anchors": ["pacal/utils.py: cheb1companion, chebroots lines 216-230", "pacal/interpolation.py: BarycentricInterpolator.roots lines 171-190, ChebyshevInterpolator.trim lines 257-267"]}
{"id": "C64", "title": "The multivariate normal distribution has the right density, marginals and conditionals", "statement": "For every symmetric positive definite covariance matrix the density is the textbook one, integrates to one and agrees for scalars and arrays; eliminating any variables gives the iterated integral over them, in particular the normal density of a single coordinate; a diagonal matrix gives the product of normal densities. Conditioning is right for two variables; with three or more it always fails. The variables made by default and the box of the function object are wrong.", "quantifier": "all dimensions, all means, all symmetric positive definite matrices, all lists of distinct variables, all points", "why_tests_cant": "A test can compare a few numerical integrals in two dimensions; the marginalisation formula for every dimension is a statement about Schur complements and determinants.", "anchors": ["pacal/depvars/nddistr.py: NDNormalDistr lines 511-561"]}
{"id": "C65", "title": "Entropy, L2 and Kullback-Leibler distance", "statement": "A function of a piecewise density acts on the values of every piece and on every atom. Entropy is minus the integral of f ln f plus the atomic part; it lies between 0 and ln n for n atoms and is at most ln(b-a) on [a,b]; named distributions have their textbook entropy. The L2 distance is the square root of the integrated squared difference, symmetric and zero on equal arguments. The Kullback-Leibler distance is the integral of f ln(f/g) and not negative where g is positive wherever f is and the atoms coincide; otherwise the value is wrong.", "quantifier": "all ordered piecewise functions with atoms further apart than the tolerance, all values chosen for log 0, all parameters of the named distributions", "why_tests_cant": "A test compares a few decimals for overlapping supports; Gibbs' inequality and the maximum of entropy are statements about all densities, and the failure needs differing supports.", "anchors": ["pacal/segments.py: op_diracs, _operation__, _function__ lines 1653-1745, KL_distance, L2_distance, entropy lines 1976-1990", "pacal/distr.py: entropy lines 194-202"]}
{"id": "C66", "title": "Functions of two dependent variables have the right density", "statement": "The two-variable model integrates the joint density along the curve op(x,y) = z inside each rectangle of pieces: the limits found for a rectangle are exactly the part of a monotone curve inside it, and the assembled result is at every point that is no value at two ends the integral along the whole curve. This holds for sums and differences of any variables without atoms and for products of pieces that do not reach 0; for independent variables it is the convolution. Atoms are handled wrongly, and products with a piece ending at 0 fail.", "quantifier": "all joint densities, all ordered piecewise marginals, all operations whose curves are monotone in every rectangle, all points", "why_tests_cant": "A test compares a few distributions to simulations; that the chosen limits are right for every position of a curve in a rectangle, with infinite sides, and that no rectangle is missed, is a statement about all of them.", "anchors": ["pacal/depvars/models.py: TwoVarsModel lines 451-711"]}
{"id": "C67", "title": "The joint distribution of two order statistics", "statement": "IJthOrderStatsNDDistr accepts exactly 1 <= i < j <= n. Its density is the mixed derivative of the probability that at least i of n observations are at most x and at least j are at most y, is zero for x >= y and not negative, its marginals are the densities of the i-th and the j-th order statistic, and its mass is one.", "quantifier": "all sample sizes and ranks, all distribution functions with a continuous density, all points", "why_tests_cant": "Tests can integrate numerically for one distribution and a few ranks; the statement for every n, i and j is an induction over the sample and a Beta integral.", "anchors": ["pacal/depvars/nddistr.py: IJthOrderStatsNDDistr lines 805-830", "pacal/utils.py: multinomial_coeff lines 539-548"]}
{"id": "C68", "title": "Conditional densities of a joint density", "statement": "ConditionalDistr is the joint density divided by its integral over the variables that are not conditions; it integrates to one over them; eliminating some of them integrates it, eliminating all gives one, eliminating a condition raises; fixing all conditions gives the conditional density at these values, and fixing any variables of a joint density divides by the remaining mass. Listing the conditions in another order than the joint density, fixing only some of the conditions, or fixing a free variable gives wrong densities or errors.", "quantifier": "all joint densities of any number of variables, all lists of condition variables and of eliminated or fixed variables, all homogeneous integration rules", "why_tests_cant": "The only uses in the repository have two variables and one condition, where the order of arguments and the stale marginal density cannot show; the statement ranges over every dimension and every choice of variables.", "anchors": ["pacal/depvars/nddistr.py: ConditionalDistr lines 635-659", "pacal/depvars/nddistr.py: NDDistr.condition lines 286-309"]}
{"id": "C69", "title": "Every singularity of a named density is declared", "statement": "For every named distribution and all its parameters, the density is bounded on each piece away from the ends that the piece declares singular, so that quadrature and interpolation meet an unbounded function only where they were told to expect it; for the beta distribution this holds exactly when the pole detection tolerance is not positive. Gamma, F and Weibull densities are cut at their mode: they are strictly monotone on every piece.", "quantifier": "all eighteen named distributions, all parameters for which they are defined, all points", "why_tests_cant": "A test evaluates a density at finitely many points and cannot tell an unbounded function from a large one, nor find the parameter values where a flag is missing.", "anchors": ["pacal/standard_distr.py: init_piecewise_pdf of lines 141-861", "pacal/segments.py: PiecewiseFunction.__init__ lines 998-1051", "pacal/params.py: pole_detection line 55"]}
{"id": "C70", "title": "The logarithm of the gamma function in gamma.py", "statement": "Between -34 and 13 the recurrences are exact: the error of lgamma at x is the error of the rational function at the fractional part of x, and it is zero at the integers 1 to 12. Below -34 the reflection formula adds only the error of the constant ln(pi). From 13 on the result follows Stirling's series with stated bounds. Non-positive integers and infinities give inf. polevl is polynomial evaluation.", "quantifier": "all real arguments, all coefficient lists, every function satisfying the functional equation and the reflection formula of the gamma function", "why_tests_cant": "A test compares finitely many arguments to tabulated values; that both loops terminate with the right product for every real argument, and that the error does not depend on the number of rounds, is an induction.", "anchors": ["pacal/gamma.py: polevl lines 5-12, lgamma lines 42-107", "pacal/utils.py: lines 524-528"]}
{"id": "C71", "title": "Median deviation, inter-quantile range, mode and range", "statement": "medianad is a median of the distance from the median: intervals around the median with a smaller half width have probability at most 1/2, with a larger one at least 1/2; on the way it builds a density of |X - m| of mass 1. iqrange is the width of an interval between two quantiles holding 1 - 2 level of the mass. mode returns a point where the density is highest, if every piece has one hump and there is no atom. range returns the least and the greatest end. With an atom the mode changes with the unit of measurement, and folding loses the marks of singular ends away from 0.", "quantifier": "all densities of mass one with ordered adjoining pieces of every kind, all levels, all exact root finders and minimisers", "why_tests_cant": "Tests compare the median deviation of a few symmetric distributions; whether shifting, cutting at zero, folding and inverting together give a median of |X - m| for every density with atoms and tails is a statement about all of them.", "anchors": ["pacal/segments.py: medianad lines 1952-1958, range 1969-1971, maximum 187-195, 520-535, 609-624, 1249-1258, absComposition 418-444", "pacal/distr.py: lines 188-190, 204-212, 239-241"]}
{"id": "C72", "title": "Exponents at singular points and at infinity", "statement": "For a function that is a pure power h^d next to a point, the estimated degree is d; a relative error delta of the function changes it by a stated amount. The tests for a singular end decide by d: without derivatives exactly for d < -1/100, with derivatives for all d away from 0, 1 and 2; a logarithm is recognised. A tail t^d has the reported exponent d, for a function as for a list of pieces. The powers t^3, t^4, ... are called singular, an unbounded power of a logarithm is not, and a tail that does not grow is never reported as inf, however light.", "quantifier": "all functions, points, sides, real exponents, scales and numbers of sample points", "why_tests_cant": "The estimate uses the last two points of a scale of the function; which functions it is right for, and which smooth or unbounded ones it mistakes, is a statement about all functions, while tests try a few densities.", "anchors": ["pacal/utils.py: estimateDegreeOfPole, estimateAtInfExponent, testPole lines 233-310, estimateTailExponent 468-494", "pacal/segments.py: tailexp lines 579-580, 668-669, 1988-2000", "pacal/params.py: lines 55, 62"]}
{"id": "C73", "title": "Sampling by inversion and the complementary distribution function", "statement": "If U is uniform on [0,1], then the probability that rand_invcdf returns a number <= x is the distribution function at x, provided no break value of the distribution function lies within 1/10000 below one; the inverse has the computed quantiles on [0,1]. If one does (at the left end of a piece, or at 0), all levels above some top < 1 give 0. A density cut into pieces of mass at most 1/10000 each has no inverse at all. The complementary distribution function, and its variant for the right tail, are one minus the distribution function.", "quantifier": "all densities of mass one with ordered adjoining pieces of every kind, all levels, all exact root finders", "why_tests_cant": "A test draws samples and compares a histogram: losing the top 1/10000 of the levels is invisible there, and which distributions lose it depends on all break values.", "anchors": ["pacal/segments.py: invfun lines 1844-1889", "pacal/distr.py: lines 99-104, 120-126, 132-150, 299-306"]}
{"id": "C74", "title": "Measures of dependence", "statement": "Spearman's rho and Kendall's tau of a copula lie in [-1,1]; rho is -1, 0 and 1 for the lower bound, independence and the upper bound, and rho and Blomqvist's beta respect the order of copulas. tau computed through smooth marginals is that of the copula. Independent variables have covariance and correlation 0. tau from the generator is theta/(theta+2) for Clayton and 1-1/theta for Gumbel. The second marginal is always variable 1: corrcoef(0,0) is a ratio of two standard deviations, and cov(0,2) is 0 whenever the third density vanishes on the range of the second. The covariance of a joint density has 1 on the diagonal and E(XY) beside it.", "quantifier": "all copulas of two variables, all smooth marginals, all parameters theta", "why_tests_cant": "Tests evaluate a few families at a few parameters with quadrature error; bounds, order and independence of the marginals concern all copulas, and the wrong marginal is invisible when the marginals are equal.", "anchors": ["pacal/depvars/copulas.py: cov, corrcoef, tau, beta, rho_s, ctau lines 195-290, tau_c 438-439", "pacal/depvars/nddistr.py: lines 347-369", "pacal/integration.py: integrate_iter lines 325-335"]}
{"id": "C75", "title": "Conditional distributions of copulas", "statement": "The conditional copula of one variable given the other rises from 0 to 1 and stays between. For an Archimedean copula of any number of variables the successive derivatives are the derivative of the inverse generator of that order times the derivatives of the generator. Integrating conditionCDF against the density of the given variable returns joint probabilities, and condition is the density of conditionCDF. With two given variables the result is not normalised: its top value is the density of the copula of the two. Probabilities are compared with the ranges of the marginals first, so that conditionCDF is 0 when the ranges lie outside [0,1]. Conditions are taken in the order of the variables, whatever order they were named in.", "quantifier": "all copulas, generators, numbers of variables, sets of conditions, marginals and arguments", "why_tests_cant": "Tests would check a family at a few points with standard normal or uniform marginals, where the comparison with the ranges passes; normalisation and the law of two-stage samples concern all arguments at once.", "anchors": ["pacal/depvars/copulas.py: lines 488-492, eliminate, ccond, condition, conditionCDF, condfun 494-577, rand2d_invcdf 589-599", "pacal/depvars/nddistr.py: NDFun lines 46-92, prepare_var 106-113"]}
{"id": "C76", "title": "Logarithms with cut-offs and the generator of the Frank copula", "statement": "logexp_p1, logexp_m1 (with a = 1) and log_1m_exp, which replace very large and very small exponentials by simpler terms, differ from log(|a| exp(x) + 1), -log|exp(-x) - 1| and log|1 - |a| exp(x)| by at most 2*10^-16. The generator of FrankCopula2d is the Frank generator up to 4*10^-16 for every parameter of either sign, and its inverse on arrays is the inverse up to 2*10^-16/|theta|; on a single number the inverse raises. With another a the functions are not what their descriptions say.", "quantifier": "all arguments x, a, t, s and parameters theta other than 0", "why_tests_cant": "The cut-offs are meant for arguments where a floating point comparison with the formula itself fails, so a test has nothing to compare with.", "anchors": ["pacal/depvars/copulas.py: lines 682-700, 720-752"]}
