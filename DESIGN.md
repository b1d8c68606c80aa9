# Formal model of PaCal (jszymon/pacal) in Rocq/Coq 8.16.1

Build: `cd rocq && coq_makefile -f _CoqProject -o Makefile && make -j4`.

## 1. Trusted base

* Coq's kernel (8.16.1), with no check switched off.
* The axioms that `Print Assumptions` lists under each theorem in the files `Prop*.v`. All belong to Coq's standard
  library; this development adds none. They are
  * `ClassicalDedekindReals.sig_forall_dec`, `ClassicalDedekindReals.sig_not_dec` (the standard library's real numbers),
  * `FunctionalExtensionality.functional_extensionality_dep`,
  * `Classical_Prop.classic` (excluded middle),
  * `ClassicalEpsilon.constructive_indefinite_description` (only for real matrices, to make `R` a field of MathComp).
  Section 6 says which theorem uses which.
* That the definitions in the model files describe the Python code, with the simplifications of section 2. Every
  definition cites the file and the lines it models.
* Libraries used: the standard library, Coquelicot (integrals, derivatives, extended reals), MathComp (determinants and
  inverses of matrices, in `RField.v`, `RMx.v`, `RMxFacts.v` only). MathComp and the standard library seal some definitions in
  modules (`Imset.imset`, `RbaseSymbolsImpl.Rplus`, ...); tools that look at compiled files may count these sealed definitions
  as assumptions, but they have bodies and `Print Assumptions` and `coqchk` do not list them.

Nothing in this repository was obtained by running the Python code.

## 2. How the code is modelled

* **Numbers.** Floats are real numbers `R`; `+inf` and `-inf` as ends of intervals are Coquelicot's `Rbar`. Rounding,
  overflow and (except for copulas, where it is a value) NaN are out of scope. Every comparison in the code is a `bool`
  (`rlt`, `rle`, `req`, `blt`, `ble`, `beq` in `Base.v`), so all branches of the code are kept.
* **Quadrature** is ideal: an integration call returns the exact (improper) Riemann integral, `Q` in `Integral.v`. The
  code's splitting of the range, its choice of endpoints and its variable transformations are modelled. No theorem
  bounds a discretisation error.
* **Interpolation** of computed densities is ideal where a density is assembled (`toInterpolatedSegment` is the identity);
  the interpolation code itself (nodes, barycentric formula, adaptive refinement, sparse grids) is modelled separately.
* **Root finding** by scipy's `brentq` is an argument; `bisect` and the bracketing searches of `utils.py` are modelled.
* **Random numbers** are an arbitrary list of draws, or an arbitrary function.
* **sympy** (simplify, solve, differentiate) enters as arguments with stated requirements.
* **numpy arrays** are lists; vectorised code is modelled per element, except where scalar and array code differ in the
  source: then both are modelled.
* **Tolerances** (`unique_eps`, relative tolerance of break points) are parameters, not fixed numbers. Hypotheses such as
  `dirac_sep`, `cross_sep`, `prods_sep`, `marks_sep` say that different points are further apart than the tolerance;
  without them the code merges points by design.
* **Exceptions** are values: `res A := Ok a | Err e` with one constructor of `e` per Python exception.
* **Objects with identity** (caches, ids, parents) are explicit maps.

Files: `X.v` model (definitions only), `XSpec.v` specification vocabulary that does not use the model's helpers,
`XFacts*.v` proofs, `XMain.v` main lemmas, `PropX.v` the property theorems, each closed by `exact` and followed by
`Print Assumptions`, `ExX.v` concrete cases that meet the hypotheses of the theorems and show their conclusions.

## 3. What is modelled

| model file | code |
|---|---|
| `Bisect.v`, `Seg.v`, `Piecewise.v` | segments.py: classes of pieces (ends, evaluation, comparison, arithmetic with numbers), `addSegment` and the insertion of atoms, `findSegment`, scalar and array `__call__`, `getBreaks`, `splitByPoints`, `restrictToInterval`, arithmetic of two functions and with numbers, `op_diracs` |
| `Integral.v`, `SegInt.v` | segments.py: `integrate`, `cumint`, `ccumint` of every class of piece and of the whole function |
| `Transform.v` | segments.py: `shiftAndScale`, `probComposition`, `squareComposition`, `absComposition`, reciprocal |
| `Quant.v` | segments.py: `getSegVals`, `inverse_scalar`; distr.py: `quantile`, `median`, `interval` |
| `Func.v` | distr.py: exp, log, atan, tanh, sigmoid, tan, powers, sin, cos of a variable; segments.py: `copyCompositionNoninjective`, `isNonneg` |
| `Indep.v` | indeparith.py: `convdiracs`, atoms of min, max, product; `_findSegList`, `_findSegListDiv`; `conv_at_point`, `convmin_at_point`, `convmax_at_point`, `convprod_at_point`, `convdiv_at_point`, `convdiv2_at_point` |
| `IndepAsm.v`, `ProdAsm.v`, `DivAsm.v` | indeparith.py: whole functions `conv`, `convmin`, `convmax`, `convprod`, `convdiv` |
| `Wide.v` | integration.py: `integrate_wide_interval`; utils.py: `epsunique`; indeparith.py: `_unique_breakpoints` |
| `Vt.v` | vartransforms.py: all transforms; integration.py: integrals over infinite ranges and at poles built on them |
| `Quad.v` | integration.py: `clenshaw_coefficients`, `fejer2_coefficients`, `integrate_fejer2`, `integrate_clenshaw`. The other models use an ideal integral in their place. |
| `ChebT.v` | utils.py: `chebt2`, `ichebt2`, `cheb1companion`; interpolation.py: `diff`, `roots`, `trim` of interpolators |
| `Conv.v` | utils.py: `convergence_monitor` |
| `Root.v` | utils.py: `bisect`, `findinv`, `findinv_minf`, `findinv_pinf`, ... bracketing |
| `Interp.v` | utils.py: Chebyshev nodes and weights; interpolation.py, bary_interp.pyx: barycentric interpolation, adaptive refinement |
| `Grid.v` | bary_interp.pyx: dense grids; sparse_grids.py: partitions, index sets, combination formula, exactness |
| `Discr.v` | distr.py: `DiscreteDistr`, `SignDistr`, `ConstDistr`, `ccdf_value` |
| `Cond.v` | distr.py: `CondGtDistr`, `CondLtDistr`, `CondBetweenDistr` and the operator `|` |
| `Mix.v` | standard_distr.py: `MixDistr` |
| `Comb.v`, `Iid.v` | utils.py: binomial and multinomial coefficients; standard_distr.py: binomial recurrence and other discrete laws; stats/iid_ops.py: sums, products, averages, order statistics |
| `Mom.v` | segments.py: `PiecewiseDistribution.mean`, `meanf`, `var`, `std`, `range`; distr.py: `moment`, `skewness`, `kurtosis` |
| `Info.v` | segments.py: `_function__`, `_log`, `_log1`, `entropy`, `L2_distance`, `KL_distance` |
| `Std.v` | segments.py: `PiecewiseFunction.__init__`; standard_distr.py: constructors, densities, ranges and inverse-transform samplers of the continuous standard distributions |
| `RV.v` | rv.py, class part of distr.py: operators, dependence check, ancestors, ranges, sampling with caches, construction of models |
| `ND.v` | depvars/nddistr.py: `NDFun`, `NDInterpolatedDistr.eliminate`, `NDProductDistr` (products, elimination, conditioning) |
| `RMx.v`, `NDNorm.v` | depvars/nddistr.py: `NDNormalDistr` (constructor, density, `eliminate`, `condition`) |
| `TwoVars.v` | depvars/models.py: `TwoVarsModel` (`getUL`, `convmodel`, `convmodelx`, `_findSegList`; sympy's answers are arguments) |
| `CondND.v` | depvars/nddistr.py: `ConditionalDistr`, `NDDistr.condition` |
| `OrdJoint.v` | depvars/nddistr.py: `IJthOrderStatsNDDistr` (constructor check, `pdf`) |
| `Models.v` | depvars/models.py: `Model`, exchange of variables, elimination, inference; nddistr.py: variable substitution |
| `Copula.v` | depvars/copulas.py: Pi, M, W, Gumbel, Clayton, Frank copulas, generators, densities, joint densities, dual cdf |

## 4. What is not modelled

Plotting and printing; floating point error; the fast Fourier transform (its result is the defining sum);
parallel maps; the Cython build; `bindings/`; demos and tests; `MollifierDistr`; samplers that call numpy;
how far the Stirling polynomial is from the logarithm of Gamma above 13 (an argument of C70, which proves everything else about lgamma), and the identity between Beta and Gamma (both are hypotheses of C57);
Kendall's tau and dependence plots of copulas; `RegressionDistr`; Latin hypercube and histogram helpers.

`safe_a` and `safe_b` of pieces with a pole (segments.py) are modelled as the exact ends: `conv_at_point` also uses them as
limits of integration, where they differ from the ends by one unit in the last place.

## 5. Behaviour of the code found while modelling

Each item is either a theorem (named) or was seen while reading (marked "read").

Pieces and their integrals
* `ConstSegment.integrate` outside the piece is negative: uniform(0,1) over (5,6) gives -4 (`integrate_const_negative_refuted`).
* The distribution function of constant pieces with a gap decreases (`cdf_gap_refuted`); a function of two or more atoms only loses steps (`cdf_atoms_only_refuted`).
* Scalar and array evaluation differ in a gap and at an atom (`scalar_vector_gap_refuted`, `scalar_vector_atom_refuted`); `splitByPoints` needs sorted points (`split_unsorted_refuted`).
* `f - r` for a number r computes r - f (`sub_number_refuted`); subtracting functions adds the atoms of the second (`sub_atom_sign_refuted`).
* `inverse_scalar` of a distribution function with a gap returns a wrong break (`quantile_gap_refuted`).

Functions of a variable
* `probComposition` with an infinite end of the image of the other sign, e.g. log on [0,2], is wrong (`composition_infinite_end_refuted`); decreasing functions mark the pole at the wrong end (`composition_pole_side_refuted`); 1/X loses atoms (`inverse_atoms_refuted`).
* sin(X): the inverse of the second branch is not an inverse, probabilities become negative (`sin_law_refuted`); sin and cos only look at one period, mass elsewhere disappears (`cos_support_refuted`). `is_nonneg` of SinDistr and CosDistr answers True (read).
* `sigmoid(x)` for a plain number raises NameError; LogRV on a plain RV raises AttributeError (read).

Arithmetic of independent variables
* `conv` of densities with a gap between pieces loses mass (`conv_gap_refuted`).
* `convdiv` with an atom in the denominator uses f(b) in place of f(xb) (`quot_atom_refuted`).
* `convdiv` loses the atom of the numerator at zero: X/Y with P(X = 0) = 1/2 has total mass 1/2 (`quot_zero_atom_refuted`). An atom 0 in a discrete denominator ends in a missing `operator.div` (read). `_split_for_prod_and_div` inserts -1.0 where 1.0 is meant, harmless (read).
* The product of a continuous variable and the constant 0 raises IndexError (`prod_zero_raises`). At exactly x = 0 the density of a product has the mass of the atom added (read).
* `epsunique` compares neighbours only, so a chain of close points collapses to its first (`epsunique_chain_refuted`).
* X | X < U with an atom of X above U, and X | L < X < U with an atom below L, remove the wrong atom; the result is not the conditional law (`cond_lt_atom_refuted`, `cond_between_atom_refuted`). The source has a comment that atoms of height 0 remain.

Discrete laws, mixtures, iid operations
* A repeated value in `DiscreteDistr` raises AssertionError (`discrete_repeated_refuted`); the clamp `i > len` in its sampler never acts (read).
* `MixDistr.rand_raw` ignores the weights (`mix_sample_refuted`).
* `binomial_coeff` outside 0..n gives 1 (`binomial_coeff_outside_refuted`); `BinomialDistr` with p = 1 divides by zero (read).
* `iid_op` leaves the warning flag off when the operation raises (`iid_flag_refuted`); `iid_average_geom(all=True)` uses 1/n for every entry (`iid_average_geom_all_refuted`).

Numerics
* `findinv_pinf(increasing=False)` searches away from the crossing (`pinf_decreasing_refuted`); `bisect` with maxiter=0 uses an unbound variable (`bisect_no_iterations`).
* Adaptive interpolation with a maximum below the first number of nodes leaves its error estimate unbound (`adaptive_small_bound`); the nodes of `cheb_nodes_log` are not increasing (`cheb_log_order_refuted`); `copyReverse` drops two nodes (read); integrals at a pole skip a sliver of relative width eps; `VarTransformReciprocal_PMInf` ignores its exponent (read).
* `integrate_clenshaw` calls its own boolean parameter `debug_plot` when the node limit is reached: TypeError (`clenshaw_limit_refuted`). `integrate_fejer2` with a limit below 129 nodes raises IndexError (`fejer2_small_bound`).
* `chebt2` doubles the leading coefficient (`transform_coefficients`). Hence `diff` of an interpolator is wrong when the leading coefficient is not zero and there are at least four nodes (`diff_top_refuted`), `roots` returns zeros of another polynomial (`roots_value`, `roots_refuted`) or raises when the leading coefficient vanishes (`roots_low_degree`). `trim` compares without absolute value and `ichebt2` halves what becomes the leading coefficient: lines lose half their slope, constants become zero or raise (`trim_refuted`). `diff` on two nodes returns zero (read).
* `c_dense_grid_interp` allocates its table of pointers with the number of points in place of the number of axes (`dense_overflow_refuted`).

Random-variable objects
* Operators always create objects marked independent, so X - X is sampled as the difference of two draws unless the flag is set by hand (`minus_self_refuted`); sign(X) and conditional variables are sampled independently of X (read).
* Ranges: differences, quotients, shifts and functions of variables report wrong ranges (`sub_range_refuted`, `div_range_refuted`, `shift_range_refuted`, `function_range_refuted`).
* `0**X` is 0 even at X = 0; `getParentsAll` omits free ancestors; AbsRV misspells `getSymname`; `setSym` after building children leaves stale names (read).

Dependent variables
* NDFun called with scalars uses `or` where `and` is meant (`nd_scalar_array_refuted`); `eliminate` with variables out of order removes a wrong one (`eliminate_order_refuted`); conditioning on two variables of one factor raises (`condition_two_refuted`); conditioning where the density is zero is left unnormalised (read).
* `Model.are_free` checks only the first variable (`are_free_refuted`); inference for a variable that is not in the model never ends (`inference_unknown_refuted`); a free variable given to Model appears twice (`model_free_given_refuted`); conditions on a wanted variable are ignored (read).
* Copulas: M at a single point returns its last argument (`m_scalar_refuted`); W subtracts 1 in any dimension (`w_dimension_refuted`); Clayton with negative parameter is not cut off at 0 (`clayton_negative_refuted`); `dualcdf` passes raw arguments (`dual_cdf_refuted`); `Copula` with default marginals raises TypeError, `cov` and `tau` always use the second marginal, FrankCopula2d has wrong margins for three arguments (read).
* `NDNormalDistr`: `condition` indexes with two lists, which pairs them, so that it fails for three or more variables (`nd_cond_more_refuted`); the variables made by default have the variance as standard deviation (`nd_default_refuted`); the function object is zero beyond five units from the mean (`nd_box_refuted`, marked FIX THIS in the source).
* `cov` of a variable with itself is 1 (read).
* `ConditionalDistr` calls the marginal density with the conditions in the order they were given, while the marginal has them in the order of the joint density: conditions (y, x) exchange its arguments (`cond_order_refuted`). `ConditionalDistr.condition` passes the old marginal on: fixing some of several conditions gives an object that raises on every call (`cond_part_refuted`), fixing a free variable gives a function that is not a density (`cond_free_refuted`).
* `TwoVarsModel.convmodelx` adds the integral of the previous pair of pieces again when a piece is an atom (`two_vars_atom_refuted`), or stops with an unset variable when the atom comes first (`two_vars_atom_first_refuted`). Products with a piece ending at 0 always fail in `getUL` (`two_vars_product_zero`). A corner value that is nan becomes the break point 0 (read).

Standard distributions
* `PiecewiseFunction.__init__` tests `rpoles[i]` where `lpoles[i]` is meant (segments.py:1024, 1036, 1048): two consecutive right poles, a valid layout, raise AssertionError (`make_double_rpole_refuted`), and a piece with both poles silently loses its left one (`make_both_poles_refuted`). Break points [a, inf] make a finite piece ending at inf; pole flags at the finite end of a half-line piece are ignored (read).
* `GumbelDistr.range` and `FrechetDistr.range` return (0, inf) (`gumbel_range_refuted`, `frechet_range_refuted`).
* Weibull with k = 1 has value 1 at 0 where the density is 1/lambda (`weibull_at_0_refuted`); ChiSquare with 1 < df < 2 has value 0 at 0 where the density is infinite (`chisquare_at_0_refuted`); ChiSquare with df < 1 never sets its density (`chisquare_small_refuted`).
* A negative exponential rate is accepted and gives a negative density (`exponential_negative_refuted`); Cauchy and F check no parameter, Uniform accepts a > b (read).
* Semicircle called with a number outside its support fails (`semicircle_scalar_refuted`); arrays partly outside the support fail for Semicircle and LogLogistic (`array_pdf_mixed_refuted`); the sampler of LogLogistic uses attributes that do not exist, and its error messages undefined names (read); `zeros_like` of an integer array truncates densities (read).

Summaries
* `maximum`, and with it `mode`, compares the mass of an atom with values of the density, so the mode of a mixed distribution depends on the unit (`mode_scaling_refuted`).
* `absComposition` and `squareComposition` build an unmarked piece from a piece with a singular end away from 0 (`fold_pole_refuted`).
* `maximum` of a piece with a right pole adds 1e-14 to the values where the end of the interval is meant (segments.py:189, read). `meanad` returns None (read). `PiecewiseDistribution.mode` starts from 0 (read).

Information measures
* `KL_distance` takes g to be 1 where g has no piece, because `_operation__` calls the operation with 0 in place of the logarithm: the distance from U(0,2) to U(0,1) is ln(1/2), negative, where the true value is infinite (`kl_support_refuted`); with an explicit zero piece the same distribution gives half the largest float (`kl_zero_piece_refuted`). An atom present in g only is copied by `op_diracs`, so log of its mass is added: from a point mass to a fair coin the result is 0 where ln 2 is right (`kl_atoms_refuted`).

Exponents
* `testPole` with derivatives (the default) calls t^3 and every higher power singular at 0, because the last condition is `deg > 2` (`smooth_pole_refuted`); it misses (-ln h)^(1/10), which is unbounded (`slow_pole_refuted`).
* `estimateTailExponent` returns inf only for an exponent above 50, that is for functions that grow: a light tail gets a large negative number and never inf (`tail_never_inf`, `tail_light_refuted`).
* `deriv` of the three estimates is not used (read). `ChebyshevInterpolatorNoR2` estimates the exponent at a where b is meant (interpolation.py:492, read).

Sampling by inversion
* `invfun` drops break values closer than 0.0001 to the previous one, also the last one: a distribution with F(0) or F at a break point in [0.9999, 1) gets 0 as the sample for every level above the last one kept (`invcdf_lost`; for example a normal distribution centred four deviations below 0, or one shifted so that 0 is far in its right tail). With many pieces of mass at most 0.0001 only the value 0 is kept and the constructor's assertion fails (`invcdf_fine`).
* `breakvals[0] = vals[0][0]` and `breakvals[-1] = vals[-1][1]` have no effect (read).

Measures of dependence
* `cov`, `corrcoef` and `tau` take `self.marginals[1]` where `dij.marginals[1]` is meant: the diagonal of `corrcoef` is a ratio of two standard deviations (`corrcoef_diag_refuted`), and covariances with the third variable are integrated over the range of the second (`cov_third_lost`).
* `NDDistr.cov` uses 0 for the means and 1 for the diagonal (`nd_cov_refuted`).
* The singular copulas M and W have cpdf 0, so their tau is -1; M.ccdf fails for an array with a number, so rho_s of M raises; `tau()` without arguments calls `ctau`; `beta` ignores its arguments; `eliminate` of other than Archimedean copulas has no marginals, so that `cov(i,i)` fails (read).

Conditional copulas
* `ccond` returns an NDFun over the marginals, whose call compares its arguments, which are probabilities, with the ranges of the marginals: for marginals with ranges outside [0,1] `conditionCDF` is 0 everywhere (`cond_cdf_range_refuted`). Above the range of the free variable it is 0, not 1. With an array next to a number the comparison raises ValueError when the first one fails (read).
* With two or more given variables `conditionCDF` is not divided by their density (`cond_two_refuted`, 32/27 for a probability).
* The values of the conditions are taken in the order of the variables (`cond_var_order`): `condition([1, 0], x1, x0)` gives x1 to variable 0.
* `conditionCDF` tells NDFun the number of given variables where the number of free ones is meant (read).

Logarithms with cut-offs
* `logexp_m1(x, a)` adds log|a| to x where it has to be subtracted, `logexp_p1` ignores the sign of a (`stable_doc_refuted`); `log_1m_exp` is described with another sign and exponent than it computes. `FrankCopula2d` only uses the cases where this does not matter (`frank2d_generator`), but `fi_inv` of a single number raises TypeError.

## 6. Theorems and their axioms

F = `sig_forall_dec`, N = `sig_not_dec`, E = `functional_extensionality_dep`, C = `classic`, D = `constructive_indefinite_description`, - = none. Theorems whose name
ends in `_refuted` exhibit an input for which the code does not do what the property says.

| property | status | theorems (axioms) |
|---|---|---|
| C01 Segment ordering is a strict order | proved | `segment_order` (FE) |
| C02 Adding pieces keeps the function ordered and loses nothing | proved | `addSegment_sorted_complete` (FE) |
| C03 The order of adding pieces does not matter | proved | `addSegment_order_irrelevant` (FE) |
| C04 Adding atoms never loses or creates probability mass | proved | `addSegment_mass_conserved` (FE) |
| C05 An atom inside a continuous piece is moved to the left end of that piece | proved | `addSegment_atom_relocated` (FE) |
| C06 Scalar lookup finds the piece containing the point | proved | `scalar_lookup` (FE), `scalar_lookup_gap` (FE) |
| C07 Scalar and vector evaluation agree on gap-free functions | proved | `scalar_vector_agree` (FE), `scalar_vector_gap_refuted` (FE), `scalar_vector_atom_refuted` (FE) |
| C08 Reported breakpoints are exactly the piece ends | proved | `breaks_exact` (FE) |
| C09 Splitting does not change the function | proved | `split_same_function` (FE), `split_unsorted_refuted` (FE) |
| C10 Restriction keeps exactly the requested interval | proved | `restrict_exact` (FE) |
| C11 Pointwise arithmetic of piecewise functions is pointwise | proved | `operation_pointwise` (FE) |
| C12 f - r computes r - f, and f / r fails | proved | `number_operators` (FNEC), `sub_number_refuted` (FE) |
| C13 Atoms in sums of piecewise functions add up; in differences one-sided atoms keep the wrong sign | proved | `operation_atoms` (FE), `sub_atom_sign_refuted` (FE) |
| C14 Integrals are additive over adjacent intervals and non-negative for non-negative pieces | proved | `integrate_exact` (FNE), `integrate_additive` (FNE), `integrate_const` (FNE), `integrate_const_negative_refuted` (FNE), `pw_integrate_total` (FNE) |
| C15 Atoms are integrated over open intervals | proved | `integrate_atom` (FNE) |
| C16 The CDF is a distribution function | proved | `cdf_exact` (FNE), `cdf_distribution_function` (FNE), `cdf_gap_refuted` (FNE), `cdf_atoms_only_refuted` (FNE) |
| C17 Shift and scale transform probabilities correctly | proved | `shift_scale_piece` (FNE), `shift_scale_list` (FNE), `shift_scale_compose` (FE), `shift_scale_zero` (FE) |
| C18 Monotone transformations push probability forward | proved | `composition_piece` (FNE), `composition_list` (FNE), `composition_flat` (FNE), `log_list` (FNEC), `inverse_list` (FNEC), `composition_infinite_end_refuted` (FNEC), `composition_pole_side_refuted` (FNE), `inverse_atoms_refuted` (FNE) |
| C19 Square and absolute value | proved | `square_list` (FNEC), `abs_list` (FNE), `even_crossing` (FNE) |
| C20 Quantiles bracket the requested level | proved | `quantile_brackets` (FNE), `quantile_ends` (FNE), `quantile_outside` (FNE), `inverse_beyond` (FE), `quantile_round_trip` (FNE), `quantile_monotone` (FNE), `interval_mass` (FNE), `median_half` (FNE), `quantile_gap_refuted` (FNE) |
| C21 Arithmetic on independent discrete variables is exact | proved | `discrete_arith` (FE) |
| C22 Minimum and maximum of discrete variables are exact | proved | `min_atoms` (FNE), `max_atoms` (FNE), `extrema_discrete` (FNE) |
| C23 A zero factor collects the right mass in a product | proved | `product_zero` (FNE) |
| C24 The convolution integral covers every contribution exactly once | proved | `conv_point_exact` (FNE), `conv_exact` (FNE), `conv_gap_refuted` (FNE) |
| C25 Minimum and maximum densities | proved | `extr_point_exact` (FNE), `min_exact` (FNEC), `max_exact` (FNEC) |
| C26 The quotient with a discrete denominator uses the wrong argument | proved | `quot_atom_denominator` (FNE), `quot_atom_refuted` (FNE) |
| C27 Piece pairs for products and quotients are complete | proved | `prod_pairs_exact` (FE), `quot_pairs_exact` (FE), `prod_point_exact` (FNEC), `quot_point_exact` (FNE), `prod_exact` (FNEC), `prod_const` (FNEC), `prod_zero_raises` (FNE) |
| C28 Discrete distributions store what they were given | proved | `discrete_stored` (FE), `discrete_pdf` (FE), `discrete_density` (FNE), `discrete_repeated_refuted` (FE), `discrete_sampling` (FE), `ccdf_value_exact` (FNE), `sign_exact` (FNE) |
| C29 Conditioning renormalises | proved | `cond_gt_exact` (FNEC), `cond_lt_exact` (FNEC), `cond_between_exact` (FNEC), `cond_assert` (FNE), `cond_lt_atom` (FNEC), `cond_between_atom` (FNEC), `cond_lt_atom_refuted` (FNEC), `cond_between_atom_refuted` (FNEC) |
| C30 Operators with numbers simplify without changing the value | proved | `number_operators` (FNEC), `number_operators_fail` (FNEC), `variable_operators` (FNEC) |
| C31 Shared variables are sampled consistently | proved | `shared_cache` (FNEC), `own_cache` (FNEC), `sampling_succeeds` (FNEC), `independent_sample` (FNEC), `minus_self_draws` (FNEC), `minus_self_refuted` (FNEC) |
| C32 Dependence detection is exact | proved | `ancestors` (-), `dependence_warning` (-), `parents` (-) |
| C33 Reported ranges contain all values | proved | `ranges_contain` (FNEC), `sub_range_refuted` (FNEC), `shift_range_refuted` (FNEC), `function_range_refuted` (FNEC), `div_range_refuted` (FNEC) |
| C34 Variable transforms for infinite intervals are inverse bijections | proved | `vartransforms_exact` (FNEC), `vartransforms_finite` (FNEC), `vartransforms_ends` (FNEC), `vartransforms_integral` (FNEC), `pole_transform_integral` (FNEC) |
| C35 Function distributions use matching inverses and derivatives | proved | `exp_exact` (FNEC), `log_exact` (FNEC), `log_negative` (FNEC), `atan_exact` (FNEC), `tanh_exact` (FNEC), `sigmoid_exact` (FNEC), `tan_exact` (FNEC), `pow_exact` (FNEC), `pow_special` (FNEC), `rpow_exact` (FNEC), `rpow_other` (FNEC), `cos_exact` (FNEC), `cos_support_refuted` (FNEC), `sin_half_exact` (FNEC), `sin_second_inverse` (FNEC), `sin_law_refuted` (FNEC) |
| C36 Barycentric interpolation reproduces node values and is the interpolating polynomial | proved | `interp_exact` (FE), `interp_nodes` (FE), `cheb_weights_exact` (FNEC) |
| C37 Chebyshev node refinement is nested | proved | `cheb_nested` (FNE), `cheb1_nested` (FNE), `adaptive_exact` (FNEC), `adaptive_small_bound` (FNE), `cheb_log_order_refuted` (FNEC) |
| C38 The convergence monitor returns the best result seen | proved | `best_reported` (FE), `best_near_optimal` (FE), `monitor_stops` (FE), `monitor_result` (FE), `monitor_terminates` (FE) |
| C39 n-fold i.i.d. operations combine exactly n copies | proved | `iid_copies` (-), `iid_value` (-), `iid_zero` (-), `iid_all_copies` (-), `iid_all_value` (-), `iid_average_all_value` (-), `iid_flag_refuted` (-), `iid_average_geom_all_refuted` (FNEC) |
| C40 Binomial and multinomial coefficients are exact | proved | `binomial_coeff_counts` (FE), `binomial_coeff_integral` (FE), `multinomial_coeff_exact` (FE), `multinomial_coeff_assert` (FE), `binomial_coeff_outside_refuted` (FE) |
| C41 Binomial distribution probabilities | proved | `binomial_distr_law` (FE), `binomial_distr_one` (FE) |
| C42 Order statistics | proved | `order_stat_density` (FNE), `order_stat_total` (FNEC), `unknown_density` (FNE) |
| C43 Mixtures are sampled with the wrong weights | proved | `mix_exact` (FNE), `mix_total` (FNE), `mix_refused` (FE), `mix_sample_values` (F), `mix_sample_distinct` (-), `mix_sample_law` (FNE), `mix_uniform_agrees` (FNE), `mix_agreement` (FNE), `mix_sample_refuted` (FNE), `mix_range_least` (FE) |
| C44 Sparse grid index sets are complete and weights are consistent | proved | `index_sets` (-), `coefficients_sum` (FE), `sparse_nodes` (FNEC), `sparse_exact` (FNEC) |
| C45 Multi-dimensional interpolation visits every grid point once | proved | `dense_visits` (-), `dense_sum` (FE), `dense_overflow` (F), `dense_overflow_refuted` (F) |
| C46 Evaluating a multivariate density at one point disagrees with evaluating at many | proved | `nd_array_pointwise` (FE), `nd_scalar_array` (FNECD), `nd_scalar_array_refuted` (FE) |
| C47 Products of factors: elimination and constants | proved | `optimize_same` (FE), `eliminate_one` (FEC), `eliminate_many` (FEC), `eliminate_order_refuted` (FE), `condition_one` (FEC), `condition_two_refuted` (FE) |
| C48 Exchanging and eliminating variables keeps a model consistent | proved | `model_order` (FEC), `model_step` (FEC), `exchange_succeeds` (FEC), `elim_succeeds` (FEC), `model_solutions` (FEC), `model_projection` (FEC), `exchange_density` (FEC), `exchange_law` (FNEC), `inference_result` (FEC), `inference_unknown_refuted` (FE), `are_free_refuted` (-), `model_from_variables` (FNEC), `built_objects` (FNEC), `model_free_given_refuted` (FNEC) |
| C49 Copulas have uniform margins and lie between the Frechet bounds | proved | `frechet_bounds` (FE), `pi_copula` (FE), `m_copula` (FE), `m_scalar_refuted` (FE), `w_copula` (FE), `w_dimension_refuted` (FE), `gumbel_copula` (FNEC), `clayton_copula` (FNEC), `clayton_negative_refuted` (FNEC), `frank_copula` (FNEC), `generators_inverse` (FNEC), `copula_eliminate` (FNEC), `archim_density` (FNE), `gumbel2d_density` (FNEC), `frank2d_density` (FNEC), `joint_density` (FE), `joint_margins` (F), `dual_cdf_refuted` (FE) |
| C50 Bisection brackets a root | proved | `bisect_change` (FE), `bisect_root` (FNE), `bisect_raises` (FE), `bisect_converges` (FNE), `bisect_no_iterations` (FE), `minf_bracket` (FE), `minf_sound` (FE), `pinf_bracket` (FE), `pinf_sound` (FE), `findinv_minf_root` (FNE), `findinv_pinf_root` (FNE), `pinf_decreasing_refuted` (FE) |
| C51 Wide-interval partitions tile the interval | proved | `wide_tiles` (FNEC), `wide_ratio` (FNEC), `wide_integral` (FNEC) |
| C52 Near-duplicate removal | proved | `epsunique_separated` (FE), `epsunique_dropped` (FE), `epsunique_chain_refuted` (FE), `unique_breakpoints_exact` (FE) |
| C53 Adding functions adds probabilities | proved | `sum_probability` (FNE) |
| C54 Truncated discrete laws | proved | `poisson_distr_terminates` (FNE), `poisson_distr_law` (FNE), `trunc_distr_law` (FE) |
| C55 The quotient of independent variables is their law, end to end | proved | `quot_exact` (FNE), `quot_discrete_exact` (FNE), `quot_zero_atom_refuted` (FNE) |
| C56 Functions become pieces exactly where their poles are | proved | `make_pieces_exact` (FE), `make_double_rpole_refuted` (FE), `make_both_poles_refuted` (FE) |
| C57 Standard distributions have their textbook laws | proved | `normal_textbook` (FNEC), `uniform_textbook` (FNEC), `trapezoidal_textbook` (FNEC), `cauchy_textbook` (FNEC), `exponential_textbook` (FNEC), `pareto_textbook` (FNEC), `levy_textbook` (FNEC), `laplace_textbook` (FNEC), `semicircle_textbook` (FNEC), `weibull_textbook` (FNEC), `frechet_textbook` (FNEC), `loglogistic_textbook` (FNEC), `gumbel_textbook` (FNEC), `gamma_textbook` (FNEC), `chisquare_textbook` (FNEC), `chisquare_small_refuted` (FNEC), `beta_textbook` (FNEC), `fdist_textbook` (FNEC), `student_textbook` (FNEC), `parameters_checked` (FNEC), `exponential_negative_refuted` (FNE) |
| C58 Ranges, limiting values, relations and samplers of standard distributions | proved | `ranges_exact` (FNEC), `gumbel_range_refuted` (FNEC), `frechet_range_refuted` (FNEC), `exponential_is_gamma` (FNEC), `chisquare_is_gamma` (FNEC), `chisquare_at_0_refuted` (FNEC), `exponential_is_weibull` (FNEC), `weibull_at_0_refuted` (FNEC), `student_is_cauchy` (FNEC), `beta_is_uniform` (FNEC), `frechet_sampler` (FNEC), `levy_sampler` (FNEC), `semicircle_scalar_refuted` (FNE), `array_pdf_inside` (FNE), `array_pdf_mixed_refuted` (FNEC) |
| C59 Moments are those of the law | proved | `mean_exact` (FNE), `mean_same_law` (FNE), `moments_consistent` (FNE), `moments_defined` (FNE), `moments_affine` (FNEC), `mean_in_range` (FNE), `chebyshev` (FNE), `moments_discrete` (FNE), `mean_mixture` (FNE) |
| C60 Named distributions have their textbook mean and variance | proved | `uniform_mean_var` (FNEC), `normal_mean_var` (FNEC), `expo_mean_var` (FNEC), `gamma_mean_var` (FNEC), `chi_mean_var` (FNEC), `laplace_mean_var` (FNEC), `weibull_mean_var` (FNEC), `frechet_mean_var` (FNEC), `pareto_mean_var` (FNEC), `student_mean_var` (FNEC), `beta_mean_var` (FNEC), `fdist_mean_var` (FNEC), `loglog_mean_var` (FNEC), `semi_mean_var` (FNEC), `cauchy_levy_no_mean` (FNEC), `gamma_factorial` (FNEC) |
| C61 Quadrature weights are exact and the adaptive rule is reliable | proved | `clenshaw_exact` (FNEC), `fejer2_exact` (FNEC), `weights_positive` (FNE), `quadrature_converges` (FNEC), `fejer2_accuracy` (FNEC), `fejer2_polynomial` (FNEC), `fejer2_bounds` (FNE), `fejer2_is_a_rule` (FNE), `fejer2_small_bound` (FNE), `rules_need_three` (FNE), `clenshaw_limit_refuted` (FNEC) |
| C62 Chebyshev transforms are inverse and the derivative of an interpolator is the derivative | proved | `transform_round_trip` (FNE), `transform_coefficients` (FNE), `diff_exact` (FNEC), `diff_top_refuted` (FNEC), `diff_resampled` (FNEC) |
| C63 Roots and trimming of Chebyshev interpolators | proved | `companion_eigenvalues` (FE), `roots_value` (FNE), `roots_refuted` (FNE), `roots_low_degree` (FNE), `trim_keeps` (FNEC), `trim_refuted` (FNEC) |
| C64 The multivariate normal distribution has the right density, marginals and conditionals | proved | `nd_textbook` (FNECD), `nd_scalar_array` (FNECD), `nd_marginal` (FNECD), `nd_mass` (FNECD), `nd_marginal_one` (FNECD), `nd_elim_twice` (FNECD), `nd_diagonal` (FNECD), `nd_cond_two` (FNECD), `nd_cond_more_refuted` (FNECD), `nd_default_refuted` (FNE), `nd_box_refuted` (FNECD) |
| C65 Entropy, L2 and Kullback-Leibler distance | proved | `function_pointwise` (FE), `entropy_exact` (FNEC), `entropy_discrete_bounds` (FNEC), `entropy_interval_bound` (FNEC), `entropy_named` (FNEC), `l2_exact` (FNE), `l2_symmetric` (FNE), `kl_exact` (FNEC), `kl_gibbs` (FNEC), `kl_support_refuted` (FNEC), `kl_zero_piece_refuted` (FNEC), `kl_atoms_refuted` (FNEC) |
| C66 Functions of two dependent variables have the right density | proved | `limits_exact` (FNEC), `two_vars_exact` (FNEC), `two_vars_sum_exact` (FNEC), `two_vars_difference_exact` (FNEC), `two_vars_product_exact` (FNEC), `two_vars_sum_independent` (FNEC), `two_vars_product_independent` (FNEC), `two_vars_product_zero` (FNE), `two_vars_atom_refuted` (FNEC), `two_vars_atom_first_refuted` (FNE) |
| C67 The joint distribution of two order statistics | proved | `ij_defined` (FE), `ij_density` (FNEC), `ij_support` (FE), `ij_marginals` (FNEC), `ij_mass` (FNEC) |
| C68 Conditional densities of a joint density | proved | `cond_density` (FE), `cond_eliminate` (FE), `nd_condition_exact` (FE), `nd_condition_range` (FE), `cond_fix` (FE), `cond_part_refuted` (FE), `cond_free_refuted` (FE), `cond_order_refuted` (FE) |
| C69 Every singularity of a named density is declared | proved | `normal_poles` (FNEC), `uniform_poles` (FE), `trapezoidal_poles` (FE), `cauchy_poles` (FNE), `gamma_poles` (FNEC), `chisquare_poles` (FNEC), `student_poles` (FNEC), `fdist_poles` (FNEC), `exponential_poles` (FNEC), `pareto_poles` (FNEC), `levy_poles` (FNEC), `laplace_poles` (FNEC), `semicircle_poles` (FNE), `weibull_poles` (FNEC), `gumbel_poles` (FNEC), `frechet_poles` (FNEC), `loglogistic_poles` (FNEC), `beta_poles` (FNEC), `gamma_monotone` (FNEC), `fdist_monotone` (FNEC), `weibull_monotone` (FNEC) |
| C70 The logarithm of the gamma function in gamma.py | proved | `polevl_exact` (FE), `lgamma_error` (FNEC), `lgamma_gamma` (FNEC), `lgamma_factorial` (FNEC), `lgamma_reflection` (FNEC), `lgamma_infinite` (FNEC), `lgamma_stirling` (FNEC) |
| C71 Median deviation, inter-quantile range, mode and range | proved | `medianad_dev` (FNE), `medianad_law` (FNE), `iqrange_width` (FNE), `mode_highest` (FE), `range_hull` (FE), `mode_scaling_refuted` (FNE), `fold_pole_refuted` (FNEC) |
| C72 Exponents at singular points and at infinity | proved | `degree_power` (FNEC), `degree_stable` (FNEC), `degree_zero` (FNEC), `test_pole_power` (FNEC), `log_pole` (FNEC), `tail_power` (FNEC), `tail_never_inf` (FNEC), `tailexp_power` (FNEC), `smooth_pole_refuted` (FNEC), `slow_pole_refuted` (FNEC), `tail_light_refuted` (FNEC) |
| C73 Sampling by inversion and the complementary distribution function | proved | `invcdf_values` (FNE), `invcdf_law` (FNE), `invcdf_lost` (FNE), `invcdf_fine` (FNE), `ccdf_exact` (FNE), `ccdf_value_exact` (FNE) |
| C74 Measures of dependence | proved | `rho_s_bounds` (FNEC), `rho_s_order` (FNE), `ctau_bounds` (FNEC), `tau_margins` (FNEC), `cov_independent` (FNE), `tau_c_values` (FNEC), `dependence_self` (FNE), `corrcoef_diag_refuted` (FNEC), `cov_third_lost` (FNE), `nd_cov_refuted` (FNEC) |
| C75 Conditional distributions of copulas | proved | `ccond_formula` (FNE), `ccond_cdf` (FNE), `cond_law` (FNE), `cond_density` (FE), `cond_density_second` (FNE), `cond_cdf_range_refuted` (FNE), `cond_two_refuted` (FNEC), `cond_var_order` (FNE), `condfun_agrees` (FNE) |
| C76 Logarithms with cut-offs and the generator of the Frank copula | proved | `logexp_p1_error` (FNEC), `logexp_m1_error` (FNEC), `log_1m_exp_error` (FNEC), `frank2d_generator` (FNEC), `stable_doc_refuted` (FNEC) |

## 7. Testing the theorems

`seeded/LOG.jsonl` records edits of the model that imitate realistic bugs, made in a scratch copy: which definition was
edited, how, which property it breaks, which theorems (or their proofs) then failed, and which theorems were tightened.
