{
 "claims": [
  {
   "property": "C01",
   "status": "proved",
   "theorems": [
    "segment_order"
   ],
   "note": "all pieces with finite or infinite ends"
  },
  {
   "property": "C02",
   "status": "proved",
   "theorems": [
    "addSegment_sorted_complete"
   ],
   "note": "addSegment with the real binary search of bisect; any order of additions"
  },
  {
   "property": "C03",
   "status": "proved",
   "theorems": [
    "addSegment_order_irrelevant"
   ],
   "note": ""
  },
  {
   "property": "C04",
   "status": "proved",
   "theorems": [
    "addSegment_mass_conserved"
   ],
   "note": "arbitrary starting function, any successful sequence of additions"
  },
  {
   "property": "C05",
   "status": "proved",
   "theorems": [
    "addSegment_atom_relocated"
   ],
   "note": "atom in a piece with left end -inf: the code builds an atom at -inf, the model reports this as a distinguished error value"
  },
  {
   "property": "C06",
   "status": "proved",
   "theorems": [
    "scalar_lookup",
    "scalar_lookup_gap"
   ],
   "note": ""
  },
  {
   "property": "C07",
   "status": "proved",
   "theorems": [
    "scalar_vector_agree",
    "scalar_vector_gap_refuted",
    "scalar_vector_atom_refuted"
   ],
   "note": ""
  },
  {
   "property": "C08",
   "status": "proved",
   "theorems": [
    "breaks_exact"
   ],
   "note": ""
  },
  {
   "property": "C09",
   "status": "proved",
   "theorems": [
    "split_same_function",
    "split_unsorted_refuted"
   ],
   "note": ""
  },
  {
   "property": "C10",
   "status": "proved",
   "theorems": [
    "restrict_exact"
   ],
   "note": ""
  },
  {
   "property": "C11",
   "status": "proved",
   "theorems": [
    "operation_pointwise"
   ],
   "note": "also with atoms present"
  },
  {
   "property": "C12",
   "status": "proved",
   "theorems": [
    "number_operators",
    "sub_number_refuted"
   ],
   "note": "division by zero inside r/f is not modelled (Coq total division); f-r is wrong at every point where f differs from r"
  },
  {
   "property": "C13",
   "status": "proved",
   "theorems": [
    "operation_atoms",
    "sub_atom_sign_refuted"
   ],
   "note": ""
  },
  {
   "property": "C14",
   "status": "proved",
   "theorems": [
    "integrate_exact",
    "integrate_additive",
    "integrate_const",
    "integrate_const_negative_refuted",
    "pw_integrate_total"
   ],
   "note": "quadrature is idealised as the exact improper Riemann integral; ConstSegment.integrate outside the piece is refuted"
  },
  {
   "property": "C15",
   "status": "proved",
   "theorems": [
    "integrate_atom"
   ],
   "note": ""
  },
  {
   "property": "C16",
   "status": "proved",
   "theorems": [
    "cdf_exact",
    "cdf_distribution_function",
    "cdf_gap_refuted",
    "cdf_atoms_only_refuted"
   ],
   "note": "exact quadrature; holds for densities whose pieces are contiguous with atoms at piece ends; gapped and atoms-only inputs are refuted"
  },
  {
   "property": "C17",
   "status": "proved",
   "theorems": [
    "shift_scale_piece",
    "shift_scale_list",
    "shift_scale_compose",
    "shift_scale_zero"
   ],
   "note": ""
  },
  {
   "property": "C18",
   "status": "proved",
   "theorems": [
    "composition_piece",
    "composition_list",
    "composition_flat",
    "log_list",
    "inverse_list",
    "composition_infinite_end_refuted",
    "composition_pole_side_refuted",
    "inverse_atoms_refuted"
   ],
   "note": "improper ends included under the sign condition the code relies on; without it, and for atoms under 1/x, refuted"
  },
  {
   "property": "C19",
   "status": "proved",
   "theorems": [
    "square_list",
    "abs_list",
    "even_crossing"
   ],
   "note": "proved for whole functions, not only for one-sided pieces"
  },
  {
   "property": "C53",
   "status": "proved",
   "theorems": [
    "sum_probability"
   ],
   "note": ""
  },
  {
   "property": "C39",
   "status": "proved",
   "theorems": [
    "iid_copies",
    "iid_value",
    "iid_zero",
    "iid_all_copies",
    "iid_all_value",
    "iid_average_all_value",
    "iid_flag_refuted",
    "iid_average_geom_all_refuted"
   ],
   "note": "the flag is not restored when the operation raises; geometric averages with all=True are wrong (both refuted)"
  },
  {
   "property": "C40",
   "status": "proved",
   "theorems": [
    "binomial_coeff_counts",
    "binomial_coeff_integral",
    "multinomial_coeff_exact",
    "multinomial_coeff_assert",
    "binomial_coeff_outside_refuted"
   ],
   "note": "outside 0..n the coefficient is 1, refuted"
  },
  {
   "property": "C41",
   "status": "proved",
   "theorems": [
    "binomial_distr_law",
    "binomial_distr_one"
   ],
   "note": "p = 1 raises ZeroDivisionError"
  },
  {
   "property": "C42",
   "status": "proved",
   "theorems": [
    "order_stat_density",
    "order_stat_total",
    "unknown_density"
   ],
   "note": ""
  },
  {
   "property": "C54",
   "status": "proved",
   "theorems": [
    "poisson_distr_terminates",
    "poisson_distr_law",
    "trunc_distr_law"
   ],
   "note": ""
  },
  {
   "property": "C38",
   "status": "proved",
   "theorems": [
    "best_reported",
    "best_near_optimal",
    "monitor_stops",
    "monitor_result",
    "monitor_terminates"
   ],
   "note": "errors are non-negative reals (abs of a difference in every caller)"
  },
  {
   "property": "C50",
   "status": "proved",
   "theorems": [
    "bisect_change",
    "bisect_root",
    "bisect_raises",
    "bisect_converges",
    "bisect_no_iterations",
    "minf_bracket",
    "minf_sound",
    "pinf_bracket",
    "pinf_sound",
    "findinv_minf_root",
    "findinv_pinf_root",
    "pinf_decreasing_refuted"
   ],
   "note": "brentq itself is scipy code and not modelled; the increasing=False branch of findinv_pinf is refuted"
  },
  {
   "property": "C51",
   "status": "proved",
   "theorems": [
    "wide_tiles",
    "wide_ratio",
    "wide_integral"
   ],
   "note": ""
  },
  {
   "property": "C52",
   "status": "proved",
   "theorems": [
    "epsunique_separated",
    "epsunique_dropped",
    "epsunique_chain_refuted",
    "unique_breakpoints_exact"
   ],
   "note": ""
  },
  {
   "property": "C21",
   "status": "proved",
   "theorems": [
    "discrete_arith"
   ],
   "note": "exact when distinct values are further apart than the merge tolerance; otherwise positions move by at most the tolerance and the total mass is still exact"
  },
  {
   "property": "C22",
   "status": "proved",
   "theorems": [
    "min_atoms",
    "max_atoms",
    "extrema_discrete"
   ],
   "note": ""
  },
  {
   "property": "C23",
   "status": "proved",
   "theorems": [
    "product_zero"
   ],
   "note": ""
  },
  {
   "property": "C24",
   "status": "proved",
   "theorems": [
    "conv_point_exact",
    "conv_exact",
    "conv_gap_refuted"
   ],
   "note": "Value at a point and the whole function conv for gap-free pieces (with atoms); quadrature and interpolation are exact in the model. conv_gap_refuted: with a gap between pieces mass is lost."
  },
  {
   "property": "C25",
   "status": "proved",
   "theorems": [
    "extr_point_exact",
    "min_exact",
    "max_exact"
   ],
   "note": "Value at a point and the whole of convmin/convmax, atoms, gaps, poles and infinite ends included; the value is the derivative of the distribution function of the minimum (maximum). Quadrature and interpolation are exact in the model."
  },
  {
   "property": "C26",
   "status": "proved",
   "theorems": [
    "quot_atom_denominator",
    "quot_atom_refuted"
   ],
   "note": "Exact: the code value is m f(c)|c|, the density is m f(xc)|c|, equal only if f(c)=f(xc) (or m=0); witness included."
  },
  {
   "property": "C27",
   "status": "proved",
   "theorems": [
    "prod_pairs_exact",
    "quot_pairs_exact",
    "prod_point_exact",
    "quot_point_exact",
    "prod_exact",
    "prod_const",
    "prod_zero_raises"
   ],
   "note": "The whole of convprod is proved (atoms, density, ends), with the case of a constant factor; a continuous variable times the constant zero raises IndexError (finding). Selection is exact (both directions) for pairs with at least one continuous piece, z <> 0, pieces on one side of zero for products. The value computed at a point from the selected pairs is the density of the product, resp. of the quotient when the denominator has no atoms."
  },
  {
   "property": "C34",
   "status": "proved",
   "theorems": [
    "vartransforms_exact",
    "vartransforms_finite",
    "vartransforms_ends",
    "vartransforms_integral",
    "pole_transform_integral"
   ],
   "note": "the finite quadrature rule itself is idealised as the exact integral; VarTransformIdentity is trivial and not modelled"
  },
  {
   "property": "C35",
   "status": "proved",
   "theorems": [
    "exp_exact",
    "log_exact",
    "log_negative",
    "atan_exact",
    "tanh_exact",
    "sigmoid_exact",
    "tan_exact",
    "pow_exact",
    "pow_special",
    "rpow_exact",
    "rpow_other",
    "cos_exact",
    "cos_support_refuted",
    "sin_half_exact",
    "sin_second_inverse",
    "sin_law_refuted"
   ],
   "note": "every one-to-one function and the first branch of sine hold as stated; sin(X) refuted on its second branch, and cos/sin lose all mass outside one period (both with witnesses). Real-number functions stand for the library calls."
  },
  {
   "property": "C36",
   "status": "proved",
   "theorems": [
    "interp_exact",
    "interp_nodes",
    "cheb_weights_exact"
   ],
   "note": "Lagrange loop, compiled and numpy barycentric evaluation all equal the unique interpolating polynomial; closed-form Chebyshev weights proved right for all four node families; real arithmetic"
  },
  {
   "property": "C37",
   "status": "proved",
   "theorems": [
    "cheb_nested",
    "cheb1_nested",
    "adaptive_exact",
    "adaptive_small_bound",
    "cheb_log_order_refuted"
   ],
   "note": "node nesting and the whole adaptive refinement loop; cheb_nodes_log is refuted as an increasing node list"
  },
  {
   "property": "C44",
   "status": "proved",
   "theorems": [
    "index_sets",
    "coefficients_sum",
    "sparse_nodes",
    "sparse_exact"
   ],
   "note": "index sets, coefficients, node bookkeeping and the whole adaptive loop; the interpolant equals the function at every node and reproduces all polynomials of the sparse space, in real arithmetic"
  },
  {
   "property": "C45",
   "status": "proved",
   "theorems": [
    "dense_visits",
    "dense_sum",
    "dense_overflow",
    "dense_overflow_refuted"
   ],
   "note": "grids with more axes than points overflow the pointer table of the compiled loop (refuted); with at least two points per axis this cannot happen"
  },
  {
   "property": "C46",
   "status": "proved",
   "theorems": [
    "nd_array_pointwise",
    "nd_scalar_array",
    "nd_scalar_array_refuted"
   ],
   "note": "exact characterisation of when scalar and array evaluation agree; they disagree on the unit square (refuted as agreement)"
  },
  {
   "property": "C47",
   "status": "proved",
   "theorems": [
    "optimize_same",
    "eliminate_one",
    "eliminate_many",
    "eliminate_order_refuted",
    "condition_one",
    "condition_two_refuted"
   ],
   "note": "integration is any homogeneous rule, interpolation of marginals idealised as exact; elimination of several variables given out of name order removes a wrong variable, and conditioning on two variables of one factor raises (both refuted)"
  },
  {
   "property": "C48",
   "status": "proved",
   "theorems": [
    "model_order",
    "model_step",
    "exchange_succeeds",
    "elim_succeeds",
    "model_solutions",
    "model_projection",
    "exchange_density",
    "exchange_law",
    "inference_result",
    "inference_unknown_refuted",
    "are_free_refuted",
    "model_from_variables",
    "built_objects",
    "model_free_given_refuted"
   ],
   "note": "sympy (simplification, solving, differentiation) enters as arguments with stated requirements; solutions are preserved where the solver is exact; the law is kept for monotone transforms; termination of inference is not claimed (refuted for an unknown variable)"
  },
  {
   "property": "C30",
   "status": "proved",
   "theorems": [
    "number_operators",
    "number_operators_fail",
    "variable_operators"
   ],
   "note": "values are real numbers; whether a density lives on the non-negative half line (needed for powers) is an argument"
  },
  {
   "property": "C31",
   "status": "proved",
   "theorems": [
    "shared_cache",
    "own_cache",
    "sampling_succeeds",
    "independent_sample",
    "minus_self_draws",
    "minus_self_refuted"
   ],
   "note": "random generators are an arbitrary sequence of draws; the operators always make objects treated as independent, so without changing that flag by hand X - X is sampled as the difference of two draws"
  },
  {
   "property": "C32",
   "status": "proved",
   "theorems": [
    "ancestors",
    "dependence_warning",
    "parents"
   ],
   "note": "the default recursion limit of Python is not modelled; getParentsAll leaves out the free ancestors"
  },
  {
   "property": "C33",
   "status": "proved",
   "theorems": [
    "ranges_contain",
    "sub_range_refuted",
    "shift_range_refuted",
    "function_range_refuted",
    "div_range_refuted"
   ],
   "note": "sums, products, shifts of variables that do not override range(), quotients by variables of one sign; the other cases are refuted"
  },
  {
   "property": "C28",
   "status": "proved",
   "theorems": [
    "discrete_stored",
    "discrete_pdf",
    "discrete_density",
    "discrete_repeated_refuted",
    "discrete_sampling",
    "ccdf_value_exact",
    "sign_exact"
   ],
   "note": "values further apart than unique_eps for the piecewise density; a repeated value makes init_piecewise_pdf fail; sampling is stated for one uniform number"
  },
  {
   "property": "C20",
   "status": "proved",
   "theorems": [
    "quantile_brackets",
    "quantile_ends",
    "quantile_outside",
    "inverse_beyond",
    "quantile_round_trip",
    "quantile_monotone",
    "interval_mass",
    "median_half",
    "quantile_gap_refuted"
   ],
   "note": "For densities whose pieces follow one another without gap, given a root finder without rounding. With a gap the returned break is wrong: quantile_gap_refuted."
  },
  {
   "property": "C49",
   "status": "proved",
   "theorems": [
    "frechet_bounds",
    "pi_copula",
    "m_copula",
    "m_scalar_refuted",
    "w_copula",
    "w_dimension_refuted",
    "gumbel_copula",
    "clayton_copula",
    "clayton_negative_refuted",
    "frank_copula",
    "generators_inverse",
    "copula_eliminate",
    "archim_density",
    "gumbel2d_density",
    "frank2d_density",
    "joint_density",
    "joint_margins",
    "dual_cdf_refuted"
   ],
   "note": "Gumbel with theta >= 1, Clayton with theta > 0, Frank with theta <> 0: grounded, uniform margins and monotone; 2-increasing for two arguments. Refuted for the code as written: M at a single point, W with three arguments, Clayton at theta = -1, dualcdf."
  },
  {
   "property": "C43",
   "status": "proved",
   "theorems": [
    "mix_exact",
    "mix_total",
    "mix_refused",
    "mix_sample_values",
    "mix_sample_distinct",
    "mix_sample_law",
    "mix_uniform_agrees",
    "mix_agreement",
    "mix_sample_refuted",
    "mix_range_least"
   ],
   "note": "Atoms of the components are equal or further apart than unique_eps. Sampling ignores the weights: it agrees with the density for equal weights, and mix_sample_refuted shows it does not in general."
  },
  {
   "property": "C29",
   "status": "proved",
   "theorems": [
    "cond_gt_exact",
    "cond_lt_exact",
    "cond_between_exact",
    "cond_assert",
    "cond_lt_atom",
    "cond_between_atom",
    "cond_lt_atom_refuted",
    "cond_between_atom_refuted"
   ],
   "note": "Break points, -1, 0, 1 and the thresholds are equal or further apart than the tolerance of the product; the case that only an atom at zero is left is not covered. With an atom above U (Lt), or below L (Between), the code is shown not to give the conditional law."
  },
  {
   "property": "C55",
   "status": "proved",
   "theorems": [
    "quot_exact",
    "quot_discrete_exact",
    "quot_zero_atom_refuted"
   ],
   "note": "density and discrete parts hold as stated (the value at the break points themselves, and at 0, 1, -1, is left open); the atom at zero of the numerator is lost (refuted with a witness). Atoms in the denominator against a continuous numerator are C26."
  },
  {
   "property": "C56",
   "status": "proved",
   "theorems": [
    "make_pieces_exact",
    "make_double_rpole_refuted",
    "make_both_poles_refuted"
   ],
   "note": "exact when no piece has two poles and no two consecutive right poles occur; the code tests the wrong list in its third case: consecutive right poles are refused and a second pole of a piece is dropped (both refuted)"
  },
  {
   "property": "C57",
   "status": "proved",
   "theorems": [
    "normal_textbook",
    "uniform_textbook",
    "trapezoidal_textbook",
    "cauchy_textbook",
    "exponential_textbook",
    "pareto_textbook",
    "levy_textbook",
    "laplace_textbook",
    "semicircle_textbook",
    "weibull_textbook",
    "frechet_textbook",
    "loglogistic_textbook",
    "gumbel_textbook",
    "gamma_textbook",
    "chisquare_textbook",
    "chisquare_small_refuted",
    "beta_textbook",
    "fdist_textbook",
    "student_textbook",
    "parameters_checked",
    "exponential_negative_refuted"
   ],
   "note": "lgamma is an argument whose exponential is assumed to be the Gamma integral (gamma, chi-square), and to give the Beta integral and the Student integral (beta, F, Student); Gumbel is cut at the largest exp argument M and has mass 1 - exp(-exp M); small chi-square degrees and negative exponential rates are refuted"
  },
  {
   "property": "C58",
   "status": "proved",
   "theorems": [
    "ranges_exact",
    "gumbel_range_refuted",
    "frechet_range_refuted",
    "exponential_is_gamma",
    "chisquare_is_gamma",
    "chisquare_at_0_refuted",
    "exponential_is_weibull",
    "weibull_at_0_refuted",
    "student_is_cauchy",
    "beta_is_uniform",
    "frechet_sampler",
    "levy_sampler",
    "semicircle_scalar_refuted",
    "array_pdf_inside",
    "array_pdf_mixed_refuted"
   ],
   "note": "ranges are exact except Gumbel and Frechet; densities agree between families except at 0; array calls of semicircle and log-logistic fail outside the support (refuted)"
  },
  {
   "property": "C59",
   "status": "proved",
   "theorems": [
    "mean_exact",
    "mean_same_law",
    "moments_consistent",
    "moments_defined",
    "moments_affine",
    "mean_in_range",
    "chebyshev",
    "moments_discrete",
    "mean_mixture"
   ],
   "note": "quadrature is ideal; its error estimates, which decide whether nan or inf is returned, are an arbitrary argument. Densities are continuous inside their pieces in mean_exact, mean_same_law and mean_mixture"
  },
  {
   "property": "C60",
   "status": "proved",
   "theorems": [
    "uniform_mean_var",
    "normal_mean_var",
    "expo_mean_var",
    "gamma_mean_var",
    "chi_mean_var",
    "laplace_mean_var",
    "weibull_mean_var",
    "frechet_mean_var",
    "pareto_mean_var",
    "student_mean_var",
    "beta_mean_var",
    "fdist_mean_var",
    "loglog_mean_var",
    "semi_mean_var",
    "cauchy_levy_no_mean",
    "gamma_factorial"
   ],
   "note": "Quadrature is ideal and its error estimates are an arbitrary argument. lgamma is an argument whose exponential is assumed to be the Gamma, Beta or Student integral. Weibull, Frechet and log-logistic moments are stated through the Gamma and Beta integrals. Trapezoidal and Gumbel moments are not treated."
  },
  {
   "property": "C61",
   "status": "proved",
   "theorems": [
    "clenshaw_exact",
    "fejer2_exact",
    "weights_positive",
    "quadrature_converges",
    "fejer2_accuracy",
    "fejer2_polynomial",
    "fejer2_bounds",
    "fejer2_is_a_rule",
    "fejer2_small_bound",
    "rules_need_three",
    "clenshaw_limit_refuted"
   ],
   "note": "Real arithmetic; the inverse Fourier transform is its defining sum; the caches of weights are left out. integrate_clenshaw raises at its node limit (refuted); fewer than 129 nodes raise in integrate_fejer2."
  },
  {
   "property": "C62",
   "status": "proved",
   "theorems": [
    "transform_round_trip",
    "transform_coefficients",
    "diff_exact",
    "diff_top_refuted",
    "diff_resampled"
   ],
   "note": "Real arithmetic; Fourier transforms are their defining sums. The derivative is wrong for degree n-1 on n >= 4 nodes (refuted); exact otherwise."
  },
  {
   "property": "C63",
   "status": "proved",
   "theorems": [
    "companion_eigenvalues",
    "roots_value",
    "roots_refuted",
    "roots_low_degree",
    "trim_keeps",
    "trim_refuted"
   ],
   "note": "Real eigenvalues only; eigvals is an argument assumed to list the eigenvalues. The companion matrix is right; roots and trim as coded are not (refuted)."
  },
  {
   "property": "C64",
   "status": "proved",
   "theorems": [
    "nd_textbook",
    "nd_scalar_array",
    "nd_marginal",
    "nd_mass",
    "nd_marginal_one",
    "nd_elim_twice",
    "nd_diagonal",
    "nd_cond_two",
    "nd_cond_more_refuted",
    "nd_default_refuted",
    "nd_box_refuted"
   ],
   "note": "Determinant and inverse are exact (real matrices from MathComp). A matrix with negative determinant is refused, where the code makes a density of nan. condition is modelled with the shapes of numpy matrices; it works for two variables only (refuted beyond)."
  },
  {
   "property": "C65",
   "status": "proved",
   "theorems": [
    "function_pointwise",
    "entropy_exact",
    "entropy_discrete_bounds",
    "entropy_interval_bound",
    "entropy_named",
    "l2_exact",
    "l2_symmetric",
    "kl_exact",
    "kl_gibbs",
    "kl_support_refuted",
    "kl_zero_piece_refuted",
    "kl_atoms_refuted"
   ],
   "note": "Ideal integrals; log of a number that is not positive is an arbitrary number on pieces, and an error for atoms. The Kullback-Leibler distance is exact when g dominates f and atoms coincide, and refuted otherwise."
  },
  {
   "property": "C66",
   "status": "proved",
   "theorems": [
    "limits_exact",
    "two_vars_exact",
    "two_vars_sum_exact",
    "two_vars_difference_exact",
    "two_vars_product_exact",
    "two_vars_sum_independent",
    "two_vars_product_independent",
    "two_vars_product_zero",
    "two_vars_atom_refuted",
    "two_vars_atom_first_refuted"
   ],
   "note": "Ideal integrals; the symbolic answers of sympy (curve, derivative, first solution for a cut) are arguments, given exactly for sum, difference and product. Marginals with atoms, and products with a piece ending at 0, are refuted."
  },
  {
   "property": "C67",
   "status": "proved",
   "theorems": [
    "ij_defined",
    "ij_density",
    "ij_support",
    "ij_marginals",
    "ij_mass"
   ],
   "note": "Real arithmetic; the distribution function and the density of one observation are arguments (the code interpolates them)."
  },
  {
   "property": "C68",
   "status": "proved",
   "theorems": [
    "cond_density",
    "cond_eliminate",
    "nd_condition_exact",
    "nd_condition_range",
    "cond_fix",
    "cond_part_refuted",
    "cond_free_refuted",
    "cond_order_refuted"
   ],
   "note": "Integration is any homogeneous rule (exact integrals and fixed quadrature rules are examples), exchange of integrals is a hypothesis where it is used; interpolation is exact. Three uses of the class are refuted."
  },
  {
   "property": "C69",
   "status": "proved",
   "theorems": [
    "normal_poles",
    "uniform_poles",
    "trapezoidal_poles",
    "cauchy_poles",
    "gamma_poles",
    "chisquare_poles",
    "student_poles",
    "fdist_poles",
    "exponential_poles",
    "pareto_poles",
    "levy_poles",
    "laplace_poles",
    "semicircle_poles",
    "weibull_poles",
    "gumbel_poles",
    "frechet_poles",
    "loglogistic_poles",
    "beta_poles",
    "gamma_monotone",
    "fdist_monotone",
    "weibull_monotone"
   ],
   "note": "Real arithmetic: overflow to inf near a singularity is not modelled. For the beta distribution the statement is an equivalence: it holds for all parameters exactly when the tolerance is not positive; the default is -0.01."
  },
  {
   "property": "C70",
   "status": "proved",
   "theorems": [
    "polevl_exact",
    "lgamma_error",
    "lgamma_gamma",
    "lgamma_factorial",
    "lgamma_reflection",
    "lgamma_infinite",
    "lgamma_stirling"
   ],
   "note": "Real arithmetic. How well the rational function and the two constants approximate ln Gamma, ln pi and ln(2 pi)/2 is not proved: the statements give the error in terms of these. That the gamma integral satisfies the reflection formula is a hypothesis; a function satisfying all hypotheses is constructed."
  },
  {
   "property": "C71",
   "status": "proved",
   "theorems": [
    "medianad_dev",
    "medianad_law",
    "iqrange_width",
    "mode_highest",
    "range_hull",
    "mode_scaling_refuted",
    "fold_pole_refuted"
   ],
   "note": "Exact integrals, root finder and minimiser; values at infinity are the limits. Atoms at equal or clearly different distance from the median are a hypothesis (the tolerance merges others). mode is proved for pieces with one hump and without atoms or poles; with an atom the mode depends on the unit (refuted)."
  },
  {
   "property": "C72",
   "status": "proved",
   "theorems": [
    "degree_power",
    "degree_stable",
    "degree_zero",
    "test_pole_power",
    "log_pole",
    "tail_power",
    "tail_never_inf",
    "tailexp_power",
    "smooth_pole_refuted",
    "slow_pole_refuted",
    "tail_light_refuted"
   ],
   "note": "Real arithmetic: values are finite, so that points are dropped only where the function is 0, and nothing underflows. Three expectations are refuted: powers t^n with n >= 3 are called singular, (-ln h)^(1/10) is not, and exp(-x) gets a finite tail exponent."
  },
  {
   "property": "C73",
   "status": "proved",
   "theorems": [
    "invcdf_values",
    "invcdf_law",
    "invcdf_lost",
    "invcdf_fine",
    "ccdf_exact",
    "ccdf_value_exact"
   ],
   "note": "Exact interpolation and root finder; the inverse is one function q for all pieces, equal to the results of all long enough searches. Levels 0 and 1 themselves, where the search may return an infinite number, carry no mass. The condition on break values is needed: invcdf_lost and invcdf_fine show what happens without it."
  },
  {
   "property": "C74",
   "status": "proved",
   "theorems": [
    "rho_s_bounds",
    "rho_s_order",
    "ctau_bounds",
    "tau_margins",
    "cov_independent",
    "tau_c_values",
    "dependence_self",
    "corrcoef_diag_refuted",
    "cov_third_lost",
    "nd_cov_refuted"
   ],
   "note": "Exact quadrature; two variables, finite ranges. tau from the density needs the two iterated integrals to exist (it is wrong for singular copulas, whose cpdf is 0). Three expectations are refuted: unit diagonal of the correlations, covariances with a third variable, covariances of a joint density."
  },
  {
   "property": "C75",
   "status": "proved",
   "theorems": [
    "ccond_formula",
    "ccond_cdf",
    "cond_law",
    "cond_density",
    "cond_density_second",
    "cond_cdf_range_refuted",
    "cond_two_refuted",
    "cond_var_order",
    "condfun_agrees"
   ],
   "note": "Real arithmetic, arguments are numbers; sympy.diff is the derivative. The law and the density are stated where the range test passes (a range that contains [0,1]); the failures of that test, of normalisation with two conditions and of the order of conditions are proved."
  },
  {
   "property": "C76",
   "status": "proved",
   "theorems": [
    "logexp_p1_error",
    "logexp_m1_error",
    "log_1m_exp_error",
    "frank2d_generator",
    "stable_doc_refuted"
   ],
   "note": "Real arithmetic; one element of an array at a time; the error is that of the cut-offs only, log1p and expm1 are exact. theta = 0 fails in the constructor."
  }
 ]
}