(** Property theorems (Std). Proofs are in StdMain.v and the files it imports. *)
From Coq Require Import Reals Lra Lia List Bool Sorted Arith.
From Coquelicot Require Import Coquelicot.
From Verif Require Import Base Seg Piecewise PiecewiseSpec Integral SegIntSpec Std StdSpec.
From Verif Require Import PiecewiseFacts2 IntegralFacts CumintFacts CumintFacts2 StdFacts StdFacts2 StdFacts3 StdFacts4 StdFacts5 StdFacts6 StdFacts7 StdFacts8 StdFacts9.
From Verif Require Import StdMain.
Import List ListNotations.
Open Scope R_scope.

(** C56: PiecewiseFunction(fun, breakPoints, lpoles, rpoles) builds one piece per pair of neighbouring break points, in
    order, each spanning exactly its two break points, evaluating to fun and declared singular exactly at the flagged
    finite ends; the break point list is the one given.  Two hypotheses on the flags are needed, see the refutations. *)
Theorem make_pieces_exact : forall eps f bp lp rp, StronglySorted Rbar_lt bp -> length lp = length bp -> length rp = length bp ->
  poles_apart bp lp rp -> no_double_rpole bp rp -> (2 <= length bp)%nat -> (length bp = 2%nat -> finb (nth 1 bp m_infty) = true) ->
  exists q, make_pwf eps f bp lp rp = Ok q /\ brks q = bp /\ S (length (segs q)) = length bp /\
    tiles (nth 0 bp m_infty) (segs q) (last bp m_infty) /\
    forall j s, nth_error (segs q) j = Some s -> piece_ok f bp lp rp j s.
Proof. exact make_pieces_exact_main. Qed.
Print Assumptions make_pieces_exact.

(** C56: two neighbouring break points that are both declared singular from the left are refused by an assertion,
    although no piece has two singular ends. *)
Theorem make_double_rpole_refuted : exists bp lp rp, StronglySorted Rbar_lt bp /\ length lp = length bp /\ length rp = length bp /\
  poles_apart bp lp rp /\ forall eps f, make_pwf eps f bp lp rp = Err EAssert.
Proof. exact make_double_rpole_refuted_main. Qed.
Print Assumptions make_double_rpole_refuted.

(** C56: an interval with both ends declared singular is not refused: the constructor's assertion looks at the wrong flag,
    and the piece silently loses the singularity at its left end. *)
Theorem make_both_poles_refuted : exists bp lp rp, StronglySorted Rbar_lt bp /\ length lp = length bp /\ length rp = length bp /\
  flag lp 0 = true /\ flag rp 1 = true /\
  forall eps f, exists q s, make_pwf eps f bp lp rp = Ok q /\ nth_error (segs q) 0 = Some s /\
    sa s = nth 0 bp m_infty /\ sb s = nth 1 bp m_infty /\ hasLeftPole s = false /\ hasRightPole s = true.
Proof. exact make_both_poles_refuted_main. Qed.
Print Assumptions make_both_poles_refuted.

(** C57: NormalDistr(mu, sigma) is the normal law; in particular its density integrates to 1. *)
Theorem normal_textbook : forall eps mu sigma, 0 < sigma -> law (normal_init eps mu sigma) m_infty p_infty (normal_cdf mu sigma).
Proof. exact normal_textbook_main. Qed.
Print Assumptions normal_textbook.

(** C57: UniformDistr(a, b) *)
Theorem uniform_textbook : forall eps (a b : R), a < b -> law (uniform_init eps a b) a b (uniform_cdf a b).
Proof. exact uniform_textbook_main. Qed.
Print Assumptions uniform_textbook.

(** C57: TrapezoidalDistr(a, b, c, d), also when some of the three parts are empty *)
Theorem trapezoidal_textbook : forall eps (a b c d : R), a <= b -> b <= c -> c <= d -> a < d ->
  law (trapz_init eps a b c d) a d (trapz_cdf a b c d).
Proof. exact trapezoidal_textbook_main. Qed.
Print Assumptions trapezoidal_textbook.

(** C57: CauchyDistr(gamma, center) *)
Theorem cauchy_textbook : forall eps gamma center, 0 < gamma -> law (cauchy_init eps gamma center) m_infty p_infty (cauchy_cdf gamma center).
Proof. exact cauchy_textbook_main. Qed.
Print Assumptions cauchy_textbook.

(** C57: ExponentialDistr(lmbda) *)
Theorem exponential_textbook : forall eps lmbda, 0 < lmbda -> law (expo_init eps lmbda) 0 p_infty (expo_cdf lmbda).
Proof. exact exponential_textbook_main. Qed.
Print Assumptions exponential_textbook.

(** C57: ParetoDistr(alpha, xmin) *)
Theorem pareto_textbook : forall eps (alpha xmin : R), 0 < alpha -> 0 < xmin -> law (pareto_init eps alpha xmin) xmin p_infty (pareto_cdf alpha xmin).
Proof. exact pareto_textbook_main. Qed.
Print Assumptions pareto_textbook.

(** C57: LevyDistr(c, xmin) *)
Theorem levy_textbook : forall eps (c xmin : R), 0 < c -> law (levy_init eps c xmin) xmin p_infty (levy_cdf c xmin).
Proof. exact levy_textbook_main. Qed.
Print Assumptions levy_textbook.

(** C57: LaplaceDistr(lmbda, mu) *)
Theorem laplace_textbook : forall eps lmbda mu, 0 < lmbda -> law (laplace_init eps lmbda mu) m_infty p_infty (laplace_cdf lmbda mu).
Proof. exact laplace_textbook_main. Qed.
Print Assumptions laplace_textbook.

(** C57: SemicircleDistr(R) *)
Theorem semicircle_textbook : forall eps (r : R), 0 < r -> law (semi_init eps r) (- r) r (semi_cdf r).
Proof. exact semicircle_textbook_main. Qed.
Print Assumptions semicircle_textbook.

(** C57: WeibullDistr(k, lmbda), for every shape k > 0 (a pole at 0, a jump at 0, or neither) *)
Theorem weibull_textbook : forall eps k lmbda, 0 < k -> 0 < lmbda -> law (weibull_init eps k lmbda) 0 p_infty (weibull_cdf k lmbda).
Proof. exact weibull_textbook_main. Qed.
Print Assumptions weibull_textbook.

(** C57: FrechetDistr(alpha, s, m); its two inner break points are in order for every alpha *)
Theorem frechet_textbook : forall eps (alpha s m : R), 0 < alpha -> 0 < s -> law (frechet_init eps alpha s m) m p_infty (frechet_cdf alpha s m).
Proof. exact frechet_textbook_main. Qed.
Print Assumptions frechet_textbook.

(** C57: LogLogisticDistr(k, s), with its one to three break points *)
Theorem loglogistic_textbook : forall eps k s, 0 < k -> 0 < s -> law (loglog_init eps k s) 0 p_infty (loglog_cdf k s).
Proof. exact loglogistic_textbook_main. Qed.
Print Assumptions loglogistic_textbook.

(** C57: GumbelDistr(mu, sigma): the density is cut off where exp would overflow, so the total mass is exactly
    1 - exp(-exp M) and the distribution function is the textbook one less exp(-exp M) above the cut. *)
Theorem gumbel_textbook : forall eps M mu sigma, 0 < sigma ->
  law_mass (gumbel_init eps M mu sigma) m_infty p_infty (1 - exp (- exp M)) (fun x => Rmax 0 (gumbel_cdf mu sigma x - exp (- exp M))).
Proof. exact gumbel_textbook_main. Qed.
Print Assumptions gumbel_textbook.

(** C57: GammaDistr(k, theta), if utils.lgamma is correct at k.  The integral converges for every k > 0. *)
Theorem gamma_textbook : forall lg eps k theta, 0 < k -> 0 < theta -> is_lgamma lg k ->
  law (gamma_init lg eps k theta) 0 p_infty (gamma_cdf k theta).
Proof. exact gamma_textbook_main. Qed.
Print Assumptions gamma_textbook.

(** C57: ChiSquareDistr(df) for df >= 1, if lgamma is correct at df/2: the gamma law with shape df/2 and scale 2 *)
Theorem chisquare_textbook : forall lg eps df, 1 <= df -> is_lgamma lg (df / 2) ->
  law (chi_init lg eps df) 0 p_infty (gamma_cdf (df / 2) 2).
Proof. exact chisquare_textbook_main. Qed.
Print Assumptions chisquare_textbook.

(** C57: for 0 < df < 1 the constructor of ChiSquareDistr accepts the parameter and leaves the density None. *)
Theorem chisquare_small_refuted : forall lg eps df, 0 < df < 1 -> chi_init lg eps df = Err ENone.
Proof. exact chisquare_small_refuted_main. Qed.
Print Assumptions chisquare_small_refuted.

(** C57: BetaDistr(alpha, beta), if lgamma satisfies the beta integral formula; whichever ends are treated as poles *)
Theorem beta_textbook : forall lg eps mpe p q, 0 < p -> 0 < q -> is_lbeta lg p q -> law (beta_init lg eps mpe p q) 0 1 (beta_cdf p q).
Proof. exact beta_textbook_main. Qed.
Print Assumptions beta_textbook.

(** C57: FDistr(df1, df2), if lgamma satisfies the beta integral formula at df1/2, df2/2 *)
Theorem fdist_textbook : forall lg eps d1 d2, 0 < d1 -> 0 < d2 -> is_lbeta lg (d1 / 2) (d2 / 2) ->
  law (fdist_init lg eps d1 d2) 0 p_infty (fdist_cdf d1 d2).
Proof. exact fdist_textbook_main. Qed.
Print Assumptions fdist_textbook.

(** C57: StudentTDistr(df), if lgamma gives the right constant *)
Theorem student_textbook : forall lg eps df, 0 < df -> is_lstudent lg df -> law (student_init lg eps df) m_infty p_infty (student_cdf df).
Proof. exact student_textbook_main. Qed.
Print Assumptions student_textbook.

(** C57: parameters outside the domain are refused by the constructors that check them *)
Theorem parameters_checked : forall lg eps mu x y, x <= 0 ->
  normal_init eps mu x = Err EValue /\ gamma_init lg eps x y = Err EAssert /\ gamma_init lg eps y x = Err EAssert /\
  chi_init lg eps x = Err EAssert /\ student_init lg eps x = Err EAssert /\
  pareto_init eps x y = Err EAssert /\ pareto_init eps y x = Err EAssert /\ levy_init eps x y = Err EAssert /\
  laplace_init eps x mu = Err EAssert /\ semi_init eps x = Err EAssert /\
  weibull_init eps x y = Err EAssert /\ weibull_init eps y x = Err EAssert /\ (forall M, gumbel_init eps M mu x = Err EAssert) /\
  frechet_init eps x y mu = Err EAssert /\ frechet_init eps y x mu = Err EAssert.
Proof. exact parameters_checked_main. Qed.
Print Assumptions parameters_checked.

(** C57: ExponentialDistr does not check its parameter: with lmbda < 0 the object is built and its density is negative. *)
Theorem exponential_negative_refuted : forall eps lmbda, lmbda < 0 ->
  exists q s x, expo_init eps lmbda = Ok q /\ In s (segs q) /\ RbarIn (sa s) (sb s) x /\ sf s x < 0.
Proof. exact exponential_negative_refuted_main. Qed.
Print Assumptions exponential_negative_refuted.

(** C58: range() is the support of the density for the distributions below. *)
Theorem ranges_exact : forall eps lg (mu sigma a b c d r k theta : R) r0 q, 0 < sigma -> a < b -> b <= c -> c < d -> 0 < r -> 0 < k -> 0 < theta ->
  (is_lgamma lg k) ->
  In (q, r0) [(normal_init eps mu sigma, normal_range); (cauchy_init eps sigma mu, cauchy_range); (uniform_init eps a b, uniform_range a b);
    (trapz_init eps a b c d, trapz_range a d); (semi_init eps r, semi_range r); (expo_init eps k, halfline_range); (gamma_init lg eps k theta, halfline_range);
    (weibull_init eps k theta, halfline_range); (pareto_init eps k theta, pareto_range theta); (levy_init eps k mu, levy_range mu)] ->
  exists p, q = Ok p /\ tiles (fst r0) (segs p) (snd r0).
Proof. exact ranges_exact_main. Qed.
Print Assumptions ranges_exact.

(** C58: range() of GumbelDistr and FrechetDistr is (0, inf) whatever the parameters; the densities live elsewhere. *)
Theorem gumbel_range_refuted : forall eps M mu sigma, 0 < sigma ->
  exists q, gumbel_init eps M mu sigma = Ok q /\ tiles m_infty (segs q) p_infty /\ fst gumbel_range = Finite 0.
Proof. exact gumbel_range_refuted_main. Qed.
Print Assumptions gumbel_range_refuted.

(** C58: FrechetDistr reports (0, inf) while its density starts at m. *)
Theorem frechet_range_refuted : forall eps (alpha s m : R), 0 < alpha -> 0 < s -> m <> 0 ->
  exists q, frechet_init eps alpha s m = Ok q /\ ~ tiles (fst frechet_range) (segs q) (snd frechet_range).
Proof. exact frechet_range_refuted_main. Qed.
Print Assumptions frechet_range_refuted.

(** C58: with a correct lgamma, GammaDistr(1, 1/lmbda) and ExponentialDistr(lmbda) have the same density everywhere. *)
Theorem exponential_is_gamma : forall lg lmbda x, 0 < lmbda -> lg 1 = 0 -> gamma_pdf lg 1 (1 / lmbda) x = Finite (expo_pdf lmbda x).
Proof. exact exponential_is_gamma_main. Qed.
Print Assumptions exponential_is_gamma.

(** C58: ChiSquareDistr(df) has the density of GammaDistr(df/2, 2) at every point but 0. *)
Theorem chisquare_is_gamma : forall lg df x, x <> 0 -> chi_pdf lg df x = gamma_pdf lg (df / 2) 2 x.
Proof. exact chisquare_is_gamma_main. Qed.
Print Assumptions chisquare_is_gamma.

(** C58: at 0 they differ for 1 < df < 2: 0 against the limit value inf. *)
Theorem chisquare_at_0_refuted : forall lg df, 1 < df < 2 -> chi_pdf lg df 0 = Finite 0 /\ gamma_pdf lg (df / 2) 2 0 = p_infty.
Proof. exact chisquare_at_0_refuted_main. Qed.
Print Assumptions chisquare_at_0_refuted.

(** C58: WeibullDistr(1, 1/lmbda) has the density of ExponentialDistr(lmbda) at every point but 0 ... *)
Theorem exponential_is_weibull : forall lmbda x, 0 < lmbda -> x <> 0 -> weibull_pdf 1 (1 / lmbda) x = Finite (expo_pdf lmbda x).
Proof. exact exponential_is_weibull_main. Qed.
Print Assumptions exponential_is_weibull.

(** C58: ... but at 0 its value is 1 whatever lmbda is. *)
Theorem weibull_at_0_refuted : forall lmbda, 0 < lmbda -> lmbda <> 1 ->
  weibull_pdf 1 (1 / lmbda) 0 = Finite 1 /\ weibull_pdf 1 (1 / lmbda) 0 <> Finite (expo_pdf lmbda 0).
Proof. exact weibull_at_0_refuted_main. Qed.
Print Assumptions weibull_at_0_refuted.

(** C58: StudentTDistr(1) is CauchyDistr(1, 0), with lgamma(1) = 0 and lgamma(1/2) = log(pi)/2. *)
Theorem student_is_cauchy : forall lg x, lg 1 = 0 -> lg (1 / 2) = ln PI / 2 -> student_pdf lg 1 x = cauchy_pdf 1 0 x.
Proof. exact student_is_cauchy_main. Qed.
Print Assumptions student_is_cauchy.

(** C58: BetaDistr(1, 1) is UniformDistr(0, 1), with lgamma(1) = lgamma(2) = 0. *)
Theorem beta_is_uniform : forall lg x, lg 1 = 0 -> lg (1 + 1) = 0 -> 0 < x < 1 -> beta_f lg 1 1 x = 1 / (1 - 0).
Proof. exact beta_is_uniform_main. Qed.
Print Assumptions beta_is_uniform.

(** C58: the Frechet sampler applied to a uniform deviate u returns the u-quantile. *)
Theorem frechet_sampler : forall alpha s m u : R, 0 < alpha -> 0 < s -> 0 < u < 1 -> frechet_cdf alpha s m (frechet_rand alpha s m u) = u.
Proof. exact frechet_sampler_main. Qed.
Print Assumptions frechet_sampler.

(** C58: the Levy sampler: with z normal with mean 0 and deviation levy_sigma c, the draw is at most x exactly when z lies
    outside (-t, t), and that event has the probability that the Levy distribution function gives. *)
Theorem levy_sampler : forall c xmin x : R, 0 < c -> xmin < x ->
  exists t, 0 < t /\ (forall z, z <> 0 -> (levy_rand xmin z <= x <-> z <= - t \/ t <= z)) /\
    normal_cdf 0 (levy_sigma c) (- t) + (1 - normal_cdf 0 (levy_sigma c) t) = levy_cdf c xmin x.
Proof. exact levy_sampler_main. Qed.
Print Assumptions levy_sampler.

(** C58: the density of SemicircleDistr called on a number outside the support fails with an unassigned variable ... *)
Theorem semicircle_scalar_refuted : forall r x, x < - r \/ r < x -> semi_call r x = Err EName.
Proof. exact semicircle_scalar_refuted_main. Qed.
Print Assumptions semicircle_scalar_refuted.

(** C58: ... and on an array it works element by element when every element is in the support, and raises as soon as one
    of two or more elements is not; the density of LogLogisticDistr behaves the same for negative elements. *)
Theorem array_pdf_inside : forall r xs, (forall x, In x xs -> - r <= x <= r) -> semi_vec r xs = Ok (map (semi_pdf r) xs).
Proof. exact array_pdf_inside_main. Qed.
Print Assumptions array_pdf_inside.

(** C58: the array densities of Semicircle and LogLogistic fail as soon as one argument lies outside the support. *)
Theorem array_pdf_mixed_refuted : forall r k s x y z xs, x < - r -> y < 0 ->
  semi_vec r (x :: z :: xs) = Err EValue /\ loglog_vec k s (y :: z :: xs) = Err EValue.
Proof. exact array_pdf_mixed_refuted_main. Qed.
Print Assumptions array_pdf_mixed_refuted.
