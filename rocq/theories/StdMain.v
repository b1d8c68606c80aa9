(** Main lemmas about the named distributions and the constructor that builds a density from a formula. *)
From Coq Require Import Reals Lra Lia List Bool Sorted Arith.
From Coquelicot Require Import Coquelicot.
From Verif Require Import Base Seg Piecewise PiecewiseSpec Integral SegIntSpec Std StdSpec.
From Verif Require Import PiecewiseFacts2 IntegralFacts CumintFacts CumintFacts2 StdFacts StdFacts2 StdFacts3 StdFacts4 StdFacts5 StdFacts6 StdFacts7 StdFacts8 StdFacts9.
Import List ListNotations.
Open Scope R_scope.

(** C56: PiecewiseFunction(fun, breakPoints, lpoles, rpoles) builds one piece per pair of neighbouring break points, in
    order, each spanning exactly its two break points, evaluating to fun and declared singular exactly at the flagged
    finite ends; the break point list is the one given.  Two hypotheses on the flags are needed, see the refutations. *)
Lemma make_pieces_exact_main : forall eps f bp lp rp, StronglySorted Rbar_lt bp -> length lp = length bp -> length rp = length bp ->
  poles_apart bp lp rp -> no_double_rpole bp rp -> (2 <= length bp)%nat -> (length bp = 2%nat -> finb (nth 1 bp m_infty) = true) ->
  exists q, make_pwf eps f bp lp rp = Ok q /\ brks q = bp /\ S (length (segs q)) = length bp /\
    tiles (nth 0 bp m_infty) (segs q) (last bp m_infty) /\
    forall j s, nth_error (segs q) j = Some s -> piece_ok f bp lp rp j s.
Proof.
  intros eps f bp lp rp HS HL HR HA HD N N2.
  destruct (make_ok eps f bp lp rp HS HL HR HA HD N N2) as (q & E1 & E2 & E3 & P & W & PO).
  exists q. splits; auto. apply tiles_path. rewrite (last_nth bp m_infty m_infty); auto.
  intros E. rewrite E in N. simpl in N. lia.
Qed.

(** C56: two neighbouring break points that are both declared singular from the left are refused by an assertion,
    although no piece has two singular ends. *)
Lemma make_double_rpole_refuted_main : exists bp lp rp, StronglySorted Rbar_lt bp /\ length lp = length bp /\ length rp = length bp /\
  poles_apart bp lp rp /\ forall eps f, make_pwf eps f bp lp rp = Err EAssert.
Proof.
  exists [Finite 0; Finite 1; Finite 2], [false; false; false], [false; true; true]. splits; auto.
  - bps; lra.
  - intros i I _ _. left. destruct i as [|[|[|[|i]]]]; reflexivity.
  - intros eps f. unfold make_pwf. destruct (bltP 0 1) as [|X]; [|exfalso; apply X; simpl; lra]. cbn [last].
    destruct (bleP 1 2) as [|X]; [|exfalso; apply X; simpl; lra]. cbn [andb length Nat.eqb].
    unfold add_first. cbn [brks at_ix nth_error rbind]. unfold add_piece. cbn [brks at_ix nth_error rbind mk_piece andb negb].
    assert (AE : addSegment eps (PW [] [Finite 0; Finite 1; Finite 2]) (PoleSeg 0 1 f false) = Ok (PW ([] ++ [PoleSeg 0 1 f false]) [Finite 0; Finite 1; Finite 2])).
    { apply (add_end eps _ [] 0); try reflexivity; try constructor; first [bps; lra|simpl; auto; lra]. }
    rewrite AE. reflexivity.
Qed.

(** C56: an interval with both ends declared singular is not refused: the constructor's assertion looks at the wrong flag,
    and the piece silently loses the singularity at its left end. *)
Lemma make_both_poles_refuted_main : exists bp lp rp, StronglySorted Rbar_lt bp /\ length lp = length bp /\ length rp = length bp /\
  flag lp 0 = true /\ flag rp 1 = true /\
  forall eps f, exists q s, make_pwf eps f bp lp rp = Ok q /\ nth_error (segs q) 0 = Some s /\
    sa s = nth 0 bp m_infty /\ sb s = nth 1 bp m_infty /\ hasLeftPole s = false /\ hasRightPole s = true.
Proof.
  exists [Finite 0; Finite 1], [true; false], [false; true]. splits; auto.
  - bps; lra.
  - intros eps f. exists (PW [PoleSeg 0 1 f false] [Finite 0; Finite 1]), (PoleSeg 0 1 f false). splits; auto.
    unfold make_pwf. destruct (bltP 0 1) as [|X]; [|exfalso; apply X; simpl; lra]. cbn [last].
    destruct (bleP 1 1) as [|X]; [|exfalso; apply X; simpl; lra]. cbn [andb length Nat.eqb].
    unfold add_first. cbn [brks at_ix nth_error rbind]. unfold add_piece. cbn [brks at_ix nth_error rbind mk_piece andb negb].
    assert (AE : addSegment eps (PW [] [Finite 0; Finite 1]) (PoleSeg 0 1 f false) = Ok (PW ([] ++ [PoleSeg 0 1 f false]) [Finite 0; Finite 1])).
    { apply (add_end eps _ [] 0); try reflexivity; try constructor; first [bps; lra|simpl; auto; lra]. }
    rewrite AE. reflexivity.
Qed.

(** C57: NormalDistr(mu, sigma) is the normal law; in particular its density integrates to 1. *)
Lemma normal_textbook_main : forall eps mu sigma, 0 < sigma -> law (normal_init eps mu sigma) m_infty p_infty (normal_cdf mu sigma).
Proof. exact normal_law. Qed.

(** C57: UniformDistr(a, b) *)
Lemma uniform_textbook_main : forall eps (a b : R), a < b -> law (uniform_init eps a b) a b (uniform_cdf a b).
Proof. exact uniform_law. Qed.

(** C57: TrapezoidalDistr(a, b, c, d), also when some of the three parts are empty *)
Lemma trapezoidal_textbook_main : forall eps (a b c d : R), a <= b -> b <= c -> c <= d -> a < d ->
  law (trapz_init eps a b c d) a d (trapz_cdf a b c d).
Proof. exact trapz_law. Qed.

(** C57: CauchyDistr(gamma, center) *)
Lemma cauchy_textbook_main : forall eps gamma center, 0 < gamma -> law (cauchy_init eps gamma center) m_infty p_infty (cauchy_cdf gamma center).
Proof. exact cauchy_law. Qed.

(** C57: ExponentialDistr(lmbda) *)
Lemma exponential_textbook_main : forall eps lmbda, 0 < lmbda -> law (expo_init eps lmbda) 0 p_infty (expo_cdf lmbda).
Proof. exact expo_law. Qed.

(** C57: ParetoDistr(alpha, xmin) *)
Lemma pareto_textbook_main : forall eps (alpha xmin : R), 0 < alpha -> 0 < xmin -> law (pareto_init eps alpha xmin) xmin p_infty (pareto_cdf alpha xmin).
Proof. exact pareto_law. Qed.

(** C57: LevyDistr(c, xmin) *)
Lemma levy_textbook_main : forall eps (c xmin : R), 0 < c -> law (levy_init eps c xmin) xmin p_infty (levy_cdf c xmin).
Proof. exact levy_law. Qed.

(** C57: LaplaceDistr(lmbda, mu) *)
Lemma laplace_textbook_main : forall eps lmbda mu, 0 < lmbda -> law (laplace_init eps lmbda mu) m_infty p_infty (laplace_cdf lmbda mu).
Proof. exact laplace_law. Qed.

(** C57: SemicircleDistr(R) *)
Lemma semicircle_textbook_main : forall eps (r : R), 0 < r -> law (semi_init eps r) (- r) r (semi_cdf r).
Proof. exact semi_law. Qed.

(** C57: WeibullDistr(k, lmbda), for every shape k > 0 (a pole at 0, a jump at 0, or neither) *)
Lemma weibull_textbook_main : forall eps k lmbda, 0 < k -> 0 < lmbda -> law (weibull_init eps k lmbda) 0 p_infty (weibull_cdf k lmbda).
Proof. exact weibull_law. Qed.

(** C57: FrechetDistr(alpha, s, m); its two inner break points are in order for every alpha *)
Lemma frechet_textbook_main : forall eps (alpha s m : R), 0 < alpha -> 0 < s -> law (frechet_init eps alpha s m) m p_infty (frechet_cdf alpha s m).
Proof. exact frechet_law. Qed.

(** C57: LogLogisticDistr(k, s), with its one to three break points *)
Lemma loglogistic_textbook_main : forall eps k s, 0 < k -> 0 < s -> law (loglog_init eps k s) 0 p_infty (loglog_cdf k s).
Proof. exact loglog_law. Qed.

(** C57: GumbelDistr(mu, sigma): the density is cut off where exp would overflow, so the total mass is exactly
    1 - exp(-exp M) and the distribution function is the textbook one less exp(-exp M) above the cut. *)
Lemma gumbel_textbook_main : forall eps M mu sigma, 0 < sigma ->
  law_mass (gumbel_init eps M mu sigma) m_infty p_infty (1 - exp (- exp M)) (fun x => Rmax 0 (gumbel_cdf mu sigma x - exp (- exp M))).
Proof. exact gumbel_law. Qed.

(** C57: GammaDistr(k, theta), if utils.lgamma is correct at k.  The integral converges for every k > 0. *)
Lemma gamma_textbook_main : forall lg eps k theta, 0 < k -> 0 < theta -> is_lgamma lg k ->
  law (gamma_init lg eps k theta) 0 p_infty (gamma_cdf k theta).
Proof. exact gamma_law. Qed.

(** C57: ChiSquareDistr(df) for df >= 1, if lgamma is correct at df/2: the gamma law with shape df/2 and scale 2 *)
Lemma chisquare_textbook_main : forall lg eps df, 1 <= df -> is_lgamma lg (df / 2) ->
  law (chi_init lg eps df) 0 p_infty (gamma_cdf (df / 2) 2).
Proof. exact chi_law. Qed.

(** C57: for 0 < df < 1 the constructor of ChiSquareDistr accepts the parameter and leaves the density None. *)
Lemma chisquare_small_refuted_main : forall lg eps df, 0 < df < 1 -> chi_init lg eps df = Err ENone.
Proof.
  intros lg eps df (D0 & D1). unfold chi_init. rewrite (proj2 (rlt_true 0 df) D0).
  destruct (rleP 1 df); [lra|]. cbn [andb]. destruct (rltP 20 df); [lra|auto].
Qed.

(** C57: BetaDistr(alpha, beta), if lgamma satisfies the beta integral formula; whichever ends are treated as poles *)
Lemma beta_textbook_main : forall lg eps mpe p q, 0 < p -> 0 < q -> is_lbeta lg p q -> law (beta_init lg eps mpe p q) 0 1 (beta_cdf p q).
Proof. exact beta_law. Qed.

(** C57: FDistr(df1, df2), if lgamma satisfies the beta integral formula at df1/2, df2/2 *)
Lemma fdist_textbook_main : forall lg eps d1 d2, 0 < d1 -> 0 < d2 -> is_lbeta lg (d1 / 2) (d2 / 2) ->
  law (fdist_init lg eps d1 d2) 0 p_infty (fdist_cdf d1 d2).
Proof. exact fdist_law. Qed.

(** C57: StudentTDistr(df), if lgamma gives the right constant *)
Lemma student_textbook_main : forall lg eps df, 0 < df -> is_lstudent lg df -> law (student_init lg eps df) m_infty p_infty (student_cdf df).
Proof. exact student_law. Qed.

(** C57: parameters outside the domain are refused by the constructors that check them *)
Lemma parameters_checked_main : forall lg eps mu x y, x <= 0 ->
  normal_init eps mu x = Err EValue /\ gamma_init lg eps x y = Err EAssert /\ gamma_init lg eps y x = Err EAssert /\
  chi_init lg eps x = Err EAssert /\ student_init lg eps x = Err EAssert /\
  pareto_init eps x y = Err EAssert /\ pareto_init eps y x = Err EAssert /\ levy_init eps x y = Err EAssert /\
  laplace_init eps x mu = Err EAssert /\ semi_init eps x = Err EAssert /\
  weibull_init eps x y = Err EAssert /\ weibull_init eps y x = Err EAssert /\ (forall M, gumbel_init eps M mu x = Err EAssert) /\
  frechet_init eps x y mu = Err EAssert /\ frechet_init eps y x mu = Err EAssert.
Proof.
  intros lg eps mu x y X. assert (E : rlt 0 x = false) by (destruct (rltP 0 x); auto; lra).
  unfold normal_init, gamma_init, chi_init, student_init, pareto_init, levy_init, laplace_init, semi_init, weibull_init, gumbel_init, frechet_init.
  rewrite E. destruct (rleP x 0); [|lra]. rewrite !andb_false_r. cbn [andb]. splits; auto.
Qed.

(** C57: ExponentialDistr does not check its parameter: with lmbda < 0 the object is built and its density is negative. *)
Lemma exponential_negative_refuted_main : forall eps lmbda, lmbda < 0 ->
  exists q s x, expo_init eps lmbda = Ok q /\ In s (segs q) /\ RbarIn (sa s) (sb s) x /\ sf s x < 0.
Proof.
  intros eps lmbda L. unfold expo_init. cbv zeta.
  destruct (init_ok eps [Seg 0 1 (expo_pdf lmbda); PInfSeg 1 (expo_pdf lmbda)] 0 p_infty) as (q & E1 & E2).
  - repeat constructor.
  - repeat constructor; simpl; auto; lra.
  - simpl; auto.
  - exists q, (Seg 0 1 (expo_pdf lmbda)), (/ 2). rewrite E2. splits; auto; [simpl; auto|split; simpl; lra|].
    simpl. unfold expo_pdf. destruct (rltP (/ 2) 0); [lra|]. pose proof (exp_pos (- lmbda * / 2)).
    assert (0 < - lmbda * exp (- lmbda * / 2)) by (apply Rmult_lt_0_compat; lra). lra.
Qed.

(** C58: range() is the support of the density for the distributions below. *)
Lemma ranges_exact_main : forall eps lg (mu sigma a b c d r k theta : R) r0 q, 0 < sigma -> a < b -> b <= c -> c < d -> 0 < r -> 0 < k -> 0 < theta ->
  (is_lgamma lg k) ->
  In (q, r0) [(normal_init eps mu sigma, normal_range); (cauchy_init eps sigma mu, cauchy_range); (uniform_init eps a b, uniform_range a b);
    (trapz_init eps a b c d, trapz_range a d); (semi_init eps r, semi_range r); (expo_init eps k, halfline_range); (gamma_init lg eps k theta, halfline_range);
    (weibull_init eps k theta, halfline_range); (pareto_init eps k theta, pareto_range theta); (levy_init eps k mu, levy_range mu)] ->
  exists p, q = Ok p /\ tiles (fst r0) (segs p) (snd r0).
Proof.
  intros eps lg mu sigma a b c d r k theta r0 q S AB BC CD R0 K TH LG H.
  assert (J : forall (q : res pwf) (a b : Rbar) F, law q a b F -> exists p, q = Ok p /\ tiles a (segs p) b) by (intros ? ? ? ? (p & P1 & P2 & _); eauto).
  simpl in H. repeat (destruct H as [H|H]; [inversion H; subst; clear H; simpl; eapply J|]); try contradiction.
  - apply normal_law; auto.
  - apply cauchy_law; auto.
  - apply uniform_law; auto.
  - apply trapz_law; lra.
  - apply semi_law; auto.
  - apply expo_law; auto.
  - apply gamma_law; auto.
  - apply weibull_law; auto.
  - apply pareto_law; auto.
  - apply levy_law; auto.
Qed.

(** C58: range() of GumbelDistr and FrechetDistr is (0, inf) whatever the parameters; the densities live elsewhere. *)
Lemma gumbel_range_refuted_main : forall eps M mu sigma, 0 < sigma ->
  exists q, gumbel_init eps M mu sigma = Ok q /\ tiles m_infty (segs q) p_infty /\ fst gumbel_range = Finite 0.
Proof. intros eps M mu sigma S. destruct (gumbel_law eps M mu sigma S) as (q & E & T & _). exists q. splits; auto. Qed.
(** C58: FrechetDistr reports (0, inf) while its density starts at m. *)
Lemma frechet_range_refuted_main : forall eps (alpha s m : R), 0 < alpha -> 0 < s -> m <> 0 ->
  exists q, frechet_init eps alpha s m = Ok q /\ ~ tiles (fst frechet_range) (segs q) (snd frechet_range).
Proof.
  intros eps alpha s m A S M. destruct (frechet_law eps alpha s m A S) as (q & E & T & D & _). exists q. split; auto.
  intros T2. destruct D as (N & _). destruct (segs q) as [|t l]; [congruence|]. destruct T as (T1 & _), T2 as (T3 & _).
  rewrite T1 in T3. simpl in T3. inversion T3. auto.
Qed.

(** C58: with a correct lgamma, GammaDistr(1, 1/lmbda) and ExponentialDistr(lmbda) have the same density everywhere. *)
Lemma exponential_is_gamma_main : forall lg lmbda x, 0 < lmbda -> lg 1 = 0 -> gamma_pdf lg 1 (1 / lmbda) x = Finite (expo_pdf lmbda x).
Proof.
  intros lg lmbda x L LG. unfold gamma_pdf, expo_pdf, gamma_pdf_at_0, gamma_log_pdf. destruct (rltP x 0); auto. destruct (reqP x 0) as [->|N].
  - destruct (rltP 1 1); [lra|]. destruct (reqP 1 1); [|lra]. f_equal. rewrite Rmult_0_r, exp_0. field. lra.
  - f_equal. rewrite LG. unfold Rdiv. rewrite Rmult_1_l, Rinv_inv, ln_Rinv by auto.
    replace ((1 - 1) * ln x - x * lmbda - (0 + 1 * - ln lmbda)) with (ln lmbda + - lmbda * x) by ring. rewrite exp_plus, exp_ln by auto. ring.
Qed.

(** C58: ChiSquareDistr(df) has the density of GammaDistr(df/2, 2) at every point but 0. *)
Lemma chisquare_is_gamma_main : forall lg df x, x <> 0 -> chi_pdf lg df x = gamma_pdf lg (df / 2) 2 x.
Proof.
  intros lg df x X. unfold chi_pdf, gamma_pdf, chi_log_pdf, gamma_log_pdf. destruct (rltP x 0); auto. destruct (reqP x 0); [contradiction|auto].
Qed.
(** C58: at 0 they differ for 1 < df < 2: 0 against the limit value inf. *)
Lemma chisquare_at_0_refuted_main : forall lg df, 1 < df < 2 -> chi_pdf lg df 0 = Finite 0 /\ gamma_pdf lg (df / 2) 2 0 = p_infty.
Proof.
  intros lg df D. unfold chi_pdf, gamma_pdf, chi_pdf_at_0, gamma_pdf_at_0. destruct (rltP 0 0); [lra|]. destruct (reqP 0 0); [|lra].
  destruct (reqP df 1); [lra|]. destruct (reqP df 2); [lra|]. destruct (rltP (df / 2) 1) as [|X]; [auto|exfalso; apply X; lra].
Qed.

(** C58: WeibullDistr(1, 1/lmbda) has the density of ExponentialDistr(lmbda) at every point but 0 ... *)
Lemma exponential_is_weibull_main : forall lmbda x, 0 < lmbda -> x <> 0 -> weibull_pdf 1 (1 / lmbda) x = Finite (expo_pdf lmbda x).
Proof.
  intros lmbda x L X. unfold weibull_pdf, expo_pdf. destruct (rltP x 0) as [|X1]; auto. destruct (reqP x 0); [contradiction|].
  assert (PX : 0 < x) by (apply Rnot_lt_le in X1; lra).
  f_equal. rewrite Rpower_1 by (apply Rdiv_lt_0_compat; auto; apply Rdiv_lt_0_compat; lra).
  replace (ln (x / (1 / lmbda)) * (1 - 1) - x / (1 / lmbda)) with (- lmbda * x) by (field; lra). field. lra.
Qed.
(** C58: ... but at 0 its value is 1 whatever lmbda is. *)
Lemma weibull_at_0_refuted_main : forall lmbda, 0 < lmbda -> lmbda <> 1 ->
  weibull_pdf 1 (1 / lmbda) 0 = Finite 1 /\ weibull_pdf 1 (1 / lmbda) 0 <> Finite (expo_pdf lmbda 0).
Proof.
  intros lmbda L N. assert (E : weibull_pdf 1 (1 / lmbda) 0 = Finite 1).
  { unfold weibull_pdf, weibull_pdf_at_0. destruct (rltP 0 0); [lra|]. destruct (reqP 0 0); [|lra]. destruct (rltP 1 1); [lra|]. destruct (reqP 1 1); [auto|lra]. }
  split; auto. rewrite E. unfold expo_pdf. destruct (rltP 0 0); [lra|]. rewrite Rmult_0_r, exp_0, Rmult_1_r. intros X. inversion X. auto.
Qed.

(** C58: StudentTDistr(1) is CauchyDistr(1, 0), with lgamma(1) = 0 and lgamma(1/2) = log(pi)/2. *)
Lemma student_is_cauchy_main : forall lg x, lg 1 = 0 -> lg (1 / 2) = ln PI / 2 -> student_pdf lg 1 x = cauchy_pdf 1 0 x.
Proof.
  intros lg x L1 L2. pose proof PI_RGT_0 as HP. unfold student_pdf, cauchy_pdf. replace ((1 + 1) / 2) with 1 by field. rewrite L1, L2, ln_1.
  replace (1 + x ^ 2 / 1) with (1 + x * x) by field. replace (1 * 1 + (x - 0) * (x - 0)) with (1 + x * x) by ring.
  pose proof (one_plus_sq x) as O. replace 0.5 with (/ 2) by lra.
  replace (0 - ln PI / 2 - / 2 * (0 + ln PI) - 1 * ln (1 + x * x)) with (- ln PI + - ln (1 + x * x)) by field.
  rewrite exp_plus, !exp_Ropp, !exp_ln by auto. field. split; lra.
Qed.

(** C58: BetaDistr(1, 1) is UniformDistr(0, 1), with lgamma(1) = lgamma(2) = 0. *)
Lemma beta_is_uniform_main : forall lg x, lg 1 = 0 -> lg (1 + 1) = 0 -> 0 < x < 1 -> beta_f lg 1 1 x = 1 / (1 - 0).
Proof.
  intros lg x L1 L2 X. unfold beta_f. destruct (rltP x 0); [lra|]. destruct (rltP 1 x); [lra|]. cbn [orb]. rewrite L1, L2.
  replace (0 - 0 - 0 + ln x * (1 - 1) + ln (1 - x) * (1 - 1)) with 0 by ring. rewrite exp_0. field.
Qed.

(** C58: the Frechet sampler applied to a uniform deviate u returns the u-quantile. *)
Lemma frechet_sampler_main : forall alpha s m u : R, 0 < alpha -> 0 < s -> 0 < u < 1 -> frechet_cdf alpha s m (frechet_rand alpha s m u) = u.
Proof.
  intros alpha s m u A S U. assert (LU : ln u < 0) by (rewrite <- ln_1; apply ln_increasing; lra).
  unfold frechet_cdf, frechet_rand. pose proof (Rpower_pos (- ln u) (-1 / alpha)) as RP. assert (SP : 0 < s * Rpower (- ln u) (-1 / alpha)) by (apply Rmult_lt_0_compat; auto).
  unfold within. destruct (Rbar_le_dec _ _) as [X|X]; [simpl in X; lra|]. destruct (Rbar_le_dec _ _) as [Y|Y]; [contradiction|].
  replace ((m + s * Rpower (- ln u) (-1 / alpha) - m) / s) with (Rpower (- ln u) (-1 / alpha)) by (field; lra).
  rewrite Rpower_mult. replace (-1 / alpha * - alpha) with 1 by (field; lra). rewrite Rpower_1 by lra. rewrite Ropp_involutive. apply exp_ln. lra.
Qed.

(** C58: the Levy sampler: with z normal with mean 0 and deviation levy_sigma c, the draw is at most x exactly when z lies
    outside (-t, t), and that event has the probability that the Levy distribution function gives. *)
Lemma levy_sampler_main : forall c xmin x : R, 0 < c -> xmin < x ->
  exists t, 0 < t /\ (forall z, z <> 0 -> (levy_rand xmin z <= x <-> z <= - t \/ t <= z)) /\
    normal_cdf 0 (levy_sigma c) (- t) + (1 - normal_cdf 0 (levy_sigma c) t) = levy_cdf c xmin x.
Proof.
  intros c xmin x C X. set (y := x - xmin). assert (Y : 0 < y) by (unfold y; lra). exists (/ sqrt y).
  assert (SY : 0 < sqrt y) by (apply sqrt_lt_R0; auto). assert (SS : sqrt y * sqrt y = y) by (apply sqrt_sqrt; lra).
  assert (SC : 0 < sqrt c) by (apply sqrt_lt_R0; auto).
  assert (T : 0 < / sqrt y) by (apply Rinv_0_lt_compat; auto). assert (TT : / sqrt y * / sqrt y = / y) by (rewrite <- Rinv_mult, SS; auto).
  splits; auto.
  - intros z Z. unfold levy_rand. assert (Z2 : 0 < z ^ 2) by (apply pow2_gt_0; auto).
    assert (E : xmin + 1 / z ^ 2 <= x <-> / y <= z ^ 2).
    { split; intros H.
      - assert (1 / z ^ 2 <= y) by (unfold y; lra). apply Rle_div_l in H0; auto. apply (Rmult_le_reg_l y); auto. rewrite Rinv_r by lra. lra.
      - assert (1 / z ^ 2 <= y); [|unfold y in *; lra]. apply Rle_div_l; auto. apply (Rmult_le_compat_l y) in H; [|lra]. rewrite Rinv_r in H by lra. lra. }
    rewrite E. rewrite <- TT. split.
    + intros H. destruct (Rle_dec z 0) as [N|N]; [left|right]; apply Rnot_lt_le; intros K; nra.
    + intros [H|H]; nra.
  - unfold normal_cdf, levy_sigma, levy_cdf, within. destruct (Rbar_le_dec x xmin) as [A|A]; [simpl in A; lra|]. destruct (Rbar_le_dec p_infty x); [contradiction|].
    fold y. replace (sqrt (c / y)) with (sqrt c / sqrt y) by (symmetry; apply sqrt_div; lra).
    replace ((- / sqrt y - 0) / (1 / sqrt c)) with (- (sqrt c / sqrt y)) by (field; lra).
    replace ((/ sqrt y - 0) / (1 / sqrt c)) with (sqrt c / sqrt y) by (field; lra). rewrite Phi_opp. ring.
Qed.

(** C58: the density of SemicircleDistr called on a number outside the support fails with an unassigned variable ... *)
Lemma semicircle_scalar_refuted_main : forall r x, x < - r \/ r < x -> semi_call r x = Err EName.
Proof.
  intros r x H. unfold semi_call, in_semi. destruct (rleP (- r) x); [|auto]. destruct (rleP x r); [lra|auto].
Qed.
(** C58: ... and on an array it works element by element when every element is in the support, and raises as soon as one
    of two or more elements is not; the density of LogLogisticDistr behaves the same for negative elements. *)
Lemma array_pdf_inside_main : forall r xs, (forall x, In x xs -> - r <= x <= r) -> semi_vec r xs = Ok (map (semi_pdf r) xs).
Proof.
  intros r xs H. unfold semi_vec, assign_masked. rewrite (proj2 (forallb_forall (in_semi r) xs)); [reflexivity|].
  intros x X. specialize (H x X). unfold in_semi. destruct (rleP (- r) x); [|lra]. destruct (rleP x r); [auto|lra].
Qed.
(** C58: the array densities of Semicircle and LogLogistic fail as soon as one argument lies outside the support. *)
Lemma array_pdf_mixed_refuted_main : forall r k s x y z xs, x < - r -> y < 0 ->
  semi_vec r (x :: z :: xs) = Err EValue /\ loglog_vec k s (y :: z :: xs) = Err EValue.
Proof.
  intros r k s x y z xs X Y. assert (E : in_semi r x = false) by (unfold in_semi; destruct (rleP (- r) x); [lra|auto]).
  assert (E2 : rle 0 y = false) by (destruct (rleP 0 y); [lra|auto]).
  split; unfold semi_vec, loglog_vec, assign_masked; cbn [forallb length]; rewrite ?E, ?E2; reflexivity.
Qed.
