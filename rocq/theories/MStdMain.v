(** Main results: mean and variance of the named distributions. *)
From Coq Require Import Reals Lra List Bool.
From Coquelicot Require Import Coquelicot.
From Verif Require Import Base Seg Piecewise Integral Std StdSpec MomSpec Mom MStdSpec.
From Verif Require MStdFacts2 MStdFacts3 MStdFacts4 MStdFacts5 MStdFacts6.
Import List ListNotations.
Open Scope R_scope.

(** UniformDistr(a,b): mean (a+b)/2, variance (b-a)^2/12. *)
Lemma uniform_mean_var_main : forall eps a b : R, a < b -> has_moments (uniform_init eps a b) ((a + b) / 2) ((b - a) ^ 2 / 12).
Proof. exact MStdFacts2.uniform_moments. Qed.
(** NormalDistr(mu,sigma): mean mu, variance sigma^2. *)
Lemma normal_mean_var_main : forall eps mu sigma : R, 0 < sigma -> has_moments (normal_init eps mu sigma) mu (sigma ^ 2).
Proof. exact MStdFacts3.normal_moments. Qed.
(** ExponentialDistr(lmbda): mean 1/lmbda, variance 1/lmbda^2. *)
Lemma expo_mean_var_main : forall eps lmbda : R, 0 < lmbda -> has_moments (expo_init eps lmbda) (1 / lmbda) (1 / lmbda ^ 2).
Proof. exact MStdFacts2.expo_moments. Qed.
(** GammaDistr(k,theta): mean k theta, variance k theta^2. *)
Lemma gamma_mean_var_main : forall (lg : R -> R) (eps k theta : R), 0 < k -> 0 < theta -> is_lgamma lg k ->
  has_moments (gamma_init lg eps k theta) (k * theta) (k * theta ^ 2).
Proof. exact MStdFacts2.gamma_moments. Qed.
(** ChiSquareDistr(df): mean df, variance 2 df. *)
Lemma chi_mean_var_main : forall (lg : R -> R) (eps df : R), 1 <= df -> is_lgamma lg (df / 2) ->
  has_moments (chi_init lg eps df) df (2 * df).
Proof. exact MStdFacts2.chi_moments. Qed.
(** LaplaceDistr(lmbda,mu): mean mu, variance 2 lmbda^2. *)
Lemma laplace_mean_var_main : forall eps lmbda mu : R, 0 < lmbda -> has_moments (laplace_init eps lmbda mu) mu (2 * lmbda ^ 2).
Proof. exact MStdFacts4.laplace_moments. Qed.
(** WeibullDistr(k,lmbda): mean lmbda G(1+1/k), variance lmbda^2 (G(1+2/k) - G(1+1/k)^2) with G the gamma integral. *)
Lemma weibull_mean_var_main : forall eps k lmbda : R, 0 < k -> 0 < lmbda ->
  has_moments (weibull_init eps k lmbda) (lmbda * Gamma (1 + 1 / k)) (lmbda ^ 2 * (Gamma (1 + 2 / k) - Gamma (1 + 1 / k) ^ 2)).
Proof. exact MStdFacts3.weibull_moments. Qed.
(** FrechetDistr(alpha,s,m): mean m + s G(1-1/alpha) for alpha > 1, variance s^2 (G(1-2/alpha) - G(1-1/alpha)^2) for alpha > 2. *)
Lemma frechet_mean_var_main : forall eps alpha s m : R, 0 < s ->
  (1 < alpha -> has_mean (frechet_init eps alpha s m) (m + s * Gamma (1 - 1 / alpha))) /\
  (2 < alpha -> has_moments (frechet_init eps alpha s m) (m + s * Gamma (1 - 1 / alpha)) (s ^ 2 * (Gamma (1 - 2 / alpha) - Gamma (1 - 1 / alpha) ^ 2))).
Proof. intros eps alpha s m S0. split; intros A; [apply MStdFacts3.frechet_mean|apply MStdFacts3.frechet_moments]; auto. Qed.
(** ParetoDistr(alpha,xmin): mean alpha xmin / (alpha-1) for alpha > 1 and no mean for alpha <= 1; variance for alpha > 2. *)
Lemma pareto_mean_var_main : forall eps alpha xmin : R, 0 < xmin ->
  (0 < alpha <= 1 -> no_mean (pareto_init eps alpha xmin)) /\
  (1 < alpha -> has_mean (pareto_init eps alpha xmin) (alpha * xmin / (alpha - 1))) /\
  (2 < alpha -> has_moments (pareto_init eps alpha xmin) (alpha * xmin / (alpha - 1)) (alpha * xmin ^ 2 / ((alpha - 1) ^ 2 * (alpha - 2)))).
Proof.
  intros eps alpha xmin X. split; [|split]; intros A;
    [apply MStdFacts6.pareto_no_mean|apply MStdFacts4.pareto_mean|apply MStdFacts4.pareto_moments]; auto.
Qed.
(** StudentTDistr(df): mean 0 for df > 1, variance df/(df-2) for df > 2. *)
Lemma student_mean_var_main : forall (lg : R -> R) (eps df : R), is_lstudent lg df ->
  (1 < df -> has_mean (student_init lg eps df) 0) /\ (2 < df -> has_moments (student_init lg eps df) 0 (df / (df - 2))).
Proof. intros lg eps df L. split; intros A; [apply MStdFacts4.student_mean|apply MStdFacts4.student_moments]; auto. Qed.
(** BetaDistr(p,q): mean p/(p+q), variance pq/((p+q)^2 (p+q+1)). *)
Lemma beta_mean_var_main : forall (lg : R -> R) (eps mpe p q : R), 0 < p -> 0 < q -> is_lbeta lg p q ->
  has_moments (beta_init lg eps mpe p q) (p / (p + q)) (p * q / ((p + q) ^ 2 * (p + q + 1))).
Proof. exact MStdFacts5.beta_moments. Qed.
(** FDistr(d1,d2): mean d2/(d2-2) for d2 > 2, variance 2 d2^2 (d1+d2-2) / (d1 (d2-2)^2 (d2-4)) for d2 > 4. *)
Lemma fdist_mean_var_main : forall (lg : R -> R) (eps d1 d2 : R), 0 < d1 -> is_lbeta lg (d1 / 2) (d2 / 2) ->
  (2 < d2 -> has_mean (fdist_init lg eps d1 d2) (d2 / (d2 - 2))) /\
  (4 < d2 -> has_moments (fdist_init lg eps d1 d2) (d2 / (d2 - 2)) (2 * d2 ^ 2 * (d1 + d2 - 2) / (d1 * (d2 - 2) ^ 2 * (d2 - 4)))).
Proof. intros lg eps d1 d2 D L. split; intros A; [apply MStdFacts5.fdist_mean|apply MStdFacts5.fdist_moments]; auto. Qed.
(** LogLogisticDistr(k,s): mean s B(1+1/k,1-1/k) for k > 1, variance s^2 (B(1+2/k,1-2/k) - B(1+1/k,1-1/k)^2) for k > 2,
    with B the beta integral. *)
Lemma loglog_mean_var_main : forall eps k s : R, 0 < s ->
  (1 < k -> has_mean (loglog_init eps k s) (s * Beta (1 + 1 / k) (1 - 1 / k))) /\
  (2 < k -> has_moments (loglog_init eps k s) (s * Beta (1 + 1 / k) (1 - 1 / k))
              (s ^ 2 * (Beta (1 + 2 / k) (1 - 2 / k) - Beta (1 + 1 / k) (1 - 1 / k) ^ 2))).
Proof. intros eps k s S0. split; intros A; [apply MStdFacts5.loglog_mean|apply MStdFacts5.loglog_moments]; auto. Qed.
(** SemicircleDistr(R): mean 0, variance R^2/4. *)
Lemma semi_mean_var_main : forall eps r : R, 0 < r -> has_moments (semi_init eps r) 0 (r ^ 2 / 4).
Proof. exact MStdFacts6.semi_moments. Qed.
(** CauchyDistr and LevyDistr have no mean. *)
Lemma cauchy_levy_no_mean_main : forall eps g c x : R, (0 < g -> no_mean (cauchy_init eps g c)) /\ (0 < c -> no_mean (levy_init eps c x)).
Proof. intros eps g c x. split; intros H; [apply MStdFacts6.cauchy_no_mean|apply MStdFacts6.levy_no_mean]; auto. Qed.
(** The gamma integral satisfies the recurrence of the factorial, so that these moments are numbers for integer parameters. *)
Lemma gamma_factorial_main : forall n : nat, Gamma (INR n + 1) = INR (fact n).
Proof.
  induction n as [|n IH].
  - simpl. rewrite Rplus_0_l. exact MStdFacts2.Gamma_1.
  - rewrite MStdFacts2.Gamma_succ by (pose proof (pos_INR n); rewrite S_INR; lra).
    rewrite S_INR, IH. change (fact (S n)) with (S n * fact n)%nat. rewrite mult_INR, S_INR. ring.
Qed.
