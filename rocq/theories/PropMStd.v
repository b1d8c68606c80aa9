(** Property theorems (MStd). Proofs are in MStdMain.v and the files it imports. *)
From Coq Require Import Reals Lra List Bool.
From Coquelicot Require Import Coquelicot.
From Verif Require Import Base Seg Piecewise Integral Std StdSpec MomSpec Mom MStdSpec.
From Verif Require MStdFacts2 MStdFacts3 MStdFacts4 MStdFacts5 MStdFacts6.
From Verif Require Import MStdMain.
Import List ListNotations.
Open Scope R_scope.

(** UniformDistr(a,b): mean (a+b)/2, variance (b-a)^2/12. *)
Theorem uniform_mean_var : forall eps a b : R, a < b -> has_moments (uniform_init eps a b) ((a + b) / 2) ((b - a) ^ 2 / 12).
Proof. exact uniform_mean_var_main. Qed.
Print Assumptions uniform_mean_var.

(** NormalDistr(mu,sigma): mean mu, variance sigma^2. *)
Theorem normal_mean_var : forall eps mu sigma : R, 0 < sigma -> has_moments (normal_init eps mu sigma) mu (sigma ^ 2).
Proof. exact normal_mean_var_main. Qed.
Print Assumptions normal_mean_var.

(** ExponentialDistr(lmbda): mean 1/lmbda, variance 1/lmbda^2. *)
Theorem expo_mean_var : forall eps lmbda : R, 0 < lmbda -> has_moments (expo_init eps lmbda) (1 / lmbda) (1 / lmbda ^ 2).
Proof. exact expo_mean_var_main. Qed.
Print Assumptions expo_mean_var.

(** GammaDistr(k,theta): mean k theta, variance k theta^2. *)
Theorem gamma_mean_var : forall (lg : R -> R) (eps k theta : R), 0 < k -> 0 < theta -> is_lgamma lg k ->
  has_moments (gamma_init lg eps k theta) (k * theta) (k * theta ^ 2).
Proof. exact gamma_mean_var_main. Qed.
Print Assumptions gamma_mean_var.

(** ChiSquareDistr(df): mean df, variance 2 df. *)
Theorem chi_mean_var : forall (lg : R -> R) (eps df : R), 1 <= df -> is_lgamma lg (df / 2) ->
  has_moments (chi_init lg eps df) df (2 * df).
Proof. exact chi_mean_var_main. Qed.
Print Assumptions chi_mean_var.

(** LaplaceDistr(lmbda,mu): mean mu, variance 2 lmbda^2. *)
Theorem laplace_mean_var : forall eps lmbda mu : R, 0 < lmbda -> has_moments (laplace_init eps lmbda mu) mu (2 * lmbda ^ 2).
Proof. exact laplace_mean_var_main. Qed.
Print Assumptions laplace_mean_var.

(** WeibullDistr(k,lmbda): mean lmbda G(1+1/k), variance lmbda^2 (G(1+2/k) - G(1+1/k)^2) with G the gamma integral. *)
Theorem weibull_mean_var : forall eps k lmbda : R, 0 < k -> 0 < lmbda ->
  has_moments (weibull_init eps k lmbda) (lmbda * Gamma (1 + 1 / k)) (lmbda ^ 2 * (Gamma (1 + 2 / k) - Gamma (1 + 1 / k) ^ 2)).
Proof. exact weibull_mean_var_main. Qed.
Print Assumptions weibull_mean_var.

(** FrechetDistr(alpha,s,m): mean m + s G(1-1/alpha) for alpha > 1, variance s^2 (G(1-2/alpha) - G(1-1/alpha)^2) for alpha > 2. *)
Theorem frechet_mean_var : forall eps alpha s m : R, 0 < s ->
  (1 < alpha -> has_mean (frechet_init eps alpha s m) (m + s * Gamma (1 - 1 / alpha))) /\
  (2 < alpha -> has_moments (frechet_init eps alpha s m) (m + s * Gamma (1 - 1 / alpha)) (s ^ 2 * (Gamma (1 - 2 / alpha) - Gamma (1 - 1 / alpha) ^ 2))).
Proof. exact frechet_mean_var_main. Qed.
Print Assumptions frechet_mean_var.

(** ParetoDistr(alpha,xmin): mean alpha xmin / (alpha-1) for alpha > 1 and no mean for alpha <= 1; variance for alpha > 2. *)
Theorem pareto_mean_var : forall eps alpha xmin : R, 0 < xmin ->
  (0 < alpha <= 1 -> no_mean (pareto_init eps alpha xmin)) /\
  (1 < alpha -> has_mean (pareto_init eps alpha xmin) (alpha * xmin / (alpha - 1))) /\
  (2 < alpha -> has_moments (pareto_init eps alpha xmin) (alpha * xmin / (alpha - 1)) (alpha * xmin ^ 2 / ((alpha - 1) ^ 2 * (alpha - 2)))).
Proof. exact pareto_mean_var_main. Qed.
Print Assumptions pareto_mean_var.

(** StudentTDistr(df): mean 0 for df > 1, variance df/(df-2) for df > 2. *)
Theorem student_mean_var : forall (lg : R -> R) (eps df : R), is_lstudent lg df ->
  (1 < df -> has_mean (student_init lg eps df) 0) /\ (2 < df -> has_moments (student_init lg eps df) 0 (df / (df - 2))).
Proof. exact student_mean_var_main. Qed.
Print Assumptions student_mean_var.

(** BetaDistr(p,q): mean p/(p+q), variance pq/((p+q)^2 (p+q+1)). *)
Theorem beta_mean_var : forall (lg : R -> R) (eps mpe p q : R), 0 < p -> 0 < q -> is_lbeta lg p q ->
  has_moments (beta_init lg eps mpe p q) (p / (p + q)) (p * q / ((p + q) ^ 2 * (p + q + 1))).
Proof. exact beta_mean_var_main. Qed.
Print Assumptions beta_mean_var.

(** FDistr(d1,d2): mean d2/(d2-2) for d2 > 2, variance 2 d2^2 (d1+d2-2) / (d1 (d2-2)^2 (d2-4)) for d2 > 4. *)
Theorem fdist_mean_var : forall (lg : R -> R) (eps d1 d2 : R), 0 < d1 -> is_lbeta lg (d1 / 2) (d2 / 2) ->
  (2 < d2 -> has_mean (fdist_init lg eps d1 d2) (d2 / (d2 - 2))) /\
  (4 < d2 -> has_moments (fdist_init lg eps d1 d2) (d2 / (d2 - 2)) (2 * d2 ^ 2 * (d1 + d2 - 2) / (d1 * (d2 - 2) ^ 2 * (d2 - 4)))).
Proof. exact fdist_mean_var_main. Qed.
Print Assumptions fdist_mean_var.

(** LogLogisticDistr(k,s): mean s B(1+1/k,1-1/k) for k > 1, variance s^2 (B(1+2/k,1-2/k) - B(1+1/k,1-1/k)^2) for k > 2,
    with B the beta integral. *)
Theorem loglog_mean_var : forall eps k s : R, 0 < s ->
  (1 < k -> has_mean (loglog_init eps k s) (s * Beta (1 + 1 / k) (1 - 1 / k))) /\
  (2 < k -> has_moments (loglog_init eps k s) (s * Beta (1 + 1 / k) (1 - 1 / k))
              (s ^ 2 * (Beta (1 + 2 / k) (1 - 2 / k) - Beta (1 + 1 / k) (1 - 1 / k) ^ 2))).
Proof. exact loglog_mean_var_main. Qed.
Print Assumptions loglog_mean_var.

(** SemicircleDistr(R): mean 0, variance R^2/4. *)
Theorem semi_mean_var : forall eps r : R, 0 < r -> has_moments (semi_init eps r) 0 (r ^ 2 / 4).
Proof. exact semi_mean_var_main. Qed.
Print Assumptions semi_mean_var.

(** CauchyDistr and LevyDistr have no mean. *)
Theorem cauchy_levy_no_mean : forall eps g c x : R, (0 < g -> no_mean (cauchy_init eps g c)) /\ (0 < c -> no_mean (levy_init eps c x)).
Proof. exact cauchy_levy_no_mean_main. Qed.
Print Assumptions cauchy_levy_no_mean.

(** The gamma integral satisfies the recurrence of the factorial, so that these moments are numbers for integer parameters. *)
Theorem gamma_factorial : forall n : nat, Gamma (INR n + 1) = INR (fact n).
Proof. exact gamma_factorial_main. Qed.
Print Assumptions gamma_factorial.
