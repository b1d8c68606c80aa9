(** Property theorems (StdPole). Proofs are in StdPoleMain.v and the files it imports. *)
From Coq Require Import Reals Lra List Bool.
From Coquelicot Require Import Coquelicot.
From Verif Require Import Base Seg Piecewise Std StdSpec StdPoleSpec StdPoleFacts StdPoleFacts2 StdPoleFacts3 StdPoleFacts4.
From Verif Require Import StdPoleMain.
Import List ListNotations.
Open Scope R_scope.

(** C69: NormalDistr: the density is bounded on every piece away from the ends the piece declares singular. *)
Theorem normal_poles : forall eps mu sigma, 0 < sigma -> poles_declared (normal_init eps mu sigma).
Proof. exact normal_poles_main. Qed.
Print Assumptions normal_poles.

(** C69: UniformDistr: the density is bounded on every piece away from the ends the piece declares singular. *)
Theorem uniform_poles : forall eps a b, a < b -> poles_declared (uniform_init eps a b).
Proof. exact uniform_poles_main. Qed.
Print Assumptions uniform_poles.

(** C69: TrapezoidalDistr: the density is bounded on every piece away from the ends the piece declares singular. *)
Theorem trapezoidal_poles : forall eps a b c d, a <= b -> b <= c -> c <= d -> a < d -> poles_declared (trapz_init eps a b c d).
Proof. exact trapezoidal_poles_main. Qed.
Print Assumptions trapezoidal_poles.

(** C69: CauchyDistr: the density is bounded on every piece away from the ends the piece declares singular. *)
Theorem cauchy_poles : forall eps gamma center, 0 < gamma -> poles_declared (cauchy_init eps gamma center).
Proof. exact cauchy_poles_main. Qed.
Print Assumptions cauchy_poles.

(** C69: GammaDistr, whatever the shape: the density is bounded on every piece away from the ends the piece declares singular. *)
Theorem gamma_poles : forall lg eps k theta, 0 < k -> 0 < theta -> poles_declared (gamma_init lg eps k theta).
Proof. exact gamma_poles_main. Qed.
Print Assumptions gamma_poles.

(** C69: ChiSquareDistr: the density is bounded on every piece away from the ends the piece declares singular. *)
Theorem chisquare_poles : forall lg eps df, 1 <= df -> poles_declared (chi_init lg eps df).
Proof. exact chisquare_poles_main. Qed.
Print Assumptions chisquare_poles.

(** C69: StudentTDistr: the density is bounded on every piece away from the ends the piece declares singular. *)
Theorem student_poles : forall lg eps df, 0 < df -> poles_declared (student_init lg eps df).
Proof. exact student_poles_main. Qed.
Print Assumptions student_poles.

(** C69: FDistr: the density is bounded on every piece away from the ends the piece declares singular. *)
Theorem fdist_poles : forall lg eps d1 d2, 0 < d1 -> 0 < d2 -> poles_declared (fdist_init lg eps d1 d2).
Proof. exact fdist_poles_main. Qed.
Print Assumptions fdist_poles.

(** C69: ExponentialDistr: the density is bounded on every piece away from the ends the piece declares singular. *)
Theorem exponential_poles : forall eps lmbda, 0 < lmbda -> poles_declared (expo_init eps lmbda).
Proof. exact exponential_poles_main. Qed.
Print Assumptions exponential_poles.

(** C69: ParetoDistr: the density is bounded on every piece away from the ends the piece declares singular. *)
Theorem pareto_poles : forall eps alpha xmin, 0 < alpha -> 0 < xmin -> poles_declared (pareto_init eps alpha xmin).
Proof. exact pareto_poles_main. Qed.
Print Assumptions pareto_poles.

(** C69: LevyDistr: the density is bounded on every piece away from the ends the piece declares singular. *)
Theorem levy_poles : forall eps c xmin, 0 < c -> poles_declared (levy_init eps c xmin).
Proof. exact levy_poles_main. Qed.
Print Assumptions levy_poles.

(** C69: LaplaceDistr: the density is bounded on every piece away from the ends the piece declares singular. *)
Theorem laplace_poles : forall eps lmbda mu, 0 < lmbda -> poles_declared (laplace_init eps lmbda mu).
Proof. exact laplace_poles_main. Qed.
Print Assumptions laplace_poles.

(** C69: SemicircleDistr: the density is bounded on every piece away from the ends the piece declares singular. *)
Theorem semicircle_poles : forall eps r, 0 < r -> poles_declared (semi_init eps r).
Proof. exact semicircle_poles_main. Qed.
Print Assumptions semicircle_poles.

(** C69: WeibullDistr: the density is bounded on every piece away from the ends the piece declares singular. *)
Theorem weibull_poles : forall eps k lmbda, 0 < k -> 0 < lmbda -> poles_declared (weibull_init eps k lmbda).
Proof. exact weibull_poles_main. Qed.
Print Assumptions weibull_poles.

(** C69: GumbelDistr: the density is bounded on every piece away from the ends the piece declares singular. *)
Theorem gumbel_poles : forall eps M mu sigma, 0 < sigma -> poles_declared (gumbel_init eps M mu sigma).
Proof. exact gumbel_poles_main. Qed.
Print Assumptions gumbel_poles.

(** C69: FrechetDistr: the density is bounded on every piece away from the ends the piece declares singular. *)
Theorem frechet_poles : forall eps alpha s m, 0 < alpha -> 0 < s -> poles_declared (frechet_init eps alpha s m).
Proof. exact frechet_poles_main. Qed.
Print Assumptions frechet_poles.

(** C69: LogLogisticDistr: the density is bounded on every piece away from the ends the piece declares singular. *)
Theorem loglogistic_poles : forall eps k s, 0 < k -> 0 < s -> poles_declared (loglog_init eps k s).
Proof. exact loglogistic_poles_main. Qed.
Print Assumptions loglogistic_poles.

(** C69: BetaDistr declares every singularity exactly when the pole detection tolerance is not positive, as it is by
    default (params.py:55); with any positive tolerance some density is unbounded on a piece without declared singularity. *)
Theorem beta_poles : forall lg eps mpe,
  (forall alpha beta, 0 < alpha -> 0 < beta -> poles_declared (beta_init lg eps mpe alpha beta)) <-> mpe <= 0.
Proof. exact beta_poles_main. Qed.
Print Assumptions beta_poles.

(** C69: GammaDistr is cut at its mode: the density is strictly monotone on every piece. *)
Theorem gamma_monotone : forall lg eps k theta, 0 < k -> 0 < theta -> pieces_monotone (gamma_init lg eps k theta).
Proof. exact gamma_monotone_main. Qed.
Print Assumptions gamma_monotone.

(** C69: FDistr is cut at its mode. *)
Theorem fdist_monotone : forall lg eps d1 d2, 0 < d1 -> 0 < d2 -> pieces_monotone (fdist_init lg eps d1 d2).
Proof. exact fdist_monotone_main. Qed.
Print Assumptions fdist_monotone.

(** C69: WeibullDistr is cut at its mode. *)
Theorem weibull_monotone : forall eps k lmbda, 0 < k -> 0 < lmbda -> pieces_monotone (weibull_init eps k lmbda).
Proof. exact weibull_monotone_main. Qed.
Print Assumptions weibull_monotone.
