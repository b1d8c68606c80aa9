(** Main lemmas: declared singularities and monotone pieces of the named distributions. *)
From Coq Require Import Reals Lra List Bool.
From Coquelicot Require Import Coquelicot.
From Verif Require Import Base Seg Piecewise Std StdSpec StdPoleSpec StdPoleFacts StdPoleFacts2 StdPoleFacts3 StdPoleFacts4.
Import List ListNotations.
Open Scope R_scope.

(** C69: NormalDistr: the density is bounded on every piece away from the ends the piece declares singular. *)
Lemma normal_poles_main : forall eps mu sigma, 0 < sigma -> poles_declared (normal_init eps mu sigma).
Proof. exact normal_pd. Qed.

(** C69: UniformDistr: the density is bounded on every piece away from the ends the piece declares singular. *)
Lemma uniform_poles_main : forall eps a b, a < b -> poles_declared (uniform_init eps a b).
Proof. exact uniform_pd. Qed.

(** C69: TrapezoidalDistr: the density is bounded on every piece away from the ends the piece declares singular. *)
Lemma trapezoidal_poles_main : forall eps a b c d, a <= b -> b <= c -> c <= d -> a < d -> poles_declared (trapz_init eps a b c d).
Proof. exact trapz_pd. Qed.

(** C69: CauchyDistr: the density is bounded on every piece away from the ends the piece declares singular. *)
Lemma cauchy_poles_main : forall eps gamma center, 0 < gamma -> poles_declared (cauchy_init eps gamma center).
Proof. exact cauchy_pd. Qed.

(** C69: GammaDistr, whatever the shape: the density is bounded on every piece away from the ends the piece declares singular. *)
Lemma gamma_poles_main : forall lg eps k theta, 0 < k -> 0 < theta -> poles_declared (gamma_init lg eps k theta).
Proof. exact gamma_pd. Qed.

(** C69: ChiSquareDistr: the density is bounded on every piece away from the ends the piece declares singular. *)
Lemma chisquare_poles_main : forall lg eps df, 1 <= df -> poles_declared (chi_init lg eps df).
Proof. exact chi_pd. Qed.

(** C69: StudentTDistr: the density is bounded on every piece away from the ends the piece declares singular. *)
Lemma student_poles_main : forall lg eps df, 0 < df -> poles_declared (student_init lg eps df).
Proof. exact student_pd. Qed.

(** C69: FDistr: the density is bounded on every piece away from the ends the piece declares singular. *)
Lemma fdist_poles_main : forall lg eps d1 d2, 0 < d1 -> 0 < d2 -> poles_declared (fdist_init lg eps d1 d2).
Proof. exact fdist_pd. Qed.

(** C69: ExponentialDistr: the density is bounded on every piece away from the ends the piece declares singular. *)
Lemma exponential_poles_main : forall eps lmbda, 0 < lmbda -> poles_declared (expo_init eps lmbda).
Proof. exact expo_pd. Qed.

(** C69: ParetoDistr: the density is bounded on every piece away from the ends the piece declares singular. *)
Lemma pareto_poles_main : forall eps alpha xmin, 0 < alpha -> 0 < xmin -> poles_declared (pareto_init eps alpha xmin).
Proof. exact pareto_pd. Qed.

(** C69: LevyDistr: the density is bounded on every piece away from the ends the piece declares singular. *)
Lemma levy_poles_main : forall eps c xmin, 0 < c -> poles_declared (levy_init eps c xmin).
Proof. exact levy_pd. Qed.

(** C69: LaplaceDistr: the density is bounded on every piece away from the ends the piece declares singular. *)
Lemma laplace_poles_main : forall eps lmbda mu, 0 < lmbda -> poles_declared (laplace_init eps lmbda mu).
Proof. exact laplace_pd. Qed.

(** C69: SemicircleDistr: the density is bounded on every piece away from the ends the piece declares singular. *)
Lemma semicircle_poles_main : forall eps r, 0 < r -> poles_declared (semi_init eps r).
Proof. exact semi_pd. Qed.

(** C69: WeibullDistr: the density is bounded on every piece away from the ends the piece declares singular. *)
Lemma weibull_poles_main : forall eps k lmbda, 0 < k -> 0 < lmbda -> poles_declared (weibull_init eps k lmbda).
Proof. exact weibull_pd. Qed.

(** C69: GumbelDistr: the density is bounded on every piece away from the ends the piece declares singular. *)
Lemma gumbel_poles_main : forall eps M mu sigma, 0 < sigma -> poles_declared (gumbel_init eps M mu sigma).
Proof. exact gumbel_pd. Qed.

(** C69: FrechetDistr: the density is bounded on every piece away from the ends the piece declares singular. *)
Lemma frechet_poles_main : forall eps alpha s m, 0 < alpha -> 0 < s -> poles_declared (frechet_init eps alpha s m).
Proof. exact frechet_pd. Qed.

(** C69: LogLogisticDistr: the density is bounded on every piece away from the ends the piece declares singular. *)
Lemma loglogistic_poles_main : forall eps k s, 0 < k -> 0 < s -> poles_declared (loglog_init eps k s).
Proof. exact loglog_pd. Qed.

(** C69: BetaDistr declares every singularity exactly when the pole detection tolerance is not positive, as it is by
    default (params.py:55); with any positive tolerance some density is unbounded on a piece without declared singularity. *)
Lemma beta_poles_main : forall lg eps mpe,
  (forall alpha beta, 0 < alpha -> 0 < beta -> poles_declared (beta_init lg eps mpe alpha beta)) <-> mpe <= 0.
Proof. exact beta_pd_iff. Qed.

(** C69: GammaDistr is cut at its mode: the density is strictly monotone on every piece. *)
Lemma gamma_monotone_main : forall lg eps k theta, 0 < k -> 0 < theta -> pieces_monotone (gamma_init lg eps k theta).
Proof. exact gamma_pm. Qed.

(** C69: FDistr is cut at its mode. *)
Lemma fdist_monotone_main : forall lg eps d1 d2, 0 < d1 -> 0 < d2 -> pieces_monotone (fdist_init lg eps d1 d2).
Proof. exact fdist_pm. Qed.

(** C69: WeibullDistr is cut at its mode. *)
Lemma weibull_monotone_main : forall eps k lmbda, 0 < k -> 0 < lmbda -> pieces_monotone (weibull_init eps k lmbda).
Proof. exact weibull_pm. Qed.
