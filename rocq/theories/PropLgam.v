(** Property theorems (Lgam). Proofs are in LgamMain.v and the files it imports. *)
From Coq Require Import Reals Lra Lia List Bool Arith.
From Coquelicot Require Import Coquelicot.
From Verif Require Import Base StdSpec Lgam LgamSpec LgamFacts LgamFacts2.
From Verif Require Import LgamMain.
Import List ListNotations.
Open Scope R_scope.

(** C70: polevl(x, coef, N) is the value of the polynomial whose N+1 coefficients are coef, the highest first; with
    fewer coefficients it raises. *)
Theorem polevl_exact : forall x l N,
  (length l = S N -> polevl x l N = Ok (poly l x)) /\ ((length l <= N)%nat -> polevl x l N = Err EIndex).
Proof. exact polevl_exact_main. Qed.
Print Assumptions polevl_exact.

(** C70: from -34 to 13 the recurrences are exact: the error at x is the error of the rational function at the fractional
    part of x, whatever function G satisfies the functional equation of the gamma function. *)
Theorem lgamma_error : forall lo G (x : R), gamma_like lo G -> lo <= 2 -> lo <= x -> -34 <= x < 13 -> ~ is_pole x ->
  exists v : R, lgamma x = Ok (Finite v) /\
    v - ln (Rabs (G x)) = frac_part x * poly cB (frac_part x) / poly cC (frac_part x) - ln (G (2 + frac_part x)).
Proof. exact lgamma_error_main. Qed.
Print Assumptions lgamma_error.

(** C70: the same for the gamma integral itself *)
Theorem lgamma_gamma : forall x : R, 0 < x < 13 ->
  exists v : R, lgamma x = Ok (Finite v) /\
    v - ln (Gamma x) = frac_part x * poly cB (frac_part x) / poly cC (frac_part x) - ln (Gamma (2 + frac_part x)).
Proof. exact lgamma_gamma_main. Qed.
Print Assumptions lgamma_gamma.

(** C70: at 1, 2, ..., 12 the result is exactly the logarithm of the factorial, so it meets the requirement of C57. *)
Theorem lgamma_factorial : forall n, (n <= 11)%nat ->
  lgamma (INR n + 1) = Ok (Finite (ln (INR (fact n)))) /\ exp (ln (INR (fact n))) = Gamma (INR n + 1).
Proof. exact lgamma_factorial_main. Qed.
Print Assumptions lgamma_factorial.

(** C70: below -34 the reflection formula is applied correctly: the error is at most that at -x plus that of the constant. *)
Theorem lgamma_reflection : forall G d (q w : R), reflection G -> 34 < q -> ~ is_pole (- q) ->
  lgamma q = Ok (Finite w) -> Rabs (w - ln (Rabs (G q))) <= d ->
  exists v : R, lgamma (- q) = Ok (Finite v) /\ Rabs (v - ln (Rabs (G (- q)))) <= d + Rabs (LOGPI - ln PI).
Proof. exact lgamma_reflection_main. Qed.
Print Assumptions lgamma_reflection.

(** C70: at 0, -1, -2, ... and at both infinities the result is inf. *)
Theorem lgamma_infinite : (forall x : R, is_pole x -> lgamma x = Ok p_infty) /\ lgamma p_infty = Ok p_infty /\ lgamma m_infty = Ok p_infty.
Proof. exact lgamma_infinite_main. Qed.
Print Assumptions lgamma_infinite.

(** C70: from 13 on the result follows five terms of Stirling's series, up to the error of the constant ln(2 pi)/2 and
    1e-14 below 1000, 1e-23 up to 1e8, and 1/(12x) above; beyond MAXLGM it is inf. *)
Theorem lgamma_stirling : forall x : R, let c := Rabs (LS2PI - ln (2 * PI) / 2) in
  (13 <= x < 1000 -> exists v : R, lgamma x = Ok (Finite v) /\ Rabs (v - stirling x) <= c + 1e-14) /\
  (1000 <= x <= 1e8 -> exists v : R, lgamma x = Ok (Finite v) /\ Rabs (v - stirling x) <= c + 1e-23) /\
  (1e8 < x <= MAXLGM -> exists v : R, lgamma x = Ok (Finite v) /\ Rabs (v - stirling x) <= c + 1 / (12 * x)) /\
  (MAXLGM < x -> lgamma x = Ok p_infty).
Proof. exact lgamma_stirling_main. Qed.
Print Assumptions lgamma_stirling.
