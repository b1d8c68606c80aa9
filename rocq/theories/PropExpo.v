(** Property theorems (Expo). Proofs are in ExpoMain.v and the files it imports. *)
From Coq Require Import Reals Lra List Bool Sorted Lia.
From Coquelicot Require Import Coquelicot.
From Verif Require Import Base Seg Piecewise Expo ExpoSpec ExpoFacts ExpoFacts2.
From Verif Require Import ExpoMain.
Import List ListNotations.
Open Scope R_scope.

(** C72: the degree of a pure power is found exactly: if next to x, on the side asked for, |f| = c h^d at the distance h
    (up to 1/10), then estimateDegreeOfPole returns d, for every exponent d, by default and for every decreasing scale of
    distances that starts at 1/10 or closer, with any number of points from two on. *)
Theorem degree_power : forall f x pos c d N, 0 < c -> power_near (beside f x pos) c d -> (2 <= N)%nat ->
  estimateDegreeOfPole f x pos None N = Ok d /\ (forall p q, q < p -> p <= -1 -> estimateDegreeOfPole f x pos (Some (p, q)) N = Ok d).
Proof. exact degree_power_main. Qed.
Print Assumptions degree_power.

(** C72: the estimate is stable: if |f| is c h^d only up to a relative error delta < 1, the estimate differs from d by at
    most (ln(1 + delta) - ln(1 - delta)) (N - 1) / ((p - q) ln 10) on the scale from 10^p to 10^q with N points, so that
    longer steps give better estimates. *)
Theorem degree_stable : forall f x pos c d delta p q N, q < p -> p <= -1 -> 0 < c -> 0 <= delta < 1 -> (2 <= N)%nat ->
  power_near_about (beside f x pos) c d delta ->
  exists r, estimateDegreeOfPole f x pos (Some (p, q)) N = Ok r /\
    Rabs (r - d) <= (ln (1 + delta) - ln (1 - delta)) * INR (N - 1) / ((p - q) * ln 10).
Proof. exact degree_stable_main. Qed.
Print Assumptions degree_stable.

(** C72: a function that vanishes beside x has degree 0 there, and is never called singular. *)
Theorem degree_zero : forall f x pos N deriv, (forall h, 0 < h -> beside f x pos h = 0) ->
  estimateDegreeOfPole f x pos None N = Ok 0 /\ testPole f x pos max_pole_exponent deriv = Ok false.
Proof. exact degree_zero_main. Qed.
Print Assumptions degree_zero.

(** C72: detection on pure powers, with the default threshold 1/100. The test without derivatives says yes exactly for
    d < -1/100, hence never for a bounded function. The test with derivatives (the default) says yes for every d at least
    1/100 away from 0, 1 and 2, and no for d = 0, 1 and 2, the exponents of functions that are smooth there. *)
Theorem test_pole_power : forall f x pos c d, 0 < c -> power_near (beside f x pos) c d ->
  (exists b, testPole f x pos max_pole_exponent false = Ok b /\ (b = true <-> d < - (1 / 100))) /\
  ((forall k, In k [0; 1; 2] -> 1 / 100 <= Rabs (d - k)) -> testPole f x pos max_pole_exponent true = Ok true) /\
  (In d [0; 1; 2] -> testPole f x pos max_pole_exponent true = Ok false).
Proof. exact test_pole_power_main. Qed.
Print Assumptions test_pole_power.

(** C72: the default test calls smooth functions singular: the powers t^n with n >= 3 have all derivatives everywhere, and
    the default test reports a singularity of them at 0, on both sides; of t and t^2 it does not. *)
Theorem smooth_pole_refuted : forall n pos, (3 <= n)%nat ->
  (forall k x, ex_derive_n (fun t => t ^ n) k x) /\ testPole (fun t => t ^ n) 0 pos max_pole_exponent true = Ok true /\
  testPole (fun t => t ^ 2) 0 pos max_pole_exponent true = Ok false /\ testPole (fun t => t ^ 1) 0 pos max_pole_exponent true = Ok false.
Proof. exact smooth_pole_refuted_main. Qed.
Print Assumptions smooth_pole_refuted.

(** C72: logarithmic singularities: beside a function that behaves like (-ln h)^s, s > 0, at the distance h from 0, the
    tests with and without derivatives agree: they say yes exactly if s ln(10/9) > ln(10)/100 or equal for the former;
    so a logarithm itself (s = 1) is recognised as singular. *)
Theorem log_pole : forall f pos s, 0 < s -> (forall h, 0 < h <= 1 / 10 -> Rabs (beside f 0 pos h) = Rpower (- ln h) s) ->
  (exists b, testPole f 0 pos max_pole_exponent true = Ok b /\ (b = true <-> ln 10 / 100 <= s * ln (10 / 9))) /\
  (exists b, testPole f 0 pos max_pole_exponent false = Ok b /\ (b = true <-> ln 10 / 100 < s * ln (10 / 9))) /\
  (1 <= s -> forall deriv, testPole f 0 pos max_pole_exponent deriv = Ok true).
Proof. exact log_pole_main. Qed.
Print Assumptions log_pole.

(** C72: a slow singularity is missed: the function (-ln h)^(1/10) is unbounded next to 0, and both tests say that there is
    no singularity. *)
Theorem slow_pole_refuted : exists f, unbounded_near (beside f 0 true) /\ forall deriv, testPole f 0 true max_pole_exponent deriv = Ok false.
Proof. exact slow_pole_refuted_main. Qed.
Print Assumptions slow_pole_refuted.

(** C72: the exponent of a tail that is a pure power: if |f| = c t^d at t (or at -t for the left tail) from T on, with d at
    most 50, and T is not beyond the last but one point of the scale, then estimateTailExponent returns d and
    estimateAtInfExponent returns -d; the scales are increasing, with any number of points from two on. *)
Theorem tail_power : forall (f : R -> R) (pos : bool) p q N T c d, p < q -> (2 <= N)%nat -> 0 < c ->
  T <= Rpower 10 (q - (q - p) / INR (N - 1)) -> power_tail (fun t => f (if pos then t else - t)) T c d ->
  estimateAtInfExponent f pos (Some (p, q)) N = Ok (- d) /\ (d <= 50 -> estimateTailExponent f pos (Some (p, q)) N = Ok (Finite d)).
Proof. exact tail_power_main. Qed.
Print Assumptions tail_power.

(** C72: a tail that does not grow never gets the exponent inf: if |f| is nonincreasing from 10^p on, the estimate is a
    finite number, at most 0. The value inf is reported only for functions that grow. *)
Theorem tail_never_inf : forall (f : R -> R) (pos : bool) p q N, p < q ->
  (forall s t, Rpower 10 p <= s -> s <= t -> Rabs (f (if pos then t else - t)) <= Rabs (f (if pos then s else - s))) ->
  exists e, estimateTailExponent f pos (Some (p, q)) N = Ok (Finite e) /\ e <= 0.
Proof. exact tail_never_inf_main. Qed.
Print Assumptions tail_never_inf.

(** C72: light tails are not told apart: the density exp(-x) decreases faster than every power, and the exponent reported
    for it by default is a finite number below -50, not inf. *)
Theorem tail_light_refuted : exists e, estimateTailExponent (fun x => exp (- x)) true None 300 = Ok (Finite e) /\ e < -50 /\
  (forall d, is_lim (fun x => exp (- x) * Rpower x d) p_infty 0).
Proof. exact tail_light_refuted_main. Qed.
Print Assumptions tail_light_refuted.

(** C72: the tail exponents of a list of pieces: the left one belongs to the first piece if that is unbounded to the left,
    the right one to the last piece if that is unbounded to the right, and there is none otherwise; where the tail is c t^d
    with d at most 50 (from some T up to 10^99 on) the value is d. *)
Theorem tailexp_power : forall l, l <> [] -> exists L R0, tailexp l = Ok (L, R0) /\
  (forall b f T c d, hd_error l = Some (MInfSeg b f) -> 0 < c -> d <= 50 -> T <= Rpower 10 99 -> power_tail (fun t => f (- t)) T c d -> L = Some (Ok (Finite d))) /\
  (forall a f T c d l', l = l' ++ [PInfSeg a f] -> 0 < c -> d <= 50 -> T <= Rpower 10 99 -> a <= T -> power_tail f T c d -> R0 = Some (Ok (Finite d))) /\
  ((forall b f, hd_error l <> Some (MInfSeg b f)) -> L = None) /\ ((forall a f l', l <> l' ++ [PInfSeg a f]) -> R0 = None).
Proof. exact tailexp_power_main. Qed.
Print Assumptions tailexp_power.
