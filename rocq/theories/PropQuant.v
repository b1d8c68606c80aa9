(** Property theorems (Quant). Proofs are in QuantMain.v and the files it imports. *)
From Coq Require Import Reals Lra Lia List Bool Arith Sorted Permutation.
From Coquelicot Require Import Coquelicot.
From Verif Require Import Base Bisect Seg Piecewise PiecewiseSpec PiecewiseFacts PiecewiseFacts2 Integral IntegralFacts SegInt SegIntSpec SegIntFacts CumintFacts CumintFacts2 Quant QuantSpec QuantFacts QuantFacts2.
From Verif Require Import QuantMain.
Import List ListNotations.
Open Scope R_scope.

(** C20: for a density without gaps, non-negative and of total mass one, inverting its distribution function at
    0 < y < 1 gives a real number that is a y-quantile: F(t) <= y for all t below it and y <= F there; given a root
    finder without rounding, and for all sufficiently long searches on the infinite pieces. *)
Theorem quantile_brackets :
  forall eps l vinf solve y, density l -> Forall nonneg_piece l -> total_mass l = 1 -> exact_solver solve ->
  (forall q, cumint eps l = Ok q -> end_limits vinf (segs q)) -> 0 < y < 1 ->
  exists N, forall fuel, (N <= fuel)%nat ->
  exists x : R, quantile vinf solve fuel eps l y = Ok (QAt x) /\ is_quantile (cdf_spec l) y x.
Proof. exact quantile_brackets_main. Qed.
Print Assumptions quantile_brackets.

(** C20: at y = 0 and y = 1 the same holds when the support is bounded; otherwise the only other results are
    -inf for y = 0 and inf for y = 1. *)
Theorem quantile_ends :
  forall eps l vinf solve y, density l -> Forall nonneg_piece l -> total_mass l = 1 -> exact_solver solve ->
  (forall q, cumint eps l = Ok q -> end_limits vinf (segs q)) -> 0 <= y <= 1 ->
  exists N, forall fuel, (N <= fuel)%nat ->
  exists x, quantile vinf solve fuel eps l y = Ok (QAt x) /\
    match x with Finite x => is_quantile (cdf_spec l) y x | m_infty => y = 0 | p_infty => y = 1 end /\
    ((exists a : R, forall s l', l = s :: l' -> sa s = a) -> (exists b : R, forall s l', l = l' ++ [s] -> sb s = b) -> exists r : R, x = r).
Proof. exact quantile_ends_main. Qed.
Print Assumptions quantile_ends.

(** C20: outside [0,1] the result is nan, whatever the root finder does. *)
Theorem quantile_outside :
  forall eps l vinf solve fuel y, density l -> Forall nonneg_piece l -> total_mass l = 1 ->
  (forall q, cumint eps l = Ok q -> end_limits vinf (segs q)) -> y < 0 \/ 1 < y ->
  quantile vinf solve fuel eps l y = Ok QNan.
Proof. exact quantile_outside_main. Qed.
Print Assumptions quantile_outside.

(** C20: a level in [0,1] below all values at the ends of the pieces of any piecewise function gives -inf, one above all
    of them inf.  So a distribution function whose computed end values miss 0 or 1 by a little still has quantiles. *)
Theorem inverse_beyond :
  forall vinf solve fuel l y, l <> [] -> 0 <= y <= 1 ->
  ((forall v, In v (getSegVals vinf l) -> y < fst v /\ y < snd v) -> inverse_scalar vinf solve fuel l y = Ok (QAt m_infty)) /\
  ((forall v, In v (getSegVals vinf l) -> fst v < y /\ snd v < y) -> inverse_scalar vinf solve fuel l y = Ok (QAt p_infty)).
Proof. exact inverse_beyond_main. Qed.
Print Assumptions inverse_beyond.

(** C20: without atoms the distribution function takes the value y at the result. *)
Theorem quantile_round_trip :
  forall eps l vinf solve y, density l -> Forall nonneg_piece l -> total_mass l = 1 -> exact_solver solve ->
  (forall q, cumint eps l = Ok q -> end_limits vinf (segs q)) -> 0 < y < 1 ->
  (forall s, In s l -> isDirac s = false) ->
  exists N, forall fuel, (N <= fuel)%nat ->
  exists x : R, quantile vinf solve fuel eps l y = Ok (QAt x) /\ cdf_spec l x = y.
Proof. exact quantile_round_trip_main. Qed.
Print Assumptions quantile_round_trip.

(** C20: quantiles are non-decreasing in y. *)
Theorem quantile_monotone :
  forall eps l vinf solve y1 y2, density l -> Forall nonneg_piece l -> total_mass l = 1 -> exact_solver solve ->
  (forall q, cumint eps l = Ok q -> end_limits vinf (segs q)) -> 0 < y1 -> y1 <= y2 -> y2 < 1 ->
  exists N, forall fuel, (N <= fuel)%nat -> exists x1 x2 : R,
  quantile vinf solve fuel eps l y1 = Ok (QAt x1) /\ quantile vinf solve fuel eps l y2 = Ok (QAt x2) /\ x1 <= x2.
Proof. exact quantile_monotone_main. Qed.
Print Assumptions quantile_monotone.

(** C20: interval(p) returns two numbers a <= b with probability at least p between them (both included):
    F(b) - F(t) >= p for every t < a. *)
Theorem interval_mass :
  forall eps l vinf solve p, density l -> Forall nonneg_piece l -> total_mass l = 1 -> exact_solver solve ->
  (forall q, cumint eps l = Ok q -> end_limits vinf (segs q)) -> 0 < p < 1 ->
  exists N, forall fuel, (N <= fuel)%nat -> exists a b : R,
  interval vinf solve fuel eps l p = Ok (QAt a, QAt b) /\ a <= b /\
  (forall t, t < a -> p <= cdf_spec l b - cdf_spec l t) /\
  (forall t, t < a -> cdf_spec l t <= (1 - p) / 2) /\ (forall t, t < b -> 1 - cdf_spec l t >= (1 - p) / 2).
Proof. exact interval_mass_main. Qed.
Print Assumptions interval_mass.

(** C20: the median has at most half of the mass strictly left of it and at least half up to it. *)
Theorem median_half :
  forall eps l vinf solve, density l -> Forall nonneg_piece l -> total_mass l = 1 -> exact_solver solve ->
  (forall q, cumint eps l = Ok q -> end_limits vinf (segs q)) ->
  exists N, forall fuel, (N <= fuel)%nat -> exists m : R,
  median vinf solve fuel eps l = Ok (QAt m) /\ (forall t, t < m -> cdf_spec l t <= 1/2) /\ 1/2 <= cdf_spec l m.
Proof. exact median_half_main. Qed.
Print Assumptions median_half.

(** C20: with a gap between two pieces the second loop picks a wrong break, and the result is not a quantile. *)
Theorem quantile_gap_refuted :
  exists eps l q y (x : R), Forall wf_seg l /\ Forall integrable_piece l /\ Forall nonneg_piece l /\ ordered l /\
    total_mass l = 1 /\ cumint eps l = Ok q /\ 0 < y < 1 /\
    (forall vinf solve fuel, end_limits vinf (segs q) -> quantile vinf solve fuel eps l y = Ok (QAt x)) /\
    ~ is_quantile (cdf_spec l) y x.
Proof. exact quantile_gap_refuted_main. Qed.
Print Assumptions quantile_gap_refuted.
