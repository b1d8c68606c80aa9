(** Property theorems (Summ). Proofs are in SummMain.v and the files it imports. *)
From Coq Require Import Reals Lra List Bool Sorted Permutation Lia.
From Coquelicot Require Import Coquelicot.
From Verif Require Import Base Seg Piecewise PiecewiseSpec PiecewiseFacts PiecewiseFacts2 PiecewiseFacts3 PiecewiseFacts4 Integral IntegralFacts SegInt SegIntSpec
  CumintFacts Transform TransformSpec TransformFacts TransformFacts2 OperationFacts AtomFacts CondFacts
  Root Quant QuantSpec Summ SummSpec SummFacts SummFacts2 SummFacts3 SummFacts4.
From Verif Require ExtrFacts3.
From Verif Require Import SummMain.
Import List ListNotations.
Open Scope R_scope.

(** C71: medianad is a median of the distance from the median: from some fuel on median returns one and the same
    median m, and medianad returns a number d such that intervals around m of half width less than d have probability
    at most 1/2 and intervals of half width more than d at least 1/2. *)
Theorem medianad_dev : forall eps l vinf solve, 0 <= eps -> density l -> Forall nonneg_piece l -> Forall cont_inside l -> total_mass l = 1 -> dirac_sep eps l ->
  (forall m, is_quantile (cdf_spec l) (1 / 2) m -> dists_sep eps m l) -> exact_solver solve ->
  (forall k q, density k -> cumint eps k = Ok q -> end_limits vinf (segs q)) ->
  exists N m d, is_quantile (cdf_spec l) (1 / 2) m /\ abs_dev_median l m d /\
    forall fuel, (N <= fuel)%nat -> median vinf solve fuel eps l = Ok (QAt (Finite m)) /\ medianad vinf solve fuel eps l = Ok (QAt (Finite d)).
Proof. exact medianad_dev_main. Qed.
Print Assumptions medianad_dev.

(** C71: the steps of medianad before the last median build a density of mass 1, that of |X - m|: no mass on the
    negative numbers, and below e > 0 the probability of (m - e, m + e). *)
Theorem medianad_law : forall eps l (m : R), 0 <= eps -> density l -> Forall nonneg_piece l -> Forall cont_inside l -> total_mass l = 1 -> dirac_sep eps l ->
  dists_sep eps m l -> is_quantile (cdf_spec l) (1 / 2) m ->
  exists f1 f2 f3, copyShiftedAndScaled eps l (- m) 1 = Ok f1 /\ splitByPoints eps (segs f1) [Finite 0] = Ok f2 /\ copyAbsComposition eps (segs f2) = Ok f3 /\
    density (segs f3) /\ Forall nonneg_piece (segs f3) /\ total_mass (segs f3) = 1 /\
    (forall y, y <= 0 -> pprob (segs f3) m_infty (Finite y) = 0) /\
    (forall e, 0 < e -> pprob (segs f3) m_infty (Finite e) = pprob l (Finite (m - e)) (Finite (m + e))).
Proof. exact medianad_law_main. Qed.
Print Assumptions medianad_law.

(** C71: for a level below 1/2 iqrange is the non-negative width of an interval between two quantiles that holds
    1 - 2 level of the mass; the level 1 - level gives the same width with a minus sign. *)
Theorem iqrange_width : forall eps l vinf solve level, density l -> Forall nonneg_piece l -> total_mass l = 1 -> exact_solver solve ->
  (forall q, cumint eps l = Ok q -> end_limits vinf (segs q)) -> 0 < level < 1 / 2 ->
  exists N, forall fuel, (N <= fuel)%nat -> exists a b : R,
    quantile vinf solve fuel eps l level = Ok (QAt (Finite a)) /\ quantile vinf solve fuel eps l (1 - level) = Ok (QAt (Finite b)) /\ a <= b /\
    iqrange vinf solve fuel eps l level = Ok (QAt (Finite (b - a))) /\ iqrange vinf solve fuel eps l (1 - level) = Ok (QAt (Finite (a - b))) /\
    (forall t, t < a -> 1 - 2 * level <= cdf_spec l b - cdf_spec l t).
Proof. exact iqrange_width_main. Qed.
Print Assumptions iqrange_width.

(** C71: for pieces without atom and pole, with one hump each, and a minimiser without rounding, mode returns a point
    of the support at which the density is as high as anywhere. *)
Theorem mode_highest : forall fmin far vinf l, exact_min fmin -> l <> [] -> Forall (one_hump far vinf) l ->
  exists s x, In s l /\ Rbar_le (sa s) (Finite x) /\ Rbar_le (Finite x) (sb s) /\ mode fmin far vinf l = Some (Finite x) /\
    maximum fmin far vinf l = Some (Finite x, sf s x) /\
    forall t y, In t l -> Rbar_le (sa t) (Finite y) -> Rbar_le (Finite y) (sb t) -> sf t y <= sf s x.
Proof. exact mode_highest_main. Qed.
Print Assumptions mode_highest.

(** C71: range reports the least and the greatest end of the pieces. *)
Theorem range_hull : forall l, l <> [] -> exists lo hi, range l = Ok (lo, hi) /\
  (exists s, In s l /\ (lo = sa s \/ lo = sb s)) /\ (exists s, In s l /\ (hi = sa s \/ hi = sb s)) /\
  forall s, In s l -> Rbar_le lo (sa s) /\ Rbar_le (sa s) hi /\ Rbar_le lo (sb s) /\ Rbar_le (sb s) hi.
Proof. exact range_hull_main. Qed.
Print Assumptions range_hull.

(** C71: the mode is not carried along by a change of unit when there is an atom: maximum compares the mass of an atom
    with values of the density.  Half the mass at 0 and half uniform on [1, 5/4]: the mode is in [1, 5/4], but the mode
    of ten times the variable is 0. *)
Theorem mode_scaling_refuted : exists l, density l /\ Forall nonneg_piece l /\ total_mass l = 1 /\
  forall eps fmin far vinf, 0 <= eps -> exact_min fmin -> exists q x, copyShiftedAndScaled eps l 0 10 = Ok q /\
    mode fmin far vinf l = Some (Finite x) /\ 1 <= x <= 5 / 4 /\ mode fmin far vinf (segs q) = Some (Finite 0).
Proof. exact mode_scaling_refuted_main. Qed.
Print Assumptions mode_scaling_refuted.

(** C71: folding drops the mark of a singular end away from 0: the density 1 / (2 sqrt(x - 1)) on [1, 2], marked as
    unbounded at 1, becomes a piece of |X| without a mark that is unbounded at 1 all the same; squaring does the same. *)
Theorem fold_pole_refuted : exists s, density [s] /\ total_mass [s] = 1 /\ nonneg_piece s /\ hasLeftPole s = true /\
  forall F, F = absComposition \/ F = squareComposition -> exists t, F s = Ok t /\ hasLeftPole t = false /\ sa t = Finite 1 /\
    forall M, exists x, 1 < x /\ Rbar_lt (Finite x) (sb t) /\ M < sf t x.
Proof. exact fold_pole_refuted_main. Qed.
Print Assumptions fold_pole_refuted.
