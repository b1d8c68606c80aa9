(** Property theorems (Mom). Proofs are in MomMain.v and the files it imports. *)
From Coq Require Import Reals Lra Lia List Bool Sorted Permutation FunctionalExtensionality.
From Coquelicot Require Import Coquelicot.
From Verif Require Import Base Seg Piecewise PiecewiseSpec PiecewiseFacts2 Integral IntegralFacts SegIntSpec SegIntFacts IndepSpec AtomFacts AtomFacts3 Indep Transform TransformSpec TransformFacts MixSpec Mix MixMain MomSpec Mom MomFacts MomFacts2 MomFacts3 MomFacts4 MomFacts5 MomFacts6.
From Verif Require Import MomMain.
Import List ListNotations.
Open Scope R_scope.

(** The number returned by mean is the mean of the law: it is determined by the probabilities of intervals,
    as the integral of P(X > x) over the positive numbers minus that of P(X < x) over the negative ones. *)
Theorem mean_exact : forall err l m, mean_ready l -> mean err l = Num m -> law_mean (pprob l) m.
Proof. exact mean_exact_main. Qed.
Print Assumptions mean_exact.

(** Two representations of the same law have the same mean. *)
Theorem mean_same_law : forall err l l' m m', mean_ready l -> mean_ready l' ->
  (forall u v, Rbar_le u v -> pprob l u v = pprob l' u v) -> mean err l = Num m -> mean err l' = Num m' -> m = m'.
Proof. exact mean_same_law_main. Qed.
Print Assumptions mean_same_law.

(** mean, var, std and moment are consistent: the variance is not negative and is the second moment minus the
    squared mean; std squared is the variance; the zeroth moment is 1, the first about the mean is 0 and the second
    about the mean is the variance. *)
Theorem moments_consistent : forall err l m v, prob_law l -> has_expect (fun x => x) l -> has_expect (fun x => x ^ 2) l ->
  mean err l = Num m -> var err l = Num v ->
  0 <= v /\
  (forall e, moment err l 2 (Some 0) = Num e -> v = e - m ^ 2) /\
  (std err l = Num (sqrt v) /\ sqrt v ^ 2 = v) /\
  (forall c e, moment err l 0 c = Num e -> e = 1) /\
  (forall e, moment err l 1 (Some 0) = Num e -> e = m) /\
  (forall e, moment err l 1 None = Num e -> e = 0) /\
  (forall e, moment err l 2 None = Num e -> e = v).
Proof. exact moments_consistent_main. Qed.
Print Assumptions moments_consistent.

(** When the error estimates are small the results are numbers, and they are the expectations. *)
Theorem moments_defined : forall err l, (forall f a b, err f a b = 0) -> Forall wf_seg l ->
  mean err l = Num (expect (fun x => x) l) /\ var err l = Num (expect (fun x => (x - expect (fun x => x) l) ^ 2) l) /\
  forall f, meanf err f l = Num (expect f l).
Proof. exact moments_defined_main. Qed.
Print Assumptions moments_defined.

(** scale*X + shift: the mean is scaled and shifted, the variance is scaled by the square, the standardised third
    moment keeps its absolute value and takes the sign of the scale, the fourth does not change. *)
Theorem moments_affine : forall err eps shift scale l, scale <> 0 -> ordered l -> prob_law l -> image_sep eps (affine shift scale) l ->
  (forall k, (1 <= k <= 4)%nat -> forall c, has_expect (fun x => (x - c) ^ k) l) ->
  exists q, copyShiftedAndScaled eps l shift scale = Ok q /\
  forall m m' v v', mean err l = Num m -> mean err (segs q) = Num m' -> var err l = Num v -> var err (segs q) = Num v' ->
    m' = scale * m + shift /\ v' = scale ^ 2 * v /\
    (forall t t', skewness err l = Num t -> skewness err (segs q) = Num t' -> t' = (if Rlt_dec 0 scale then t else - t)) /\
    (forall t t', kurtosis err l = Num t -> kurtosis err (segs q) = Num t' -> t' = t).
Proof. exact moments_affine_main. Qed.
Print Assumptions moments_affine.

(** The mean lies in the range of the density. *)
Theorem mean_in_range : forall err l m a b, prob_law l -> has_expect (fun x => x) l -> mean err l = Num m -> pw_range l = Ok (a, b) ->
  Rbar_le a m /\ Rbar_le m b.
Proof. exact mean_in_range_main. Qed.
Print Assumptions mean_in_range.

(** Chebyshev's inequality holds between the variance returned and the probabilities. *)
Theorem chebyshev : forall err l m v k, prob_law l -> has_expect (fun x => x) l -> has_expect (fun x => x ^ 2) l ->
  mean err l = Num m -> var err l = Num v -> 0 <= k ->
  k ^ 2 * (pprob l m_infty (Finite (m - k)) + pprob l (Finite (m + k)) p_infty) <= v.
Proof. exact chebyshev_main. Qed.
Print Assumptions chebyshev.

(** Sums and products of independent discrete variables: the means add and the variances add; the mean of the
    product is the product of the means. *)
Theorem moments_discrete : forall err eps f g q, 0 <= eps -> discrete f -> discrete g -> prob_law f -> prob_law g ->
  (forall h a b, err h a b = 0) ->
  (values_sep eps Rplus f g -> convdiracs eps Rplus f g = Ok q ->
    exists m m' v v', mean err f = Num m /\ mean err g = Num m' /\ var err f = Num v /\ var err g = Num v' /\
      mean err (segs q) = Num (m + m') /\ var err (segs q) = Num (v + v')) /\
  (values_sep eps Rmult f g -> convdiracs eps Rmult f g = Ok q ->
    exists m m', mean err f = Num m /\ mean err g = Num m' /\ mean err (segs q) = Num (m * m')).
Proof. exact moments_discrete_main. Qed.
Print Assumptions moments_discrete.

(** The mean of a mixture is the weighted sum of the means. *)
Theorem mean_mixture : forall err eps ps cs ms q m, 0 <= eps -> length ps = length cs -> Forall (component eps) cs ->
  (forall c d, In c cs -> In d cs -> cross_sep eps c d) -> Forall (fun p => 0 <= p) ps -> Forall mean_ready cs ->
  Forall2 (fun c mc => mean err c = Num mc) cs ms -> mix_pdf eps ps cs = Ok q -> mean err (segs q) = Num m ->
  m = sumR (map (fun pm => fst pm * snd pm) (combine ps ms)).
Proof. exact mean_mixture_main. Qed.
Print Assumptions mean_mixture.
