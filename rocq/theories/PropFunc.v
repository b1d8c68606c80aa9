(** Property theorems (Func). Proofs are in FuncMain.v and the files it imports. *)
From Coq Require Import Reals Lra List Bool Sorted Permutation FunctionalExtensionality.
From Coquelicot Require Import Coquelicot.
From Verif Require Import Base Bisect Seg Piecewise PiecewiseSpec PiecewiseFacts PiecewiseFacts2 PiecewiseFacts3 PiecewiseFacts4
  Integral IntegralFacts SegInt SegIntSpec SegIntFacts SubstFacts Transform TransformSpec TransformFacts TransformFacts2
  TransformFacts3 OperationFacts TransformFacts4 TransformFacts5 TransformMain PiecewiseMain Func FuncSpec FuncFacts FuncFacts2 FuncFacts3
  FuncFacts4 FuncFacts5.
From Verif Require Import FuncMain.
Import List ListNotations.
Open Scope R_scope.

(** C35: exp(X).  Intervals keep their probability under exp, atoms move to their images, and at exp(x) the density
    is the one FuncDistr.pdf computes, f(log y) / |y|. *)
Theorem exp_exact :
  forall eps l, smooth eps l -> image_sep eps (lift exp (Finite 0) p_infty) l ->
  exists q, exp_distr eps l = Ok q /\ smooth eps (segs q) /\
    image_law true (lift exp (Finite 0) p_infty) m_infty p_infty l (segs q) /\
    image_density (lift exp (Finite 0) p_infty) ln (fun y => / Rabs y) l (segs q).
Proof. exact exp_exact_main. Qed.
Print Assumptions exp_exact.

(** C35: log(X) for X with no piece below zero and no atom at or below zero. *)
Theorem log_exact :
  forall eps l, smooth eps l -> (forall s, In s l -> if isDirac s then Rbar_lt 0 (sa s) else Rbar_le 0 (sa s)) ->
  image_sep eps lift_ln l ->
  exists q, log_distr eps l = Ok q /\ smooth eps (segs q) /\ image_law true lift_ln 0 p_infty l (segs q).
Proof. exact log_exact_main. Qed.
Print Assumptions log_exact.

(** C35: the logarithm of a variable with a piece starting below zero, or with an atom at or below zero, is refused. *)
Theorem log_negative :
  forall eps l s, In s l -> (if isDirac s then Rbar_le (sa s) 0 else Rbar_lt (sa s) 0) -> log_distr eps l = Err EValue.
Proof. exact log_negative_main. Qed.
Print Assumptions log_negative.

(** C35: atan(X). *)
Theorem atan_exact :
  forall eps l, smooth eps l -> image_sep eps (lift atan (Finite (- PI / 2)) (Finite (PI / 2))) l ->
  exists q, atan_distr eps l = Ok q /\ smooth eps (segs q) /\
    image_law true (lift atan (Finite (- PI / 2)) (Finite (PI / 2))) m_infty p_infty l (segs q) /\
    image_density (lift atan (Finite (- PI / 2)) (Finite (PI / 2))) tan (fun y => 1 + tan y ^ 2) l (segs q).
Proof. exact atan_exact_main. Qed.
Print Assumptions atan_exact.

(** C35: tanh(X). *)
Theorem tanh_exact :
  forall eps l, smooth eps l -> image_sep eps (lift tanh (Finite (Ropp 1)) (Finite 1)) l ->
  exists q, tanh_distr eps l = Ok q /\ smooth eps (segs q) /\
    image_law true (lift tanh (Finite (Ropp 1)) (Finite 1)) m_infty p_infty l (segs q) /\
    image_density (lift tanh (Finite (Ropp 1)) (Finite 1)) (fun y => / 2 * ln ((1 + y) / (1 - y))) (fun y => / (1 - y ^ 2)) l (segs q).
Proof. exact tanh_exact_main. Qed.
Print Assumptions tanh_exact.

(** C35: the sigmoid 1/(1+exp(-X)), which the code computes by two formulas. *)
Theorem sigmoid_exact :
  forall eps l, smooth eps l -> image_sep eps (lift (fun x => / (1 + exp (- x))) (Finite 0) (Finite 1)) l ->
  exists q, sigm_distr eps l = Ok q /\ smooth eps (segs q) /\
    image_law true (lift (fun x => / (1 + exp (- x))) (Finite 0) (Finite 1)) m_infty p_infty l (segs q) /\
    image_density (lift (fun x => / (1 + exp (- x))) (Finite 0) (Finite 1)) (fun y => ln (y / (1 - y))) (fun y => / (y * (1 - y))) l (segs q).
Proof. exact sigmoid_exact_main. Qed.
Print Assumptions sigmoid_exact.

(** C35: tan(X) for X confined to [A,B] strictly inside (-pi/2, pi/2). *)
Theorem tan_exact :
  forall eps A B l, - PI / 2 < A -> A < B -> B < PI / 2 -> smooth eps l -> Forall (within (Finite A) (Finite B)) l ->
  image_sep eps (lift tan m_infty p_infty) l ->
  exists q, tan_distr eps l = Ok q /\ smooth eps (segs q) /\ image_law true (lift tan m_infty p_infty) (Finite A) (Finite B) l (segs q) /\
    image_density (lift tan m_infty p_infty) atan (fun y => / (1 + y ^ 2)) l (segs q).
Proof. exact tan_exact_main. Qed.
Print Assumptions tan_exact.

(** C35: X ** d for every exponent except the special ones 0, 1, -1, 2, and X as for log: computed as
    exp(d log X), it is the law of the power. *)
Theorem pow_exact :
  forall eps p d, d <> 0 -> d <> 1 -> d <> Ropp 1 -> d <> 2 -> smooth eps (segs p) ->
  (forall s, In s (segs p) -> if isDirac s then Rbar_lt 0 (sa s) else Rbar_le 0 (sa s)) ->
  image_sep eps lift_ln (segs p) -> image_sep eps (fun x => affine 0 d (lift_ln x)) (segs p) -> image_sep eps (power d) (segs p) ->
  exists q, pow_distr eps p d = Ok (PDistr q) /\ smooth eps (segs q) /\ image_law (rlt 0 d) (power d) 0 p_infty (segs p) (segs q).
Proof. exact pow_exact_main. Qed.
Print Assumptions pow_exact.

(** C35: the special exponents: X ** 0 is the number 1, X ** 1 is X, X ** 2 the law of the square. *)
Theorem pow_special :
  forall eps p, 0 <= eps -> pow_distr eps p 0 = Ok (PNum 1) /\ pow_distr eps p 1 = Ok (PDistr p) /\
  (smooth eps (segs p) -> atoms_even_sep eps (fun x => x * x) (segs p) ->
   exists q, pow_distr eps p 2 = Ok (PDistr q) /\ even_law (fun x => x * x) (segs p) (segs q)).
Proof. exact pow_special_main. Qed.
Print Assumptions pow_special.

(** C35: c ** X for c > 0, c <> 1, computed as exp(log(c) X); for the other bases: 1, 0 or an exception. *)
Theorem rpow_exact :
  forall eps p c, 0 < c -> c <> 1 -> smooth eps (segs p) ->
  image_sep eps (affine 0 (ln c)) (segs p) -> image_sep eps (expo c) (segs p) ->
  exists q, rpow_distr eps p c = Ok (PDistr q) /\ smooth eps (segs q) /\ image_law (rlt 1 c) (expo c) m_infty p_infty (segs p) (segs q).
Proof. exact rpow_exact_main. Qed.
Print Assumptions rpow_exact.

Theorem rpow_other :
  forall eps p c, (c = 1 -> rpow_distr eps p c = Ok (PNum 1)) /\ (c < 0 -> rpow_distr eps p c = Err EValue).
Proof. exact rpow_other_main. Qed.
Print Assumptions rpow_other.

(** C35: cos(X): the probability that X lies in the preimage of the interval inside [0, 2 pi]. *)
Theorem cos_exact :
  forall eps l, 0 <= eps -> smooth eps l ->
  (forall a b, In a (dirac_pos l) -> In b (dirac_pos l) -> cos a = cos b \/ eps < Rabs (cos a - cos b)) ->
  exists q, cos_distr eps l = Ok q /\ good eps (segs q) /\ Forall has_int (segs q) /\
    forall y z, Ropp 1 <= y -> y < z -> z <= 1 ->
      pprob (segs q) (Finite y) (Finite z) =
      pprob l (Finite (acos z)) (Finite (acos y)) + pprob l (Finite (2 * PI - acos y)) (Finite (2 * PI - acos z)).
Proof. exact cos_exact_main. Qed.
Print Assumptions cos_exact.

(** C35 (finding): cos is only applied on [0, 2 pi]: for X uniform on [-1,1] half of the probability disappears. *)
Theorem cos_support_refuted :
  exists eps l, 0 < eps /\ smooth eps l /\ pprob l m_infty p_infty = 1 /\
  exists q, cos_distr eps l = Ok q /\ pprob (segs q) (Finite (Ropp 1)) (Finite 1) = 1 / 2.
Proof. exact cos_support_refuted_main. Qed.
Print Assumptions cos_support_refuted.

(** C35: sin(X) is right for X confined to [-pi/2, pi/2). *)
Theorem sin_half_exact :
  forall eps l, 0 <= eps -> smooth eps l -> Forall (within (Finite (- PI / 2)) (Finite (PI / 2))) l -> ~ In (PI / 2) (dirac_pos l) ->
  (forall a b, In a (dirac_pos l) -> In b (dirac_pos l) -> sin a = sin b \/ eps < Rabs (sin a - sin b)) ->
  exists q, sin_distr eps l = Ok q /\ good eps (segs q) /\ Forall has_int (segs q) /\
    forall y z, Ropp 1 <= y -> y < z -> z <= 1 ->
      pprob (segs q) (Finite y) (Finite z) = pprob l (Finite (asin y)) (Finite (asin z)).
Proof. exact sin_half_exact_main. Qed.
Print Assumptions sin_half_exact.

(** C35 (finding): the second branch of sin uses 2 pi - arccos(y), which is not an inverse of sin: its sine is
    -sqrt(1-y^2). *)
Theorem sin_second_inverse :
  forall y, Ropp 1 < y < 1 -> sin (two_pi_acos y) = - sqrt (1 - y * y).
Proof. exact sin_second_inverse_main. Qed.
Print Assumptions sin_second_inverse.

(** C35 (finding): so sin is wrong beyond pi/2.  For X on [pi/2, pi] with density -cos x (total probability one) the
    result gives the interval (0,1), which carries everything, the "probability" -1. *)
Theorem sin_law_refuted :
  exists eps l q, 0 < eps /\ smooth eps l /\ Forall (within (Finite (PI / 2)) (Finite PI)) l /\
  pprob l (Finite (PI / 2)) (Finite PI) = 1 /\
  sin_distr eps l = Ok q /\ pprob (segs q) (Finite 0) (Finite 1) = Ropp 1.
Proof. exact sin_law_refuted_main. Qed.
Print Assumptions sin_law_refuted.
