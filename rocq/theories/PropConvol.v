(** Property theorems (Convol). Proofs are in ConvolMain.v and the files it imports. *)
From Coq Require Import Reals Lra List Bool Sorted Permutation.
From Coquelicot Require Import Coquelicot.
From Verif Require Import Base Bisect Seg Piecewise PiecewiseSpec PiecewiseFacts PiecewiseFacts2 PiecewiseFacts3 PiecewiseFacts4 Integral SegInt SegIntSpec IntParts IntegralFacts IntPartsFacts SegIntFacts CumintFacts Wide Indep IndepSpec AtomFacts AtomFacts3 ConvolFacts IndepAsm AsmFacts ConvolFacts2.
From Verif Require Import ConvolMain.
Import List ListNotations.
Open Scope R_scope.

(** C24: one value of the convolution.  With the pieces selected for any point z that no sum of ends of
    pieces separates from x, the number computed at x is the whole density of X+Y: the convolution integral
    over the real line, plus the atoms of either variable with the density of the other. *)
Theorem conv_point_exact :
  forall peps f g z x, Forall wf_seg f -> Forall wf_seg g -> sums_integrable f g x -> same_sum_cell f g z x ->
  exists v, conv_at_point peps (findSegListAdd f g z) x = Ok v /\ sum_density f g x v.
Proof. exact conv_point_exact_main. Qed.
Print Assumptions conv_point_exact.

(** C24: the whole of conv for functions without gaps: the result exists, its pieces are ordered, its atoms are
    those of the sum, and at every point that is not a sum of two ends its value is the density of X+Y.  The
    result has no break points other than sums of ends. *)
Theorem conv_exact :
  forall eps ueps peps f g, 0 <= eps -> 0 <= ueps ->
  Forall wf_seg f -> Forall wf_seg g -> chained f -> chained g ->
  (exists p : R, is_end f p) -> (exists q : R, is_end g q) ->
  sums_sep ueps f g -> values_sep eps Rplus f g ->
  exists q, conv eps ueps peps f g = Ok q /\ ordered (segs q) /\ Forall wf_seg (segs q) /\
    (forall z, pm (segs q) z = pm_op Rplus f g z) /\
    (forall x : R, ~ end_sum f g x -> sums_integrable f g x -> sum_density f g x (call_vec (segs q) x)) /\
    (forall x : R, ~ end_sum f g x -> ~ In (Finite x) (getBreaks (segs q))).
Proof. exact conv_exact_main. Qed.
Print Assumptions conv_exact.

(** C24: with a gap between two pieces conv loses mass: getBreaksExtended does not report the left end of the
    piece after the gap, so a cell of the result can contain a sum of ends and its midpoint selects too few pairs
    of pieces.  X is 1/2 on [0,1] and on [10,11], Y is uniform on [0,1]; the density of X+Y at 10.5 is 1/4, the
    result is 0. *)
Theorem conv_gap_refuted :
  exists f g (x v : R) q, ordered f /\ Forall wf_seg f /\ Forall integrable_piece f /\ total_mass f = 1 /\
    ordered g /\ Forall wf_seg g /\ Forall integrable_piece g /\ total_mass g = 1 /\
    ~ end_sum f g x /\ conv (1/10) (1/10) (1/10) f g = Ok q /\ sum_density f g x v /\ call_vec (segs q) x <> v.
Proof. exact conv_gap_refuted_main. Qed.
Print Assumptions conv_gap_refuted.
