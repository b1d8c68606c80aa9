(** Property theorems (Cond). Proofs are in CondMain.v and the files it imports. *)
From Coq Require Import Reals Lra Lia List Bool Sorted.
From Coquelicot Require Import Coquelicot.
From Verif Require Import Base Seg Piecewise PiecewiseSpec PiecewiseFacts4 Integral IntegralFacts SegInt SegIntSpec IntParts Indep IndepSpec AtomFacts TransformFacts ExtrFacts3 DensLaw Cond CondSpec CondFacts CondFacts2 CondFacts3 CondFacts4 CondFacts5.
From Verif Require TransformSpec.
From Verif Require Import CondMain.
Import List ListNotations.
Open Scope R_scope.

(** C29: X | Gt(L) is the law of X given X > L, whenever that event has positive probability; atoms of X below, at and
    above L are allowed.  (If the event leaves nothing but an atom at zero the product with 1/p is not covered.) *)
Theorem cond_gt_exact : forall eps ueps L d, 0 <= eps ->
  ordered d -> Forall wf_seg d -> Forall integrable_piece d -> dirac_sep eps d -> (exists p : R, is_end d p) ->
  nonneg_law d -> total_mass d = 1 -> atoms_apart eps d L -> marks_sep ueps d [L] ->
  0 < TransformSpec.pprob d L p_infty -> (L < 0 -> pm d 0 < TransformSpec.pprob d L p_infty) ->
  exists r, or_gt eps ueps L d = Ok r /\ cond_law d (segs r) L p_infty.
Proof. exact cond_gt_exact_main. Qed.
Print Assumptions cond_gt_exact.

(** C29: X | Lt(U) is the law of X given X < U, when X has no atom above U. *)
Theorem cond_lt_exact : forall eps ueps U d, 0 <= eps ->
  ordered d -> Forall wf_seg d -> Forall integrable_piece d -> dirac_sep eps d -> (exists p : R, is_end d p) ->
  nonneg_law d -> total_mass d = 1 -> atoms_apart eps d U -> marks_sep ueps d [U] ->
  (forall a m, In (DiracSeg a m) d -> a <= U) ->
  0 < TransformSpec.pprob d m_infty U -> (0 < U -> pm d 0 < TransformSpec.pprob d m_infty U) ->
  exists r, or_lt eps ueps U d = Ok r /\ cond_law d (segs r) m_infty U.
Proof. exact cond_lt_exact_main. Qed.
Print Assumptions cond_lt_exact.

(** C29: X | Between(L, U) is the law of X given L < X < U, when X has no atom outside [L, U]. *)
Theorem cond_between_exact : forall eps ueps L U d, 0 <= eps -> L < U -> eps < U - L ->
  ordered d -> Forall wf_seg d -> Forall integrable_piece d -> dirac_sep eps d -> (exists p : R, is_end d p) ->
  nonneg_law d -> total_mass d = 1 ->
  (forall a m, In (DiracSeg a m) d -> (a = L \/ eps < a - L) /\ (a = U \/ eps < U - a)) -> marks_sep ueps d [L; U] ->
  0 < TransformSpec.pprob d L U -> (L < 0 -> 0 < U -> pm d 0 < TransformSpec.pprob d L U) ->
  exists r, or_between eps ueps L U d = Ok r /\ cond_law d (segs r) L U.
Proof. exact cond_between_exact_main. Qed.
Print Assumptions cond_between_exact.

(** C29: the assertions of the operator: conditioning on X > L raises AssertionError when no piece reaches above L, and
    conditioning on X < U when none reaches below U. *)
Theorem cond_assert : forall eps ueps (c : R) d, (exists p : R, is_end d p) ->
  ((forall s, In s d -> Rbar_le (sa s) c /\ Rbar_le (sb s) c) -> or_gt eps ueps c d = Err EAssert) /\
  ((forall s, In s d -> Rbar_le c (sa s) /\ Rbar_le c (sb s)) -> or_lt eps ueps c d = Err EAssert).
Proof. exact cond_assert_main. Qed.
Print Assumptions cond_assert.

(** C29: if X has an atom above U, X | Lt(U) keeps the atom that min(X,U) has at U and does not rescale: the result
    is the law of min(X,U). *)
Theorem cond_lt_atom : forall eps ueps U d, 0 <= eps ->
  ordered d -> Forall wf_seg d -> Forall integrable_piece d -> dirac_sep eps d -> nonneg_law d ->
  atoms_apart eps d U -> marks_sep ueps d [U] -> U <> 0 -> (exists a m, In (DiracSeg a m) d /\ U < a) ->
  exists r, cond_lt eps ueps U d = Ok r /\ pm (segs r) U = prob_above d U + pm d U /\ (forall z, z < U -> pm (segs r) z = pm d z).
Proof. exact cond_lt_atom_main. Qed.
Print Assumptions cond_lt_atom.

(** C29: if X has an atom below L (and none above U), X | Between(L, U) keeps an atom at L of mass P(X <= L)/P(X < U). *)
Theorem cond_between_atom : forall eps ueps L U d, 0 <= eps -> L < U -> eps < U - L ->
  ordered d -> Forall wf_seg d -> Forall integrable_piece d -> dirac_sep eps d -> nonneg_law d -> total_mass d = 1 ->
  atoms_apart eps d L -> atoms_apart eps d U -> marks_sep ueps d [L; U] -> L <> 0 ->
  (forall a m, In (DiracSeg a m) d -> a <= U) -> (exists a m, In (DiracSeg a m) d /\ a < L) -> 0 < TransformSpec.pprob d m_infty U ->
  exists r, cond_between eps ueps L U d = Ok r /\ pm (segs r) L = cdf_spec d L / TransformSpec.pprob d m_infty U /\
    (forall z, L < z < U -> pm (segs r) z = pm d z / TransformSpec.pprob d m_infty U).
Proof. exact cond_between_atom_main. Qed.
Print Assumptions cond_between_atom.

(** C29: P(X=1) = P(X=3) = 1/2; X | Lt(2) should be 1 with certainty, but is 1 or 2 with probability 1/2 each. *)
Theorem cond_lt_atom_refuted :
  exists eps ueps U d, 0 <= eps /\ ordered d /\ Forall wf_seg d /\ Forall integrable_piece d /\ dirac_sep eps d /\ nonneg_law d /\
    total_mass d = 1 /\ atoms_apart eps d U /\ marks_sep ueps d [U] /\ 0 < TransformSpec.pprob d m_infty U /\
    exists r, or_lt eps ueps U d = Ok r /\ pm (segs r) 1 = /2 /\ pm (segs r) 2 = /2 /\ ~ cond_law d (segs r) m_infty U.
Proof. exact cond_lt_atom_refuted_main. Qed.
Print Assumptions cond_lt_atom_refuted.

(** C29: with the same X, X | Between(2, 4) should be 3 with certainty, but is 2 or 3 with probability 1/2 each. *)
Theorem cond_between_atom_refuted :
  exists eps ueps L U d, 0 <= eps /\ L < U /\ ordered d /\ Forall wf_seg d /\ Forall integrable_piece d /\ dirac_sep eps d /\ nonneg_law d /\
    total_mass d = 1 /\ 0 < TransformSpec.pprob d L U /\
    exists r, or_between eps ueps L U d = Ok r /\ pm (segs r) 2 = /2 /\ pm (segs r) 3 = /2 /\ ~ cond_law d (segs r) L U.
Proof. exact cond_between_atom_refuted_main. Qed.
Print Assumptions cond_between_atom_refuted.
