(** Property theorems (Transform). Proofs are in TransformMain.v and the files it imports. *)
From Coq Require Import Reals Lra List Bool Sorted Permutation.
From Coquelicot Require Import Coquelicot.
From Verif Require Import Base Bisect Seg Piecewise PiecewiseSpec PiecewiseFacts PiecewiseFacts2 PiecewiseFacts3 PiecewiseFacts4
  Integral IntegralFacts SegInt SegIntSpec SegIntFacts SubstFacts Transform TransformSpec TransformFacts TransformFacts2
  TransformFacts3 OperationFacts TransformFacts4 TransformFacts5.
From Verif Require Import TransformMain.
Import List ListNotations.
Open Scope R_scope.

(** C17: for scale <> 0 every piece has an image, and it is the image under x |-> scale x + shift: it spans
    the image interval and gives every image interval the probability of its preimage; a pole stays at the image
    of the end it was at. *)
Theorem shift_scale_piece :
  forall shift scale s, scale <> 0 -> wf_seg s -> has_int s ->
  exists t, seg_sas shift scale s = Ok t /\
    image_piece (rlt 0 scale) (affine shift scale) m_infty p_infty s t /\
    hasLeftPole t = (if rlt 0 scale then hasLeftPole s else hasRightPole s) /\
    hasRightPole t = (if rlt 0 scale then hasRightPole s else hasLeftPole s).
Proof. exact shift_scale_piece_main. Qed.
Print Assumptions shift_scale_piece.

(** C17: the whole function scale*X + shift: it is built without error, its pieces are ordered and
    every interval's image has the interval's probability. *)
Theorem shift_scale_list :
  forall eps shift scale l, scale <> 0 -> ordered l -> Forall wf_seg l -> Forall has_int l ->
  image_sep eps (affine shift scale) l ->
  exists q, copyShiftedAndScaled eps l shift scale = Ok q /\ ordered (segs q) /\ Forall wf_seg (segs q) /\ Forall has_int (segs q) /\
    forall u v, Rbar_lt u v ->
      pprob (segs q) (lo_end (rlt 0 scale) (affine shift scale) u v) (hi_end (rlt 0 scale) (affine shift scale) u v) = pprob l u v.
Proof. exact shift_scale_list_main. Qed.
Print Assumptions shift_scale_list.

(** C17: two successive shift/scales are one. *)
Theorem shift_scale_compose :
  forall t1 s1 t2 s2 s a b c, s1 <> 0 -> s2 <> 0 ->
  seg_sas t1 s1 s = Ok a -> seg_sas t2 s2 a = Ok b -> seg_sas (t1 * s2 + t2) (s1 * s2) s = Ok c -> same_piece b c.
Proof. exact shift_scale_compose_main. Qed.
Print Assumptions shift_scale_compose.

(** C17: scaling by zero is an error for every piece that is not an atom. *)
Theorem shift_scale_zero :
  forall shift s, isDirac s = false -> seg_sas shift 0 s = Err EZeroDiv.
Proof. exact shift_scale_zero_main. Qed.
Print Assumptions shift_scale_zero.

(** C18: one piece under a strictly monotone g with inverse ginv and derivative dginv of the inverse. *)
Theorem composition_piece :
  forall inc g ginv dginv pole A B s, inverse_pair inc g ginv A B ->
  within A B s -> wf_seg s -> has_int s -> cont_inside s ->
  derivative_on ginv dginv (lo_end inc g A B) (hi_end inc g A B) ->
  (if isDirac s then is_finite (g (sa s)) else ends_ok g (sa s) (sb s)) ->
  exists t, probComposition g ginv dginv pole s = Ok t /\ image_piece inc g A B s t /\
    (forall a m, s = DiracSeg a m -> t = DiracSeg (real (g a)) m).
Proof. exact composition_piece_main. Qed.
Print Assumptions composition_piece.

(** C18: the whole function, which copyComposition first splits at 0. *)
Theorem composition_list :
  forall eps inc g ginv dginv pole A B l, inverse_pair inc g ginv A B ->
  ordered l -> Forall wf_seg l -> Forall (within A B) l -> Forall has_int l -> Forall cont_inside l ->
  derivative_on ginv dginv (lo_end inc g A B) (hi_end inc g A B) ->
  Forall (ends_ok_split g) l -> dirac_sep eps l -> image_sep eps g l ->
  exists q, copyComposition eps l g ginv dginv pole = Ok q /\ ordered (segs q) /\ Forall wf_seg (segs q) /\
    Forall has_int (segs q) /\
    forall u v, Rbar_le A u -> Rbar_lt u v -> Rbar_le v B ->
      pprob (segs q) (lo_end inc g u v) (hi_end inc g u v) = pprob l u v.
Proof. exact composition_list_main. Qed.
Print Assumptions composition_list.

(** C18: a piece on which g takes the same finite value at both ends becomes an atom carrying the
    integral of the piece (its whole mass when the piece is not a constant one: C14). *)
Theorem composition_flat :
  forall g ginv dginv pole s (y : R), isDirac s = false -> g (sa s) = y -> g (sb s) = y ->
  probComposition g ginv dginv pole s = Ok (DiracSeg y (seg_integrate s m_infty p_infty)).
Proof. exact composition_flat_main. Qed.
Print Assumptions composition_flat.

(** C18 (finding): without the sign condition on infinite ends the result is wrong.  The logarithm of a
    piece on [0,2] becomes a piece on [log 2, +inf): the probability 1 that X is in (0,2) is lost. *)
Theorem composition_infinite_end_refuted :
  exists g ginv dginv s t, inverse_pair true g ginv 0 2 /\ within 0 2 s /\ wf_seg s /\ has_int s /\ cont_inside s /\
    derivative_on ginv dginv (g 0) (g 2) /\
    probComposition g ginv dginv false s = Ok t /\ prob s 0 2 = 1 /\ prob t (g 0) (g 2) = 0.
Proof. exact composition_infinite_end_refuted_main. Qed.
Print Assumptions composition_infinite_end_refuted.

(** C18 (finding): for decreasing g the "pole at zero" mark is put at the wrong end: the image reaches
    zero at its left end and the piece is marked singular at its right end. *)
Theorem composition_pole_side_refuted :
  exists g ginv dginv s t, inverse_pair false g ginv 0 p_infty /\ within 0 p_infty s /\ wf_seg s /\
    probComposition g ginv dginv true s = Ok t /\ sa t = Finite 0 /\ hasLeftPole t = false /\ hasRightPole t = true.
Proof. exact composition_pole_side_refuted_main. Qed.
Print Assumptions composition_pole_side_refuted.

(** C18: the logarithm of a non-negative variable without an atom at 0 (copyLogComposition splits at
    1/2, 1 and 2 first, which makes the sign condition hold for every piece). *)
Theorem log_list :
  forall eps l, ordered l -> Forall wf_seg l -> Forall (within 0 p_infty) l -> Forall has_int l -> Forall cont_inside l ->
  (forall a m, In (DiracSeg a m) l -> a <> 0) -> dirac_sep eps l -> image_sep eps ln_ext l ->
  exists q, copyLogComposition eps l ln_ext exp exp = Ok q /\ ordered (segs q) /\ Forall wf_seg (segs q) /\
    Forall has_int (segs q) /\
    forall u v, Rbar_le 0 u -> Rbar_lt u v -> pprob (segs q) (ln_ext u) (ln_ext v) = pprob l u v.
Proof. exact log_list_main. Qed.
Print Assumptions log_list.

(** C18: 1/X for X without atoms: intervals on either side of zero keep their probability. *)
Theorem inverse_list :
  forall eps pole l, ordered l -> Forall wf_seg l -> Forall has_int l -> Forall cont_inside l ->
  Forall (fun s => isDirac s = false) l ->
  exists q, copyProbInverse eps l pole = Ok q /\ ordered (segs q) /\ Forall wf_seg (segs q) /\ Forall has_int (segs q) /\
    (forall u v, Rbar_le 0 u -> Rbar_lt u v -> pprob (segs q) (one_over_x v) (one_over_x u) = pprob l u v) /\
    (forall u v, Rbar_lt u v -> Rbar_le v 0 -> pprob (segs q) (one_over_neg v) (one_over_neg u) = pprob l u v).
Proof. exact inverse_list_main. Qed.
Print Assumptions inverse_list.

(** C18 (finding): 1/X loses every atom of X. *)
Theorem inverse_atoms_refuted :
  forall eps (a m : R) pole, 0 <= eps -> a <> 0 ->
  exists q, copyProbInverse eps [DiracSeg a m] pole = Ok q /\ getDiracs (segs q) = [] /\ pprob (segs q) m_infty p_infty = 0.
Proof. exact inverse_atoms_refuted_main. Qed.
Print Assumptions inverse_atoms_refuted.

(** C19: X^2.  Nothing below zero; for 0 <= u < v the interval (u^2, v^2) has the probability of
    (u,v) together with (-v,-u); an interval (y, v^2) starting below zero that of (-v, v). *)
Theorem square_list :
  forall eps l, 0 <= eps -> ordered l -> Forall wf_seg l -> Forall has_int l -> Forall cont_inside l ->
  dirac_sep eps l -> atoms_even_sep eps (fun x => x * x) l ->
  exists q, copySquareComposition eps l = Ok q /\ good eps (segs q) /\ Forall has_int (segs q) /\ even_law (fun x => x * x) l (segs q).
Proof. exact square_list_main. Qed.
Print Assumptions square_list.

(** C19: |X|. *)
Theorem abs_list :
  forall eps l, 0 <= eps -> ordered l -> Forall wf_seg l -> Forall has_int l -> Forall cont_inside l ->
  dirac_sep eps l -> atoms_even_sep eps Rabs l ->
  exists q, copyAbsComposition eps l = Ok q /\ good eps (segs q) /\ Forall has_int (segs q) /\ even_law Rabs l (segs q).
Proof. exact abs_list_main. Qed.
Print Assumptions abs_list.

(** C19: a piece that crosses zero is refused. *)
Theorem even_crossing :
  forall s, isDirac s = false -> Rbar_lt (sa s) 0 -> Rbar_lt 0 (sb s) ->
  squareComposition s = Err EAssert /\ absComposition s = Err EAssert.
Proof. exact even_crossing_main. Qed.
Print Assumptions even_crossing.

(** Adding two functions adds their probabilities, interval by interval. *)
Theorem sum_probability :
  forall eps f g, 0 <= eps -> good eps f -> good eps g -> cross_sep eps f g -> Forall has_int f -> Forall has_int g ->
  exists h, operation eps Rplus f g = Ok h /\ good eps (segs h) /\ Forall has_int (segs h) /\
    forall u v, Rbar_le u v -> pprob (segs h) u v = pprob f u v + pprob g u v.
Proof. exact sum_probability_main. Qed.
Print Assumptions sum_probability.
