(** Property theorems (SegInt). Proofs are in SegIntMain.v and the files it imports. *)
From Coq Require Import Reals Lra List Bool Sorted Permutation.
From Coquelicot Require Import Coquelicot.
From Verif Require Import Base Bisect Seg Piecewise PiecewiseSpec PiecewiseFacts PiecewiseFacts2 PiecewiseFacts4 PiecewiseMain Integral IntegralFacts SegInt SegIntSpec SegIntFacts CumintFacts CumintFacts2.
Import List ListNotations.
Open Scope R_scope.
From Verif Require Import SegIntMain.
Import List ListNotations.
Open Scope R_scope.

(** C14: on a subinterval of the piece, the result is the (possibly improper) Riemann integral of the
    piece's function over that interval. *)
Theorem integrate_exact :
  forall s u v, isDirac s = false -> wf_seg s -> integrable_piece s ->
  Rbar_le (sa s) u -> Rbar_lt u v -> Rbar_le v (sb s) ->
  is_RInt_gen (sf s) (at_r u) (at_l v) (seg_integrate s u v).
Proof. exact integrate_exact_main. Qed.
Print Assumptions integrate_exact.

(** C14: the integral over [u,w] is the sum of those over [u,v] and [v,w], for all extended reals
    u <= v <= w, wherever they lie relative to the piece; it is 0 when the interval misses the piece,
    and non-negative for a non-negative density.  Every piece kind except constants and atoms. *)
Theorem integrate_additive :
  forall s u v w, isDirac s = false -> isConst s = false -> wf_seg s -> integrable_piece s ->
  Rbar_le u v -> Rbar_le v w ->
  seg_integrate s u w = seg_integrate s u v + seg_integrate s v w /\
  (Rbar_le v (sa s) \/ Rbar_le (sb s) u -> seg_integrate s u v = 0) /\
  (nonneg_piece s -> 0 <= seg_integrate s u v).
Proof. exact integrate_additive_main. Qed.
Print Assumptions integrate_additive.

(** C14: a constant piece gives the right result exactly when the interval meets the piece; for an
    interval that lies to the right or to the left of it, the result is the negated area between the
    interval and the piece instead of 0. *)
Theorem integrate_const :
  forall (a b c u v : R), a < b -> u <= v ->
  (Rmax u a <= Rmin v b -> seg_integrate (ConstSeg a b c) u v = c * (Rmin v b - Rmax u a)) /\
  (v < a -> seg_integrate (ConstSeg a b c) u v = - (c * (a - v))) /\
  (b < u -> seg_integrate (ConstSeg a b c) u v = - (c * (u - b))).
Proof. exact integrate_const_main. Qed.
Print Assumptions integrate_const.

(** C14: hence a positive constant density has negative probability on every interval beyond it. *)
Theorem integrate_const_negative_refuted :
  forall a b c : R, a < b -> 0 < c ->
  exists u v : R, u < v /\ seg_integrate (ConstSeg a b c) u v < 0 /\ pw_integrate [ConstSeg a b c] u v < 0.
Proof. exact integrate_const_negative_refuted_main. Qed.
Print Assumptions integrate_const_negative_refuted.

(** C15: an atom contributes its mass exactly when it lies strictly inside the interval, or the
    interval is the single point. *)
Theorem integrate_atom :
  (forall a m u v, m <> 0 ->
    (seg_integrate (DiracSeg a m) u v = m <-> (Rbar_lt u a /\ Rbar_lt a v) \/ (u = a /\ v = a)) /\
    (seg_integrate (DiracSeg a m) u v = 0 <-> ~ ((Rbar_lt u a /\ Rbar_lt a v) \/ (u = a /\ v = a)))) /\
  (forall (a m : R) u v, Rbar_lt u a -> Rbar_lt a v ->
    seg_integrate (DiracSeg a m) u v = m /\
    seg_integrate (DiracSeg a m) u a + seg_integrate (DiracSeg a m) a v = 0).
Proof. exact integrate_atom_main. Qed.
Print Assumptions integrate_atom.

(** C14/C15: integrating a whole function over (-inf,inf) gives its total mass; and over adjacent
    intervals it is additive as long as no atom sits at the common end (constant pieces excluded). *)
Theorem pw_integrate_total :
  forall l, Forall wf_seg l -> Forall integrable_piece l ->
  pw_integrate l m_infty p_infty = total_mass l /\
  (forall u v w, Rbar_lt u v -> Rbar_lt v w -> (forall s, In s l -> isConst s = false) ->
     (forall a m, In (DiracSeg a m) l -> v <> a) ->
     pw_integrate l u w = pw_integrate l u v + pw_integrate l v w).
Proof. exact pw_integrate_total_main. Qed.
Print Assumptions pw_integrate_total.

(** C16: the function built by cumint is, at every real number and for scalar and vector calls alike,
    the sum of the probabilities of the parts of the pieces at or left of it. *)
Theorem cdf_exact :
  forall eps l, density l ->
  exists q, cumint eps l = Ok q /\ gap_free (segs q) /\ brks q = getBreaks (segs q) /\
   forall x : R, call_scalar (segs q) x = Ok (cdf_spec l x) /\ call_vec (segs q) x = cdf_spec l x.
Proof. exact cdf_exact_main. Qed.
Print Assumptions cdf_exact.

(** C16: that function is a distribution function: between 0 and the total mass and non-decreasing
    (for a non-negative density), 0 left of the support, the total mass from its right end on,
    right-continuous, with a jump at x equal to the mass of the atom at x, and with the right limits at
    infinity. *)
Theorem cdf_distribution_function :
  forall eps l q, density l -> Forall nonneg_piece l -> cumint eps l = Ok q ->
  let F := call_vec (segs q) in
  (forall x y, x <= y -> 0 <= F x /\ F x <= F y /\ F y <= total_mass l) /\
  (forall x : R, (forall s, In s l -> Rbar_lt x (sa s)) -> F x = 0) /\
  (forall x : R, (forall s, In s l -> Rbar_le (sb s) x) -> F x = total_mass l) /\
  (forall x, filterlim F (at_right x) (locally (F x))) /\
  (forall x, filterlim F (at_left x) (locally (F x - sumR (map (fun s => match s with DiracSeg a m => if Req_EM_T a x then m else 0 | _ => 0 end) l)))) /\
  filterlim F (Rbar_locally m_infty) (locally 0) /\
  filterlim F (Rbar_locally p_infty) (locally (total_mass l)).
Proof. exact cdf_distribution_function_main. Qed.
Print Assumptions cdf_distribution_function.

(** C16: without gap-freeness the property fails: a density of total mass 1, uniform on [0,1] and
    [2,3], whose CDF decreases, because the constant piece right of the gap is extrapolated. *)
Theorem cdf_gap_refuted :
  exists eps l q, Forall wf_seg l /\ Forall integrable_piece l /\ Forall nonneg_piece l /\ ordered l /\
    total_mass l = 1 /\ cumint eps l = Ok q /\
    call_scalar (segs q) (3 / 4) = Ok (3 / 8) /\ call_scalar (segs q) (3 / 2) = Ok (1 / 4).
Proof. exact cdf_gap_refuted_main. Qed.
Print Assumptions cdf_gap_refuted.

(** C16: nor does it hold for a function that consists of separated atoms only: the steps between
    the atoms are lost. *)
Theorem cdf_atoms_only_refuted :
  exists eps l q, Forall wf_seg l /\ ordered l /\ dirac_sep eps l /\ total_mass l = 1 /\ cumint eps l = Ok q /\
    cdf_spec l (1 / 2) = 1 / 2 /\ call_scalar (segs q) (1 / 2) = Ok 0.
Proof. exact cdf_atoms_only_refuted_main. Qed.
Print Assumptions cdf_atoms_only_refuted.
