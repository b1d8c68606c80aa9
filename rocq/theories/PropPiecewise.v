(** Property theorems (Piecewise). Proofs are in PiecewiseMain.v and the files it imports. *)
From Coq Require Import Reals Lra Lia List Bool Arith Sorted Permutation.
From Coquelicot Require Import Coquelicot.
From Verif Require Import Base Bisect BisectFacts Seg Piecewise PiecewiseSpec PiecewiseFacts PiecewiseFacts2 PiecewiseFacts3 PiecewiseFacts4 SplitFacts.
From Verif Require Import PiecewiseMain.
Import List ListNotations.
Open Scope R_scope.

(** C01: the comparison used to sort pieces is a strict partial order, > is its mirror image, and
    two pieces are incomparable exactly when they span the same interval or one lies strictly
    inside the other. *)
Theorem segment_order :
  (forall s, seg_lt s s = false) /\
  (forall s t u, seg_lt s t = true -> seg_lt t u = true -> seg_lt s u = true) /\
  (forall s t, seg_gt s t = seg_lt t s) /\
  (forall s t, seg_lt s t = false /\ seg_gt s t = false <->
     (sa s = sa t /\ sb s = sb t) \/
     (Rbar_lt (sa s) (sa t) /\ Rbar_lt (sb t) (sb s)) \/
     (Rbar_lt (sa t) (sa s) /\ Rbar_lt (sb s) (sb t))).
Proof. exact segment_order_main. Qed.
Print Assumptions segment_order.

(** C02: adding pairwise compatible pieces, in any order, to an empty function never raises, keeps
    every piece, and leaves the pieces sorted from left to right without overlap. *)
Theorem addSegment_sorted_complete :
  forall eps l, Forall wf_seg l -> all_compatible eps l ->
  exists q, addAll eps empty_pwf l = Ok q /\ Permutation l (segs q) /\
            StronglySorted (fun s t => Rbar_le (sb s) (sa t)) (segs q).
Proof. exact addSegment_sorted_complete_main. Qed.
Print Assumptions addSegment_sorted_complete.

(** C03: the order of the additions is irrelevant. *)
Theorem addSegment_order_irrelevant :
  forall eps l l' q q', Forall wf_seg l -> all_compatible eps l -> Permutation l l' ->
  addAll eps empty_pwf l = Ok q -> addAll eps empty_pwf l' = Ok q' ->
  segs q = segs q' /\ brks q = brks q' /\
  (forall x, call_scalar (segs q) x = call_scalar (segs q') x /\ call_vec (segs q) x = call_vec (segs q') x).
Proof. exact addSegment_order_irrelevant_main. Qed.
Print Assumptions addSegment_order_irrelevant.

(** C04: a successful sequence of additions, to any function, changes the total atomic mass by
    exactly the mass of the atoms added. *)
Theorem addSegment_mass_conserved :
  forall eps l p q, addAll eps p l = Ok q ->
  atom_mass (segs q) = atom_mass (segs p) + atom_mass l.
Proof. exact addSegment_mass_conserved_main. Qed.
Print Assumptions addSegment_mass_conserved.

(** C05: an atom added strictly inside an existing piece (and not near another atom) ends up at the
    left end of that piece, not where it was asked for; if the left end is -inf it is placed there. *)
Theorem addSegment_atom_relocated :
  forall eps p s (x m : R),
  ordered (segs p) -> Forall wf_seg (segs p) -> In s (segs p) ->
  Rbar_lt (sa s) x -> Rbar_lt x (sb s) ->
  (forall b k, In (DiracSeg b k) (segs p) -> eps < Rabs (x - b)) ->
  match sa s with
  | Finite a => exists q, addSegment eps p (DiracSeg x m) = Ok q /\ a <> x /\
                  (In (DiracSeg a m) (segs q)) /\ (forall k, ~ In (DiracSeg x k) (segs q)) /\
                  (forall t, In t (segs p) -> In t (segs q))
  | _ => addSegment eps p (DiracSeg x m) = Err EMInfAtom
  end.
Proof. exact addSegment_atom_relocated_main. Qed.
Print Assumptions addSegment_atom_relocated.

(** C06, first half: on a gap-free function without atoms the scalar call returns the value of the
    piece [a,b) containing x, the value of the last piece at its right end, and 0 elsewhere. *)
Theorem scalar_lookup :
  forall l (x : R), l <> [] -> gap_free l -> exists v, call_scalar l x = Ok v /\ has_value l x v.
Proof. exact scalar_lookup_main. Qed.
Print Assumptions scalar_lookup.

(** C06, second half: at a point of a gap between two consecutive pieces the scalar call evaluates
    the function of the piece to the right of the gap, outside its interval. *)
Theorem scalar_lookup_gap :
  forall l l1 s t l2 (x : R), ordered l -> Forall wf_seg l -> l = l1 ++ s :: t :: l2 ->
  isDirac t = false -> Rbar_lt (sb s) x -> Rbar_lt x (sa t) -> call_scalar l x = Ok (sf t x).
Proof. exact scalar_lookup_gap_main. Qed.
Print Assumptions scalar_lookup_gap.

(** C07: scalar and vector evaluation agree on gap-free functions without atoms. *)
Theorem scalar_vector_agree :
  forall l (x : R), l <> [] -> gap_free l -> call_scalar l x = Ok (call_vec l x).
Proof. exact scalar_vector_agree_main. Qed.
Print Assumptions scalar_vector_agree.

(** C07: with a gap they need not agree. *)
Theorem scalar_vector_gap_refuted :
  exists l (x : R), ordered l /\ Forall continuous_piece l /\ call_scalar l x <> Ok (call_vec l x).
Proof. exact scalar_vector_gap_refuted_main. Qed.
Print Assumptions scalar_vector_gap_refuted.

(** C07: nor at an atom: the scalar call returns 1 at the position of an atom, the vector call the
    value of the continuous piece starting there. *)
Theorem scalar_vector_atom_refuted :
  exists l (x : R), ordered l /\ Forall wf_seg l /\ getSegments l <> [] /\
    call_scalar l x = Ok 1 /\ call_vec l x = 3.
Proof. exact scalar_vector_atom_refuted_main. Qed.
Print Assumptions scalar_vector_atom_refuted.

(** C08: the reported breakpoints are strictly increasing and are exactly the piece ends, and the
    attribute maintained by addSegment agrees with getBreaks after any successful additions. *)
Theorem breaks_exact :
  (forall l, StronglySorted Rbar_lt (getBreaks l) /\
     (forall x, In x (getBreaks l) <-> exists s, In s l /\ (x = sa s \/ x = sb s))) /\
  (forall eps l q, addAll eps empty_pwf l = Ok q -> brks q = getBreaks (segs q)).
Proof. exact breaks_exact_main. Qed.
Print Assumptions breaks_exact.

(** C09: splitting at increasing points keeps the value everywhere, the atoms, the order, and leaves
    no split point strictly inside a piece; a pole stays at the end where it was. *)
Theorem split_same_function :
  forall eps l pts, StronglySorted Rbar_lt pts -> ordered l -> Forall wf_seg l -> dirac_sep eps l ->
  exists q, splitByPoints eps l pts = Ok q /\ ordered (segs q) /\ Forall wf_seg (segs q) /\
    (forall x : R, call_vec (segs q) x = call_vec l x) /\
    getDiracs (segs q) = getDiracs l /\
    (forall s y, In s (segs q) -> In y pts -> ~ (Rbar_lt (sa s) y /\ Rbar_lt y (sb s))) /\
    (forall x, (exists t, In t (segs q) /\ hasLeftPole t = true /\ sa t = x) <-> (exists s, In s l /\ hasLeftPole s = true /\ sa s = x)) /\
    (forall x, (exists t, In t (segs q) /\ hasRightPole t = true /\ sb t = x) <-> (exists s, In s l /\ hasRightPole s = true /\ sb s = x)).
Proof. exact split_same_function_main. Qed.
Print Assumptions split_same_function.

(** C09: with the split points out of order the call fails (an inverted piece is built and
    rejected), whatever the piece. *)
Theorem split_unsorted_refuted :
  forall eps a b f (y z : R), a < z -> z < y -> y < b ->
  splitByPoints eps [Seg a b f] [Finite y; Finite z] = Err EAssert.
Proof. exact split_unsorted_refuted_main. Qed.
Print Assumptions split_unsorted_refuted.

(** C10: restriction keeps exactly the part of each piece in [a,b), the function on it, and the atoms
    with a <= position < b. *)
Theorem restrict_exact :
  forall eps l a b, Rbar_lt a b -> ordered l -> Forall wf_seg l -> dirac_sep eps l ->
  exists q, restrictToInterval eps l a b = Ok q /\
   (forall (x : R) f,
     (exists u, In u (segs q) /\ isDirac u = false /\ covers u x /\ sf u = f) <->
     (Rbar_le a x /\ Rbar_lt x b /\ exists s, In s l /\ isDirac s = false /\ covers s x /\ sf s = f)) /\
   (forall d m, In (DiracSeg d m) (segs q) <-> In (DiracSeg d m) l /\ Rbar_le a d /\ Rbar_lt d b) /\
   (forall s, In s (segs q) -> Rbar_le a (sa s) /\ Rbar_le (sb s) b).
Proof. exact restrict_exact_main. Qed.
Print Assumptions restrict_exact.

(** C11: away from the breakpoints of both functions, a pointwise operation with op 0 0 = 0 has the
    pointwise value, each function counting as 0 off its pieces. *)
Theorem operation_pointwise :
  forall eps op f g, 0 <= eps ->
  ordered f -> ordered g -> Forall wf_seg f -> Forall wf_seg g ->
  dirac_sep eps f -> dirac_sep eps g -> cross_sep eps f g -> op 0 0 = 0 ->
  exists h, operation eps op f g = Ok h /\
    forall x : R, ~ is_end f x -> ~ is_end g x ->
      call_vec (segs h) x = op (call_vec f x) (call_vec g x).
Proof. exact operation_pointwise_main. Qed.
Print Assumptions operation_pointwise.

(** C12: f + r, f * r, r - f are pointwise on the pieces (and act on atom masses in the same way);
    f - r computes r - f; f / r raises.  (r / f is pointwise where f does not vanish.) *)
Theorem number_operators :
  forall eps l r, ordered l -> Forall wf_seg l -> dirac_sep eps l ->
  number_op l (add_num eps l r) (fun v => v + r) /\
  number_op l (mul_num eps l r) (fun v => v * r) /\
  number_op l (rsub_num eps r l) (fun v => r - v) /\
  number_op l (sub_num eps l r) (fun v => r - v) /\
  number_op l (rtruediv_num eps r l) (fun v => r / v) /\
  truediv_num eps l r = Err EType.
Proof. exact number_operators_main. Qed.
Print Assumptions number_operators.

(** C12: hence f - r is wrong on every piece at every point where f <> r. *)
Theorem sub_number_refuted :
  forall eps l r s (x : R), ordered l -> Forall wf_seg l -> dirac_sep eps l ->
  In s l -> isDirac s = false -> covers s x -> sf s x <> r ->
  exists q, sub_num eps l r = Ok q /\ call_vec (segs q) x <> sf s x - r.
Proof. exact sub_number_refuted_main. Qed.
Print Assumptions sub_number_refuted.

(** C13: the atoms of a pointwise operation: present in both functions -> op of the masses; present in
    one function only -> that mass unchanged. *)
Theorem operation_atoms :
  forall eps op f g, 0 <= eps ->
  ordered f -> ordered g -> Forall wf_seg f -> Forall wf_seg g ->
  dirac_sep eps f -> dirac_sep eps g -> cross_sep eps f g ->
  exists h, operation eps op f g = Ok h /\ ordered (segs h) /\
   forall x m, In (DiracSeg x m) (segs h) <->
     (exists mf mg, In (DiracSeg x mf) f /\ In (DiracSeg x mg) g /\ m = op mf mg) \/
     (In (DiracSeg x m) f /\ forall k, ~ In (DiracSeg x k) g) \/
     (In (DiracSeg x m) g /\ forall k, ~ In (DiracSeg x k) f).
Proof. exact operation_atoms_main. Qed.
Print Assumptions operation_atoms.

(** C13: consequently f - g carries an atom that only g has with the sign of +g. *)
Theorem sub_atom_sign_refuted :
  forall eps f g x m, 0 <= eps ->
  ordered f -> ordered g -> Forall wf_seg f -> Forall wf_seg g ->
  dirac_sep eps f -> dirac_sep eps g -> cross_sep eps f g ->
  In (DiracSeg x m) g -> (forall k, ~ In (DiracSeg x k) f) -> m <> 0 ->
  exists h, operation eps Rminus f g = Ok h /\ In (DiracSeg x m) (segs h) /\ ~ In (DiracSeg x (- m)) (segs h).
Proof. exact sub_atom_sign_refuted_main. Qed.
Print Assumptions sub_atom_sign_refuted.
