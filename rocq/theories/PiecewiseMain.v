(** Main lemmas about the structural part of piecewise functions (C01-C13). *)
From Coq Require Import Reals Lra Lia List Bool Arith Sorted Permutation.
From Coquelicot Require Import Coquelicot.
From Verif Require Import Base Bisect BisectFacts Seg Piecewise PiecewiseSpec PiecewiseFacts PiecewiseFacts2 PiecewiseFacts3 PiecewiseFacts4 SplitFacts.
Import List ListNotations.
Open Scope R_scope.

(** C01: the comparison used to sort pieces is a strict partial order, > is its mirror image, and
    two pieces are incomparable exactly when they span the same interval or one lies strictly
    inside the other. *)
Lemma segment_order_main :
  (forall s, seg_lt s s = false) /\
  (forall s t u, seg_lt s t = true -> seg_lt t u = true -> seg_lt s u = true) /\
  (forall s t, seg_gt s t = seg_lt t s) /\
  (forall s t, seg_lt s t = false /\ seg_gt s t = false <->
     (sa s = sa t /\ sb s = sb t) \/
     (Rbar_lt (sa s) (sa t) /\ Rbar_lt (sb t) (sb s)) \/
     (Rbar_lt (sa t) (sa s) /\ Rbar_lt (sb s) (sb t))).
Proof.
  splits; [exact seg_lt_irrefl|exact seg_lt_trans|exact seg_gt_lt|].
  intros s t. rewrite seg_gt_lt. apply seg_incomparable.
Qed.

(** C02: adding pairwise compatible pieces, in any order, to an empty function never raises, keeps
    every piece, and leaves the pieces sorted from left to right without overlap. *)
Lemma addSegment_sorted_complete_main :
  forall eps l, Forall wf_seg l -> all_compatible eps l ->
  exists q, addAll eps empty_pwf l = Ok q /\ Permutation l (segs q) /\
            StronglySorted (fun s t => Rbar_le (sb s) (sa t)) (segs q).
Proof.
  intros eps l W C.
  destruct (addAll_compatible eps l empty_pwf) as (q & H1 & H2 & H3 & H4); auto; try apply SSorted_nil; try apply Forall_nil.
  - intros s t _ [].
  - exists q. splits; auto. clear -H3. induction H3; constructor; auto.
    eapply Forall_impl; [|exact H]. intros t [? _]; auto.
Qed.

(** C03: the order of the additions is irrelevant. *)
Lemma addSegment_order_irrelevant_main :
  forall eps l l' q q', Forall wf_seg l -> all_compatible eps l -> Permutation l l' ->
  addAll eps empty_pwf l = Ok q -> addAll eps empty_pwf l' = Ok q' ->
  segs q = segs q' /\ brks q = brks q' /\
  (forall x, call_scalar (segs q) x = call_scalar (segs q') x /\ call_vec (segs q) x = call_vec (segs q') x).
Proof.
  intros eps l l' q q' W C P E E'.
  assert (W' : Forall wf_seg l').
  { rewrite Forall_forall in W |- *. intros s Hs. apply W. eapply Permutation_in; [symmetry; eauto|auto]. }
  assert (C' : all_compatible eps l') by (eapply FOP_perm; eauto using compatible_sym).
  destruct (addAll_compatible eps l empty_pwf) as (p & H1 & H2 & H3 & H4); auto; try apply SSorted_nil; try apply Forall_nil.
  { intros s t _ []. }
  destruct (addAll_compatible eps l' empty_pwf) as (p' & K1 & K2 & K3 & K4); auto; try apply SSorted_nil; try apply Forall_nil.
  { intros s t _ []. }
  assert (p = q) by congruence. assert (p' = q') by congruence. subst p p'. simpl in H2, K2.
  assert (Q : segs q = segs q').
  { apply ordered_unique; auto. rewrite <- H2, <- K2. auto. }
  splits; auto.
  - rewrite (breaks_ok_eq q), (breaks_ok_eq q'), Q; auto.
    + eapply addAll_breaks; [apply empty_breaks|exact K1].
    + eapply addAll_breaks; [apply empty_breaks|exact H1].
  - intros x. rewrite Q. auto.
Qed.

(** C04: a successful sequence of additions, to any function, changes the total atomic mass by
    exactly the mass of the atoms added. *)
Lemma addSegment_mass_conserved_main :
  forall eps l p q, addAll eps p l = Ok q ->
  atom_mass (segs q) = atom_mass (segs p) + atom_mass l.
Proof. intros. eapply addAll_mass; eauto. Qed.

(** C05: an atom added strictly inside an existing piece (and not near another atom) ends up at the
    left end of that piece, not where it was asked for; if the left end is -inf it is placed there. *)
Lemma addSegment_atom_relocated_main :
  forall eps p s (x m : R),
  ordered (segs p) -> Forall wf_seg (segs p) -> In s (segs p) ->
  Rbar_lt (sa s) x -> Rbar_lt x (sb s) ->
  (forall b k, In (DiracSeg b k) (segs p) -> eps < Rabs (x - b)) ->
  match sa s with
  | Finite a => exists q, addSegment eps p (DiracSeg x m) = Ok q /\ a <> x /\
                  (In (DiracSeg a m) (segs q)) /\ (forall k, ~ In (DiracSeg x k) (segs q)) /\
                  (forall t, In t (segs p) -> In t (segs q))
  | _ => addSegment eps p (DiracSeg x m) = Err EMInfAtom
  end.
Proof.
  intros eps p s x m O W Hs L1 L2 Hd.
  destruct (add_inside eps p s x m O W Hs L1 L2 Hd) as (l1 & l2 & E & H).
  destruct (sa s) as [a| |] eqn:Ea; auto. destruct H as (q & H1 & H2). exists q. splits; auto.
  - intros ->. exact (Rbar_lt_irrefl _ L1).
  - rewrite H2. apply in_or_app; simpl; auto.
  - intros k Hk. rewrite H2 in Hk. apply in_app_iff in Hk.
    assert (Hx : a <> x) by (intros ->; exact (Rbar_lt_irrefl _ L1)).
    assert (NI : ~ In (DiracSeg x k) (segs p)).
    { intros C. rewrite E in C, O. apply SS_app in O. destruct O as (_ & O & O2).
      apply in_app_iff in C. destruct C as [C|[C|C]].
      - destruct (O2 (DiracSeg x k) s) as [B _]; simpl; auto. cbn [sb] in B. rewrite Ea in B.
        simpl in B, L1. lra.
      - subst s. simpl in Ea. congruence.
      - apply StronglySorted_inv in O. destruct O as [_ F]. rewrite Forall_forall in F.
        destruct (F _ C) as [B _]. cbn [sa] in B. exact (Rbar_lt_not_le _ _ L2 B). }
    apply NI. rewrite E. apply in_app_iff. destruct Hk as [Hk|[Hk|Hk]]; auto; congruence.
  - intros t Ht. rewrite H2. rewrite E in Ht. apply in_app_iff in Ht. apply in_app_iff. simpl. tauto.
Qed.

(** C06, first half: on a gap-free function without atoms the scalar call returns the value of the
    piece [a,b) containing x, the value of the last piece at its right end, and 0 elsewhere. *)
Lemma scalar_lookup_main :
  forall l (x : R), l <> [] -> gap_free l -> exists v, call_scalar l x = Ok v /\ has_value l x v.
Proof. intros. apply call_scalar_gap_free; auto. Qed.

(** C06, second half: at a point of a gap between two consecutive pieces the scalar call evaluates
    the function of the piece to the right of the gap, outside its interval. *)
Lemma scalar_lookup_gap_main :
  forall l l1 s t l2 (x : R), ordered l -> Forall wf_seg l -> l = l1 ++ s :: t :: l2 ->
  isDirac t = false -> Rbar_lt (sb s) x -> Rbar_lt x (sa t) -> call_scalar l x = Ok (sf t x).
Proof.
  intros l l1 s t l2 x O W E D H1 H2. unfold call_scalar.
  rewrite (find_in_gap l l1 s t l2 x O W E H1 H2). simpl. rewrite D. reflexivity.
Qed.

(** C07: scalar and vector evaluation agree on gap-free functions without atoms. *)
Lemma scalar_vector_agree_main :
  forall l (x : R), l <> [] -> gap_free l -> call_scalar l x = Ok (call_vec l x).
Proof. intros. apply scalar_vec_agree; auto. Qed.

(** C07: with a gap they need not agree. *)
Lemma scalar_vector_gap_refuted_main :
  exists l (x : R), ordered l /\ Forall continuous_piece l /\ call_scalar l x <> Ok (call_vec l x).
Proof.
  exists [Seg 0 1 (fun _ => 1); Seg 2 3 (fun _ => 1)], (3/2).
  assert (O : ordered [Seg 0 1 (fun _ => 1); Seg 2 3 (fun _ => 1)]).
  { repeat constructor; simpl; try lra. intros H; injection H; lra. }
  assert (C : Forall continuous_piece [Seg 0 1 (fun _ => 1); Seg 2 3 (fun _ => 1)]).
  { repeat constructor; simpl; lra. }
  splits; auto.
  rewrite (scalar_lookup_gap_main _ [] (Seg 0 1 (fun _ => 1)) (Seg 2 3 (fun _ => 1)) [] (3/2) O); auto.
  - unfold call_vec; simpl.
    replace (ble 2 (3/2)) with false by (symmetry; apply ble_false; simpl; lra).
    replace (blt (3/2) 1) with false by (symmetry; apply blt_false; simpl; lra).
    rewrite andb_false_r. simpl.
    replace (beq (3/2) 3) with false by (symmetry; apply beq_false; intros H; injection H; lra).
    intros H; injection H; lra.
  - eapply Forall_impl; [|exact C]. intros s [_ ?]; auto.
  - simpl; lra.
  - simpl; lra.
Qed.

(** C07: nor at an atom: the scalar call returns 1 at the position of an atom, the vector call the
    value of the continuous piece starting there. *)
Lemma scalar_vector_atom_refuted_main :
  exists l (x : R), ordered l /\ Forall wf_seg l /\ getSegments l <> [] /\
    call_scalar l x = Ok 1 /\ call_vec l x = 3.
Proof.
  exists [Seg 0 1 (fun _ => 3); DiracSeg 1 (1/2); Seg 1 2 (fun _ => 3)], 1.
  splits.
  - repeat constructor; simpl; try lra; intros H; injection H; lra.
  - repeat constructor; simpl; lra.
  - discriminate.
  - unfold call_scalar, findSegment.
    replace (bisect_left seg_lt [Seg 0 1 (fun _ => 3); DiracSeg 1 (1/2); Seg 1 2 (fun _ => 3)] (DiracSeg 1 0)) with 1%nat.
    + simpl. rewrite req_refl. reflexivity.
    + unfold bisect_left; simpl. unfold seg_lt; simpl.
      replace (blt 1 1) with false by (symmetry; apply blt_false; simpl; lra).
      rewrite !andb_false_r, !andb_false_l; simpl.
      replace (ble 0 1) with true by (symmetry; apply ble_true; simpl; lra).
      replace (blt 0 1) with true by (symmetry; apply blt_true; simpl; lra).
      replace (ble 1 1) with true by (symmetry; apply ble_true; simpl; lra).
      reflexivity.
  - unfold call_vec; simpl.
    replace (beq 1 2) with false by (symmetry; apply beq_false; intros H; injection H; lra).
    replace (ble 1 1) with true by (symmetry; apply ble_true; simpl; lra).
    replace (blt 1 2) with true by (symmetry; apply blt_true; simpl; lra).
    reflexivity.
Qed.

(** C08: the reported breakpoints are strictly increasing and are exactly the piece ends, and the
    attribute maintained by addSegment agrees with getBreaks after any successful additions. *)
Lemma breaks_exact_main :
  (forall l, StronglySorted Rbar_lt (getBreaks l) /\
     (forall x, In x (getBreaks l) <-> exists s, In s l /\ (x = sa s \/ x = sb s))) /\
  (forall eps l q, addAll eps empty_pwf l = Ok q -> brks q = getBreaks (segs q)).
Proof.
  split.
  - intros l. split; [apply getBreaks_sorted|]. intros x. apply getBreaks_In.
  - intros eps l q H. apply breaks_ok_eq. eapply addAll_breaks; [apply empty_breaks|exact H].
Qed.

(** C09: splitting at increasing points keeps the value everywhere, the atoms, the order, and leaves
    no split point strictly inside a piece; a pole stays at the end where it was. *)
Lemma split_same_function_main :
  forall eps l pts, StronglySorted Rbar_lt pts -> ordered l -> Forall wf_seg l -> dirac_sep eps l ->
  exists q, splitByPoints eps l pts = Ok q /\ ordered (segs q) /\ Forall wf_seg (segs q) /\
    (forall x : R, call_vec (segs q) x = call_vec l x) /\
    getDiracs (segs q) = getDiracs l /\
    (forall s y, In s (segs q) -> In y pts -> ~ (Rbar_lt (sa s) y /\ Rbar_lt y (sb s))) /\
    (forall x, (exists t, In t (segs q) /\ hasLeftPole t = true /\ sa t = x) <-> (exists s, In s l /\ hasLeftPole s = true /\ sa s = x)) /\
    (forall x, (exists t, In t (segs q) /\ hasRightPole t = true /\ sb t = x) <-> (exists s, In s l /\ hasRightPole s = true /\ sb s = x)).
Proof.
  intros eps l pts S O W D.
  destruct (splitByPoints_ok eps l pts S O W D) as (q & H1 & H2 & _). exists q. rewrite H2.
  destruct (split_all_ordered pts l S O W) as (A1 & A2 & _).
  splits; auto.
  - intros x. apply call_vec_split; auto.
  - apply split_diracs; auto.
  - intros s y. apply split_no_inside; auto.
  - apply split_all_poles.
  - apply split_all_poles.
Qed.

(** C09: with the split points out of order the call fails (an inverted piece is built and
    rejected), whatever the piece. *)
Lemma split_unsorted_refuted_main :
  forall eps a b f (y z : R), a < z -> z < y -> y < b ->
  splitByPoints eps [Seg a b f] [Finite y; Finite z] = Err EAssert.
Proof.
  intros eps a b f y z H1 H2 H3. unfold splitByPoints, split_seg; simpl.
  replace (blt a y) with true by (symmetry; apply blt_true; simpl; lra).
  replace (blt y b) with true by (symmetry; apply blt_true; simpl; lra).
  replace (blt a z) with true by (symmetry; apply blt_true; simpl; lra).
  replace (blt z b) with true by (symmetry; apply blt_true; simpl; lra).
  simpl. unfold addSegment, split_piece; simpl. unfold add_new; simpl.
  unfold bisect_left; simpl. unfold seg_lt, seg_gt; simpl.
  replace (blt y z) with false by (symmetry; apply blt_false; simpl; lra).
  replace (ble y z) with false by (symmetry; apply ble_false; simpl; lra).
  rewrite !andb_false_r. simpl.
  replace (ble y a) with false by (symmetry; apply ble_false; simpl; lra).
  replace (blt y a) with false by (symmetry; apply blt_false; simpl; lra).
  replace (blt y z) with false by (symmetry; apply blt_false; simpl; lra).
  replace (ble y z) with false by (symmetry; apply ble_false; simpl; lra).
  rewrite !andb_false_r. reflexivity.
Qed.

(** C10: restriction keeps exactly the part of each piece in [a,b), the function on it, and the atoms
    with a <= position < b. *)
Lemma restrict_exact_main :
  forall eps l a b, Rbar_lt a b -> ordered l -> Forall wf_seg l -> dirac_sep eps l ->
  exists q, restrictToInterval eps l a b = Ok q /\
   (forall (x : R) f,
     (exists u, In u (segs q) /\ isDirac u = false /\ covers u x /\ sf u = f) <->
     (Rbar_le a x /\ Rbar_lt x b /\ exists s, In s l /\ isDirac s = false /\ covers s x /\ sf s = f)) /\
   (forall d m, In (DiracSeg d m) (segs q) <-> In (DiracSeg d m) l /\ Rbar_le a d /\ Rbar_lt d b) /\
   (forall s, In s (segs q) -> Rbar_le a (sa s) /\ Rbar_le (sb s) b).
Proof.
  intros eps l a b L O W D.
  destruct (restrict_ok eps l a b L O W D) as (q & H1 & H2). exists q. rewrite H2. splits; auto.
  - intros x f. apply restrict_covers; auto.
  - intros d m. apply restrict_diracs; auto.
  - intros s Hs. apply filter_In in Hs. destruct Hs as [_ Hs]. unfold restrict_keep in Hs.
    destruct (isDirac s); b2p; auto. split; auto. apply Rbar_lt_le; auto.
Qed.

(** C11: away from the breakpoints of both functions, a pointwise operation with op 0 0 = 0 has the
    pointwise value, each function counting as 0 off its pieces. *)
Lemma operation_pointwise_main :
  forall eps op f g, 0 <= eps ->
  ordered f -> ordered g -> Forall wf_seg f -> Forall wf_seg g ->
  dirac_sep eps f -> dirac_sep eps g -> cross_sep eps f g -> op 0 0 = 0 ->
  exists h, operation eps op f g = Ok h /\
    forall x : R, ~ is_end f x -> ~ is_end g x ->
      call_vec (segs h) x = op (call_vec f x) (call_vec g x).
Proof.
  intros eps op f g He Of Og Wf Wg Df Dg Hc H0.
  destruct (operation_value eps op f g He) as (h & H1 & H2); try (split; auto); auto.
  exists h. split; auto. intros x Nf Ng. apply H2; rewrite getBreaks_In; auto.
Qed.

Lemma rop_seg_props op r s : sa (rop_seg op r s) = sa s /\ sb (rop_seg op r s) = sb s /\
  isDirac (rop_seg op r s) = isDirac s /\ (wf_seg s -> wf_seg (rop_seg op r s)) /\
  (isDirac s = false -> forall x, sf (rop_seg op r s) x = op (sf s x) r).
Proof. destruct s; simpl; splits; auto; discriminate. Qed.

Lemma roperation_ok eps op l r :
  ordered l -> Forall wf_seg l -> dirac_sep eps l ->
  exists q, roperation eps op l r = Ok q /\ segs q = map (rop_seg op r) l /\
    ordered (segs q) /\ Forall wf_seg (segs q).
Proof.
  intros O W D.
  assert (O' : ordered (map (rop_seg op r) l)).
  { eapply ordered_ends; [|exact O]. rewrite map_map. apply map_ext. intros s.
    destruct (rop_seg_props op r s) as (-> & -> & _). reflexivity. }
  assert (W' : Forall wf_seg (map (rop_seg op r) l)).
  { apply Forall_forall. intros s Hs. apply in_map_iff in Hs. destruct Hs as (t & <- & Ht).
    apply rop_seg_props. rewrite Forall_forall in W; auto. }
  assert (D' : dirac_sep eps (map (rop_seg op r) l)).
  { apply dirac_sep_pos. replace (dirac_pos (map (rop_seg op r) l)) with (dirac_pos l).
    - apply dirac_sep_pos; auto.
    - clear. induction l as [|s l IH]; simpl; auto. destruct s; simpl; rewrite IH; auto. }
  destruct (addAll_ordered eps _ O' W' D') as (q & H1 & H2 & _).
  exists q. rewrite H2. splits; auto.
Qed.

Lemma call_vec_covers l s (x : R) :
  ordered l -> Forall wf_seg l -> In s l -> isDirac s = false -> covers s x -> call_vec l x = sf s x.
Proof.
  intros O W Hs D C. destruct (call_vec_value l x O W) as [(t & H1 & H2 & H3 & H4)|(H1 & _)].
  - rewrite H4. f_equal. apply getSegments_cont in H1. apply (ordered_cover_unique l t s x); tauto.
  - exfalso. apply (H1 s); auto. apply getSegments_cont; auto.
Qed.

Lemma roperation_number eps op l r :
  ordered l -> Forall wf_seg l -> dirac_sep eps l ->
  number_op l (roperation eps op l r) (fun v => op v r).
Proof.
  intros O W D. destruct (roperation_ok eps op l r O W D) as (q & H1 & H2 & H3 & H4).
  exists q. splits; auto.
  - rewrite H2, map_map. apply map_ext. intros s.
    destruct (rop_seg_props op r s) as (-> & -> & _). reflexivity.
  - intros s x Hs Ds Cs. destruct (rop_seg_props op r s) as (E1 & E2 & E3 & _ & E5).
    rewrite (call_vec_covers (segs q) (rop_seg op r s) x); auto.
    + rewrite H2. apply in_map; auto.
    + congruence.
    + unfold covers. rewrite E1, E2. exact Cs.
  - intros a m H. rewrite H2. change (DiracSeg a (op m r)) with (rop_seg op r (DiracSeg a m)).
    apply in_map; auto.
Qed.

(** C12: f + r, f * r, r - f are pointwise on the pieces (and act on atom masses in the same way);
    f - r computes r - f; f / r raises.  (r / f is pointwise where f does not vanish.) *)
Lemma number_operators_main :
  forall eps l r, ordered l -> Forall wf_seg l -> dirac_sep eps l ->
  number_op l (add_num eps l r) (fun v => v + r) /\
  number_op l (mul_num eps l r) (fun v => v * r) /\
  number_op l (rsub_num eps r l) (fun v => r - v) /\
  number_op l (sub_num eps l r) (fun v => r - v) /\
  number_op l (rtruediv_num eps r l) (fun v => r / v) /\
  truediv_num eps l r = Err EType.
Proof.
  intros eps l r O W D. splits; auto.
  - apply (roperation_number eps Rplus); auto.
  - apply (roperation_number eps Rmult); auto.
  - apply (roperation_number eps op_rsub); auto.
  - apply (roperation_number eps op_rsub); auto.
  - apply (roperation_number eps op_rdiv); auto.
Qed.

(** C12: hence f - r is wrong on every piece at every point where f <> r. *)
Lemma sub_number_refuted_main :
  forall eps l r s (x : R), ordered l -> Forall wf_seg l -> dirac_sep eps l ->
  In s l -> isDirac s = false -> covers s x -> sf s x <> r ->
  exists q, sub_num eps l r = Ok q /\ call_vec (segs q) x <> sf s x - r.
Proof.
  intros eps l r s x O W D Hs Ds Cs N.
  destruct (number_operators_main eps l r O W D) as (_ & _ & _ & (q & H1 & _ & _ & H4 & _) & _).
  exists q. split; auto. rewrite (H4 s x); auto. intros E. apply N. lra.
Qed.

(** C13: the atoms of a pointwise operation: present in both functions -> op of the masses; present in
    one function only -> that mass unchanged. *)
Lemma operation_atoms_main :
  forall eps op f g, 0 <= eps ->
  ordered f -> ordered g -> Forall wf_seg f -> Forall wf_seg g ->
  dirac_sep eps f -> dirac_sep eps g -> cross_sep eps f g ->
  exists h, operation eps op f g = Ok h /\ ordered (segs h) /\
   forall x m, In (DiracSeg x m) (segs h) <->
     (exists mf mg, In (DiracSeg x mf) f /\ In (DiracSeg x mg) g /\ m = op mf mg) \/
     (In (DiracSeg x m) f /\ forall k, ~ In (DiracSeg x k) g) \/
     (In (DiracSeg x m) g /\ forall k, ~ In (DiracSeg x k) f).
Proof.
  intros eps op f g He Of Og Wf Wg Df Dg Hc.
  destruct (operation_ok eps op f g He) as (h & H1 & (H2 & H3 & H4) & _ & H5); try (split; auto); auto.
  pose proof (sep_nodup eps _ He Df) as Nf. pose proof (sep_nodup eps _ He Dg) as Ng.
  pose proof (sep_nodup eps _ He H4) as Nh.
  exists h. splits; auto. intros x m.
  rewrite <- (mass_at_iff (segs h) x m Nh), H5.
  assert (NN : forall l, atoms_nodup l -> (mass_at l x = None <-> forall k, ~ In (DiracSeg x k) l)).
  { intros l Nl. rewrite mass_at_none by auto. rewrite dirac_pos_In. split.
    - intros H k C. apply H; eauto.
    - intros H (k & C). apply (H k C). }
  rewrite <- (NN f Nf), <- (NN g Ng), <- (mass_at_iff f x m Nf), <- (mass_at_iff g x m Ng).
  assert (EX : (exists mf mg, In (DiracSeg x mf) f /\ In (DiracSeg x mg) g /\ m = op mf mg) <->
               (exists mf mg, mass_at f x = Some mf /\ mass_at g x = Some mg /\ m = op mf mg)).
  { split; intros (mf & mg & K1 & K2 & K3); exists mf, mg; splits; auto; apply mass_at_iff; auto. }
  rewrite EX. destruct (mass_at f x) as [u|]; destruct (mass_at g x) as [v|]; simpl.
  - split.
    + intros E; injection E as <-. left. eauto.
    + intros [(mf & mg & K1 & K2 & ->)|[[K1 K2]|[K1 K2]]]; congruence.
  - split.
    + intros E; injection E as <-. auto.
    + intros [(mf & mg & K1 & K2 & ->)|[[K1 K2]|[K1 K2]]]; congruence.
  - split.
    + intros E; injection E as <-. auto.
    + intros [(mf & mg & K1 & K2 & ->)|[[K1 K2]|[K1 K2]]]; congruence.
  - split; [discriminate|].
    intros [(mf & mg & K1 & K2 & ->)|[[K1 K2]|[K1 K2]]]; congruence.
Qed.

(** C13: consequently f - g carries an atom that only g has with the sign of +g. *)
Lemma sub_atom_sign_refuted_main :
  forall eps f g x m, 0 <= eps ->
  ordered f -> ordered g -> Forall wf_seg f -> Forall wf_seg g ->
  dirac_sep eps f -> dirac_sep eps g -> cross_sep eps f g ->
  In (DiracSeg x m) g -> (forall k, ~ In (DiracSeg x k) f) -> m <> 0 ->
  exists h, operation eps Rminus f g = Ok h /\ In (DiracSeg x m) (segs h) /\ ~ In (DiracSeg x (- m)) (segs h).
Proof.
  intros eps f g x m He Of Og Wf Wg Df Dg Hc Hg Hf Hm.
  destruct (operation_atoms_main eps Rminus f g He Of Og Wf Wg Df Dg Hc) as (h & H1 & _ & H2).
  exists h. splits; auto.
  - apply H2; auto.
  - intros C. apply H2 in C. destruct C as [(mf & mg & K1 & _)|[[K1 _]|[K1 _]]].
    + exact (Hf _ K1).
    + exact (Hf _ K1).
    + pose proof (sep_nodup eps _ He Dg) as Ng. pose proof (atoms_unique g x m (- m) Ng Hg K1). lra.
Qed.
