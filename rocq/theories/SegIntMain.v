(** Main lemmas about integration and distribution functions (C14-C16). *)
From Coq Require Import Reals Lra List Bool Sorted Permutation.
From Coquelicot Require Import Coquelicot.
From Verif Require Import Base Bisect Seg Piecewise PiecewiseSpec PiecewiseFacts PiecewiseFacts2 PiecewiseFacts4 PiecewiseMain Integral IntegralFacts SegInt SegIntSpec SegIntFacts CumintFacts CumintFacts2.
Import List ListNotations.
Open Scope R_scope.

(** C14: on a subinterval of the piece, the result is the (possibly improper) Riemann integral of the
    piece's function over that interval. *)
Lemma integrate_exact_main :
  forall s u v, isDirac s = false -> wf_seg s -> integrable_piece s ->
  Rbar_le (sa s) u -> Rbar_lt u v -> Rbar_le v (sb s) ->
  is_RInt_gen (sf s) (at_r u) (at_l v) (seg_integrate s u v).
Proof.
  intros s u v D W HI U UV V.
  pose proof (integrable_piece_int s D HI) as HI'.
  destruct (integrable_prim _ _ _ HI') as (G & P).
  assert (E : seg_integrate s u v = G v - G u).
  { destruct (isConst s) eqn:C.
    - destruct s; try discriminate. rename a into a0, b into b0, c into c0.
      assert (U' : Rbar_le u b0) by (apply (Rbar_le_trans _ v); auto; apply Rbar_lt_le; auto).
      assert (V' : Rbar_le a0 v) by (apply (Rbar_le_trans _ u); auto; apply Rbar_lt_le; auto).
      rewrite <- (prim_Q _ _ _ G u v P); auto.
      destruct u as [u| |]; destruct v as [v| |]; simpl in *; try tauto.
      change (sf (ConstSeg a0 b0 c0)) with (fun _ : R => c0).
      rewrite Q_const. unfold clip_hi, clip_lo; cbn [sa sb].
      rewrite (proj2 (blt_false u a0)) by auto. rewrite (proj2 (blt_false b0 v)) by auto. reflexivity.
    - rewrite seg_integrate_clamp; auto using Rbar_lt_le.
      rewrite !clamp_id; auto; try (apply (Rbar_le_trans _ v); auto; apply Rbar_lt_le; auto; fail);
        try (apply (Rbar_le_trans _ u); auto; apply Rbar_lt_le; auto; fail).
      apply (prim_Q _ _ _ G u v P); auto; try (apply (Rbar_le_trans _ v); auto; apply Rbar_lt_le; auto; fail);
        try (apply (Rbar_le_trans _ u); auto; apply Rbar_lt_le; auto; fail). }
  rewrite E. apply (prim_is _ _ _ G u v P); auto.
Qed.

(** C14: the integral over [u,w] is the sum of those over [u,v] and [v,w], for all extended reals
    u <= v <= w, wherever they lie relative to the piece; it is 0 when the interval misses the piece,
    and non-negative for a non-negative density.  Every piece kind except constants and atoms. *)
Lemma integrate_additive_main :
  forall s u v w, isDirac s = false -> isConst s = false -> wf_seg s -> integrable_piece s ->
  Rbar_le u v -> Rbar_le v w ->
  seg_integrate s u w = seg_integrate s u v + seg_integrate s v w /\
  (Rbar_le v (sa s) \/ Rbar_le (sb s) u -> seg_integrate s u v = 0) /\
  (nonneg_piece s -> 0 <= seg_integrate s u v).
Proof.
  intros s u v w D C W HI UV VW.
  assert (W' : Rbar_lt (sa s) (sb s)) by (destruct s; auto; discriminate).
  assert (WL := Rbar_lt_le _ _ W').
  pose proof (integrable_piece_int s D HI) as HI'.
  rewrite !seg_integrate_clamp; auto; [|apply (Rbar_le_trans _ v); auto].
  destruct (clamp_in s u WL). destruct (clamp_in s v WL). destruct (clamp_in s w WL).
  splits.
  - symmetry. apply (Q_chasles _ (sa s) (sb s)); auto.
  - intros [L|L].
    + rewrite (clamp_low s v), (clamp_low s u); auto; [apply Q_refl|]. apply (Rbar_le_trans _ v); auto.
    + rewrite (clamp_high s v), (clamp_high s u); auto; [apply Q_refl|]. apply (Rbar_le_trans _ u); auto.
  - intros NN. destruct (integrable_prim _ _ _ HI') as (G & P).
    rewrite (prim_Q _ _ _ G _ _ P); auto.
    assert (NN' : forall z : R, RbarIn (sa s) (sb s) z -> 0 <= sf s z).
    { intros z (Z1 & Z2). destruct s; try discriminate; apply NN; auto. }
    pose proof (prim_nondec _ _ _ G (clamp s u) (clamp s v) P NN' H (clamp_mono s u v WL UV) H2). lra.
Qed.

(** C14: a constant piece gives the right result exactly when the interval meets the piece; for an
    interval that lies to the right or to the left of it, the result is the negated area between the
    interval and the piece instead of 0. *)
Lemma integrate_const_main :
  forall (a b c u v : R), a < b -> u <= v ->
  (Rmax u a <= Rmin v b -> seg_integrate (ConstSeg a b c) u v = c * (Rmin v b - Rmax u a)) /\
  (v < a -> seg_integrate (ConstSeg a b c) u v = - (c * (a - v))) /\
  (b < u -> seg_integrate (ConstSeg a b c) u v = - (c * (u - b))).
Proof.
  intros a b c u v AB UV. unfold seg_integrate, clip_lo, clip_hi. cbn [sa sb].
  destruct (bltP u a) as [U|U]; destruct (bltP b v) as [V|V]; simpl in *;
  unfold Rmin, Rmax; splits; intros;
  repeat match goal with
  | |- context [Rle_dec ?x ?y] => destruct (Rle_dec x y)
  | H : context [Rle_dec ?x ?y] |- _ => destruct (Rle_dec x y) end; try lra; f_equal; lra.
Qed.

(** C14: hence a positive constant density has negative probability on every interval beyond it. *)
Lemma integrate_const_negative_refuted_main :
  forall a b c : R, a < b -> 0 < c ->
  exists u v : R, u < v /\ seg_integrate (ConstSeg a b c) u v < 0 /\ pw_integrate [ConstSeg a b c] u v < 0.
Proof.
  intros a b c AB C. exists (b + 1), (b + 2). split; [lra|].
  assert (K : seg_integrate (ConstSeg a b c) (b + 1) (b + 2) < 0).
  { destruct (integrate_const_main a b c (b + 1) (b + 2)) as (_ & _ & H); [lra|lra|]. rewrite H by lra. nra. }
  split; auto. unfold pw_integrate. unfold fold_left. rewrite Rplus_0_l. exact K.
Qed.

(** C15: an atom contributes its mass exactly when it lies strictly inside the interval, or the
    interval is the single point. *)
Lemma integrate_atom_main :
  (forall a m u v, m <> 0 ->
    (seg_integrate (DiracSeg a m) u v = m <-> (Rbar_lt u a /\ Rbar_lt a v) \/ (u = a /\ v = a)) /\
    (seg_integrate (DiracSeg a m) u v = 0 <-> ~ ((Rbar_lt u a /\ Rbar_lt a v) \/ (u = a /\ v = a)))) /\
  (forall (a m : R) u v, Rbar_lt u a -> Rbar_lt a v ->
    seg_integrate (DiracSeg a m) u v = m /\
    seg_integrate (DiracSeg a m) u a + seg_integrate (DiracSeg a m) a v = 0).
Proof.
  assert (K : forall a m u v, seg_integrate (DiracSeg a m) u v = if (blt u a && blt a v) || (beq u v && beq v a) then m else 0) by reflexivity.
  assert (KK : forall (a : R) u v, ((blt u a && blt a v) || (beq u v && beq v a))%bool = true <-> (Rbar_lt u a /\ Rbar_lt a v) \/ (u = a /\ v = a)).
  { intros a u v. rewrite orb_true_iff, !andb_true_iff, !blt_true, !beq_true.
    split; (intros [H|(H1 & H2)]; [left; auto|right]); subst; auto. }
  split.
  - intros a m u v M. rewrite K. rewrite <- KK. destruct ((blt u a && blt a v) || (beq u v && beq v a))%bool.
    + split; split; intros; auto; try congruence.
    + split; split; intros; auto; try congruence.
  - intros a m u v U V. rewrite !K.
    assert (E1 : ((blt u a && blt a v) || (beq u v && beq v a))%bool = true) by (apply KK; auto).
    assert (N2 : forall P Q : Rbar -> Prop, True) by auto.
    assert (E2 : ((blt u a && blt a a) || (beq u a && beq a a))%bool = false).
    { apply not_true_is_false. rewrite KK. intros [(_ & H)|(H & _)].
      - apply (Rbar_lt_irrefl _ H).
      - rewrite H in U. apply (Rbar_lt_irrefl _ U). }
    assert (E3 : ((blt a a && blt a v) || (beq a v && beq v a))%bool = false).
    { apply not_true_is_false. rewrite KK. intros [(H & _)|(_ & H)].
      - apply (Rbar_lt_irrefl _ H).
      - rewrite H in V. apply (Rbar_lt_irrefl _ V). }
    rewrite E1, E2, E3. split; auto. ring.
Qed.

Lemma pw_integrate_sum l u v : pw_integrate l u v = sumR (map (fun s => seg_integrate s u v) l).
Proof.
  unfold pw_integrate.
  assert (K : forall acc, fold_left (fun I s => I + seg_integrate s u v) l acc = acc + sumR (map (fun s => seg_integrate s u v) l)).
  { induction l as [|s l' IH]; intros acc; simpl; [ring|]. rewrite IH. ring. }
  rewrite K. ring.
Qed.

(** C14/C15: integrating a whole function over (-inf,inf) gives its total mass; and over adjacent
    intervals it is additive as long as no atom sits at the common end (constant pieces excluded). *)
Lemma pw_integrate_total_main :
  forall l, Forall wf_seg l -> Forall integrable_piece l ->
  pw_integrate l m_infty p_infty = total_mass l /\
  (forall u v w, Rbar_lt u v -> Rbar_lt v w -> (forall s, In s l -> isConst s = false) ->
     (forall a m, In (DiracSeg a m) l -> v <> a) ->
     pw_integrate l u w = pw_integrate l u v + pw_integrate l v w).
Proof.
  intros l W HI. rewrite Forall_forall in W, HI. split.
  - rewrite pw_integrate_sum. unfold total_mass. f_equal. apply map_ext_in. intros s Hs.
    specialize (W s Hs). specialize (HI s Hs). destruct (isDirac s) eqn:D.
    + destruct s; try discriminate. unfold seg_integrate, mass. rewrite (proj2 (blt_true m_infty a)), (proj2 (blt_true a p_infty)) by (simpl; auto). reflexivity.
    + assert (W' : Rbar_lt (sa s) (sb s)) by (destruct s; auto; discriminate).
      rewrite mass_Q; auto. destruct (isConst s) eqn:C.
      * destruct s; try discriminate. rename a into a0, b into b0, c into c0.
        cbn [sa sb sf]. change (sf (ConstSeg a0 b0 c0)) with (fun _ : R => c0). rewrite Q_const.
        unfold seg_integrate, clip_lo, clip_hi. cbn [sa sb].
        rewrite (proj2 (blt_true m_infty a0)) by (simpl; auto). rewrite (proj2 (blt_true b0 p_infty)) by (simpl; auto). reflexivity.
      * rewrite seg_integrate_clamp; auto; [|simpl; auto].
        rewrite clamp_low, clamp_high; auto using Rbar_lt_le; destruct (sa s); destruct (sb s); simpl; auto.
  - intros u v w UV VW C A. rewrite !pw_integrate_sum. rewrite <- sumR_plus. f_equal. apply map_ext_in. intros s Hs.
    destruct (isDirac s) eqn:D.
    + destruct s as [| | | |a m|]; try discriminate. specialize (A a m Hs).
      unfold seg_integrate.
      assert (E : forall x y, Rbar_lt x y -> (beq x y && beq y a)%bool = false).
      { intros x y L. destruct (beqP x y) as [->|]; auto. destruct (Rbar_lt_irrefl _ L). }
      rewrite !E; auto; [|apply (Rbar_lt_trans _ v); auto]. rewrite !orb_false_r.
      destruct (Rbar_total_order v a) as [[L|L]|L]; [|congruence|].
      * rewrite (proj2 (blt_true v a)), (proj2 (blt_true u a)); auto; [|apply (Rbar_lt_trans _ v); auto].
        rewrite (proj2 (blt_false a v)); [|apply Rbar_lt_le; auto]. simpl. ring.
      * rewrite (proj2 (blt_true a v)), (proj2 (blt_true a w)); auto; [|apply (Rbar_lt_trans _ v); auto].
        rewrite (proj2 (blt_false v a)); [|apply Rbar_lt_le; auto]. simpl. ring.
    + destruct (integrate_additive_main s u v w) as (E & _); auto using Rbar_lt_le.
Qed.

(** C16: the function built by cumint is, at every real number and for scalar and vector calls alike,
    the sum of the probabilities of the parts of the pieces at or left of it. *)
Lemma cdf_exact_main :
  forall eps l, density l ->
  exists q, cumint eps l = Ok q /\ gap_free (segs q) /\ brks q = getBreaks (segs q) /\
   forall x : R, call_scalar (segs q) x = Ok (cdf_spec l x) /\ call_vec (segs q) x = cdf_spec l x.
Proof.
  intros eps l D. destruct (cumint_cdf eps l D) as (q & E & G & _ & B & V). exists q. splits; auto.
  intros x. rewrite cF_spec; auto. apply D.
Qed.

(** C16: that function is a distribution function: between 0 and the total mass and non-decreasing
    (for a non-negative density), 0 left of the support, the total mass from its right end on,
    right-continuous, with a jump at x equal to the mass of the atom at x, and with the right limits at
    infinity. *)
Lemma cdf_distribution_function_main :
  forall eps l q, density l -> Forall nonneg_piece l -> cumint eps l = Ok q ->
  let F := call_vec (segs q) in
  (forall x y, x <= y -> 0 <= F x /\ F x <= F y /\ F y <= total_mass l) /\
  (forall x : R, (forall s, In s l -> Rbar_lt x (sa s)) -> F x = 0) /\
  (forall x : R, (forall s, In s l -> Rbar_le (sb s) x) -> F x = total_mass l) /\
  (forall x, filterlim F (at_right x) (locally (F x))) /\
  (forall x, filterlim F (at_left x) (locally (F x - sumR (map (fun s => match s with DiracSeg a m => if Req_EM_T a x then m else 0 | _ => 0 end) l)))) /\
  filterlim F (Rbar_locally m_infty) (locally 0) /\
  filterlim F (Rbar_locally p_infty) (locally (total_mass l)).
Proof.
  intros eps l q D NN E F. destruct (cumint_cdf eps l D) as (q' & E' & G & _ & _ & V).
  assert (q' = q) by congruence. subst q'.
  destruct D as (N & W & HI & O & CH).
  assert (EF : forall x, cF l x = F x) by (intros x; symmetry; apply V).
  rewrite !(cmasses_spec l W).
  splits.
  - intros x y XY. rewrite <- !EF. apply cF_mono; auto.
  - intros x H. rewrite <- EF. apply cF_right; auto.
  - intros x H. rewrite <- EF. apply cF_left; auto.
  - intros x. rewrite <- EF. eapply filterlim_ext; [exact EF|]. apply cF_right_cont; auto.
  - intros x. rewrite <- EF. eapply filterlim_ext; [exact EF|].
    replace (sumR (map (fun s => match s with DiracSeg a m => if Req_EM_T a x then m else 0 | _ => 0 end) l))
      with (sumR (map (fun s => atom_at s x) l)); [apply cF_left_lim; auto|].
    f_equal. apply map_ext. intros s. destruct s; simpl; auto. destruct (reqP a x); destruct (Req_EM_T a x); auto; congruence.
  - eapply filterlim_ext; [exact EF|]. apply cF_lim_m; auto.
  - eapply filterlim_ext; [exact EF|]. apply cF_lim_p; auto.
Qed.

(** the pieces of the cumulative function without the gap-freeness assumption *)
Lemma cums_ends l : forall f0, map (fun s => (sa s, sb s)) (cums l f0) = map (fun s => (sa s, sb s)) (getSegments l).
Proof.
  unfold getSegments. induction l as [|s l IH]; intros f0; simpl; auto. unfold isSegment.
  destruct (isDirac s); simpl; auto. destruct (cumpiece_ends s f0) as (E1 & E2 & _).
  rewrite E1, E2, IH. auto.
Qed.

(** C16: without gap-freeness the property fails: a density of total mass 1, uniform on [0,1] and
    [2,3], whose CDF decreases, because the constant piece right of the gap is extrapolated. *)
Lemma cdf_gap_refuted_main :
  exists eps l q, Forall wf_seg l /\ Forall integrable_piece l /\ Forall nonneg_piece l /\ ordered l /\
    total_mass l = 1 /\ cumint eps l = Ok q /\
    call_scalar (segs q) (3 / 4) = Ok (3 / 8) /\ call_scalar (segs q) (3 / 2) = Ok (1 / 4).
Proof.
  pose (l := [ConstSeg 0 1 (1/2); ConstSeg 2 3 (1/2)]).
  assert (W : Forall wf_seg l) by (repeat apply Forall_cons; try apply Forall_nil; simpl; lra).
  assert (HI : Forall integrable_piece l).
  { repeat apply Forall_cons; try apply Forall_nil; simpl.
    - apply (integrable_const 0 1 (1/2)); lra.
    - apply (integrable_const 2 3 (1/2)); lra. }
  assert (M1 : cmass (ConstSeg 0 1 (1/2)) = 1/2).
  { simpl. change (sf (ConstSeg 0 1 (1 / 2))) with (fun _ : R => 1/2). rewrite Q_const. lra. }
  assert (M2 : cmass (ConstSeg 2 3 (1/2)) = 1/2).
  { simpl. change (sf (ConstSeg 2 3 (1 / 2))) with (fun _ : R => 1/2). rewrite Q_const. lra. }
  pose (c1 := cumpiece (ConstSeg 0 1 (1/2)) 0). pose (c2 := cumpiece (ConstSeg 2 3 (1/2)) (0 + cmass (ConstSeg 0 1 (1/2)))).
  assert (EC : cums l 0 = [c1; c2]) by reflexivity.
  assert (EM : cmasses l = 1) by (unfold cmasses, l; cbn [map]; rewrite M1, M2; simpl; lra).
  pose (P := PInfSeg 3 (fun _ => 1)). pose (M := MInfSeg 0 (fun _ => 0)).
  assert (O : ordered [M; c1; c2; P]).
  { unfold M, c1, c2, P, ordered. repeat first [apply SSorted_cons | apply SSorted_nil | apply Forall_cons | apply Forall_nil];
    (split; simpl; auto; try lra; try discriminate; intros HH; injection HH; lra). }
  assert (WF : Forall wf_seg [M; c1; c2; P]).
  { repeat first [apply Forall_cons | apply Forall_nil]; simpl; auto; lra. }
  assert (O2 : ordered [c1; c2; P]) by (inversion O; auto).
  assert (W2 : Forall wf_seg [c1; c2; P]) by (inversion WF; auto).
  assert (CS : forall ll, Forall (fun s => isDirac s = false) ll -> dirac_sep 1 ll).
  { induction ll as [|s ll IH]; intros H; [constructor|]. inversion H; subst. apply FOP_cons; [|apply IH; auto].
    apply Forall_forall. intros t _. destruct s; auto; discriminate. }
  assert (D2 : dirac_sep 1 [c1; c2; P]) by (apply CS; repeat apply Forall_cons; try apply Forall_nil; auto).
  destruct (addAll_ordered 1 [c1; c2; P] O2 W2 D2) as (p & A1 & A2 & A3).
  destruct (addAll_compatible 1 [M] p) as (q & Q1 & Q2 & Q3 & Q4); rewrite ?A2; auto.
  { repeat apply Forall_cons; try apply Forall_nil; simpl; auto. }
  { apply FOP_cons; [apply Forall_nil|apply FOP_nil]. }
  { intros s t [<-|[]] Ht. split; [|exact I]. left. apply StronglySorted_inv in O. destruct O as [_ O].
    rewrite Forall_forall in O. auto. }
  rewrite A2 in Q2.
  assert (SQ : segs q = [M; c1; c2; P]).
  { symmetry. apply ordered_unique; auto. rewrite <- Q2. apply Permutation_cons_append. }
  exists 1, l, q.
  assert (E : cumint 1 l = Ok q).
  { unfold cumint. rewrite cumint_loop_eq; auto. rewrite EC, EM.
    cbn [addAll rbind] in A1 |- *.
    destruct (addSegment 1 empty_pwf c1) as [p1|]; [|discriminate]. cbn [rbind] in *.
    destruct (addSegment 1 p1 c2) as [p2|]; [|discriminate]. cbn [rbind] in *.
    assert (EL : lastp l 0 None = Some c2) by reflexivity. rewrite EL.
    assert (ET : cumint_tail 1 (0 + 1) p2 c2 = addSegment 1 p2 P).
    {
      assert (V : sf c2 (real (sb c2)) = 1).
      { pose proof (cumint_next (ConstSeg 2 3 (1/2)) (0 + cmass (ConstSeg 0 1 (1/2)))) as NX.
        cbn [isPInf] in NX. unfold c2. rewrite NX; [rewrite M1, M2; lra|simpl; lra|simpl; apply (integrable_const 2 3 (1/2)); lra]. }
      unfold cumint_tail, P. rewrite V. rewrite Rmax_left by lra. replace (0 + 1) with 1 by ring. reflexivity. }
    rewrite ET. destruct (addSegment 1 p2 P) as [p3|]; [|discriminate]. cbn [rbind] in *. injection A1; intros ->.
    unfold cumint_lead. rewrite A2. cbn [isMInf c1 cumpiece seg_cumint sa real isPInf].
    cbn [addAll rbind] in Q1. unfold M in Q1.
    destruct (addSegment 1 p (MInfSeg 0 (fun _ => 0))); [|discriminate]. exact Q1. }
  assert (Hc : call_scalar (segs q) (3/2) = Ok (sf c2 (3/2))).
  { apply (scalar_lookup_gap_main (segs q) [M] c1 c2 [P]); auto.
    - simpl; lra.
    - simpl; lra. }
  assert (H1 : call_scalar (segs q) (3/4) = Ok (sf c1 (3/4))).
  { apply call_scalar_inside; auto.
    - rewrite SQ. simpl; auto.
    - simpl; lra.
    - simpl; lra. }
  splits; auto.
  - repeat apply Forall_cons; try apply Forall_nil; simpl; intros; lra.
  - repeat first [apply SSorted_cons | apply SSorted_nil | apply Forall_cons | apply Forall_nil].
    split; simpl; try lra. intros HH; injection HH; lra.
  - rewrite cmasses_spec; auto.
  - rewrite H1. f_equal. unfold c1. cbn [cumpiece isPInf seg_cumint sf segIntegral].
    unfold seg_integrate, clip_lo, clip_hi. cbn [sa sb].
    rewrite (proj2 (blt_false 0 0)) by (simpl; lra). rewrite (proj2 (blt_false 1 (3/4))) by (simpl; lra).
    simpl. lra.
  - rewrite Hc. f_equal. unfold c2. cbn [cumpiece isPInf seg_cumint sf segIntegral].
    unfold seg_integrate, clip_lo, clip_hi. cbn [sa sb].
    rewrite (proj2 (blt_false 2 2)) by (simpl; lra). rewrite (proj2 (blt_false 3 (3/2))) by (simpl; lra).
    rewrite M1. simpl. lra.
Qed.

(** C16: nor does it hold for a function that consists of separated atoms only: the steps between
    the atoms are lost. *)
Lemma cdf_atoms_only_refuted_main :
  exists eps l q, Forall wf_seg l /\ ordered l /\ dirac_sep eps l /\ total_mass l = 1 /\ cumint eps l = Ok q /\
    cdf_spec l (1 / 2) = 1 / 2 /\ call_scalar (segs q) (1 / 2) = Ok 0.
Proof.
  pose (l := [DiracSeg 0 (1/2); DiracSeg 1 (1/2)]).
  pose (P := PInfSeg 1 (fun _ => 1)). pose (M := MInfSeg 1 (fun _ => 0)).
  assert (G : gap_free [M; P]).
  { split; [|simpl; auto]. repeat apply Forall_cons; try apply Forall_nil; split; simpl; auto. }
  assert (A : exists q, addAll (1/2) (add_sorted empty_pwf P) [M] = Ok q /\ segs q = [M; P]).
  { destruct (addAll_compatible (1/2) [M] (add_sorted empty_pwf P)) as (q & Q1 & Q2 & Q3 & Q4).
    - apply SSorted_cons; [apply SSorted_nil|apply Forall_nil].
    - apply Forall_cons; [simpl; auto|apply Forall_nil].
    - apply Forall_cons; [simpl; auto|apply Forall_nil].
    - apply FOP_cons; [apply Forall_nil|apply FOP_nil].
    - intros s t [<-|[]] [<-|[]]. split; [left|exact I]. split; [simpl; lra|discriminate].
    - exists q. split; auto. symmetry. apply ordered_unique; auto.
      + apply gap_free_ordered; auto.
      + apply gap_free_wf; auto.
      + rewrite <- Q2. apply perm_swap. }
  destruct A as (q & Q1 & Q2).
  exists (1/2), l, q. splits.
  - repeat apply Forall_cons; try apply Forall_nil; simpl; auto.
  - repeat first [apply SSorted_cons | apply SSorted_nil | apply Forall_cons | apply Forall_nil].
    split; simpl; try lra. intros HH; injection HH; lra.
  - repeat first [apply FOP_cons | apply FOP_nil | apply Forall_cons | apply Forall_nil].
    rewrite Rabs_left; lra.
  - unfold total_mass, l. simpl. lra.
  - unfold cumint. rewrite cumint_loop_eq; [|repeat apply Forall_cons; try apply Forall_nil; simpl; auto..].
    cbn [l cums isDirac app addAll rbind lastp cumpiece isPInf cmass].
    assert (ET : cumint_tail (1/2) (0 + cmasses l) empty_pwf (seg_cumint (DiracSeg 1 (1 / 2)) (0 + 1 / 2)) = Ok (add_sorted empty_pwf P)).
    { assert (V : sf (seg_cumint (DiracSeg 1 (1 / 2)) (0 + 1 / 2)) 1 = 1).
      { cbn [seg_cumint sf segIntegral sa seg_integrate]. rewrite beq_refl, orb_true_r. lra. }
      unfold cumint_tail. cbn [isPInf seg_cumint sb real] in V |- *. rewrite V.
      unfold cmasses, l. cbn [map sumR cmass]. rewrite Rmax_left by (simpl; lra).
      replace (0 + sumR [1 / 2; 1 / 2]) with 1 by (simpl; lra). reflexivity. }
    fold l. change (cumpiece (DiracSeg 1 (1 / 2)) (0 + 1 / 2)) with (seg_cumint (DiracSeg 1 (1 / 2)) (0 + 1 / 2)). rewrite ET. cbn [rbind]. unfold cumint_lead.
    cbn [addAll rbind] in Q1. unfold M in Q1.
    change (segs (add_sorted empty_pwf P)) with [P]. cbn [isMInf P sa real].
    destruct (addSegment (1/2) (add_sorted empty_pwf P) (MInfSeg 1 (fun _ => 0))); [exact Q1|discriminate].
  - unfold cdf_spec, l. simpl. destruct (Rle_dec 0 (1/2)); destruct (Rle_dec 1 (1/2)); lra.
  - rewrite Q2. destruct (gap_free_covers [M; P] M (1/2)) as (E & _); auto.
    + simpl; auto.
    + split; simpl; auto; lra.
Qed.
