(** Main lemmas about transformations of densities (C17-C19). *)
From Coq Require Import Reals Lra List Bool Sorted Permutation.
From Coquelicot Require Import Coquelicot.
From Verif Require Import Base Bisect Seg Piecewise PiecewiseSpec PiecewiseFacts PiecewiseFacts2 PiecewiseFacts3 PiecewiseFacts4
  Integral IntegralFacts SegInt SegIntSpec SegIntFacts SubstFacts Transform TransformSpec TransformFacts TransformFacts2
  TransformFacts3 OperationFacts TransformFacts4 TransformFacts5.
Import List ListNotations.
Open Scope R_scope.

(** C17: for scale <> 0 every piece has an image, and it is the image under x |-> scale x + shift: it spans
    the image interval and gives every image interval the probability of its preimage; a pole stays at the image
    of the end it was at. *)
Lemma shift_scale_piece_main :
  forall shift scale s, scale <> 0 -> wf_seg s -> has_int s ->
  exists t, seg_sas shift scale s = Ok t /\
    image_piece (rlt 0 scale) (affine shift scale) m_infty p_infty s t /\
    hasLeftPole t = (if rlt 0 scale then hasLeftPole s else hasRightPole s) /\
    hasRightPole t = (if rlt 0 scale then hasRightPole s else hasLeftPole s).
Proof.
  intros shift scale s N W HI.
  assert (exists t, seg_sas shift scale s = Ok t) as (t & E).
  { unfold seg_sas. destruct (reqP scale 0); [tauto|]. destruct s; eexists; reflexivity. }
  exists t. split; auto. split; [apply image_affine; auto|].
  unfold seg_sas in E. destruct (reqP scale 0); [tauto|]. destruct s; injection E as <-; destruct (rlt 0 scale); auto; simpl; destruct left; auto.
Qed.

Lemma atoms_image eps inc g A B l l' : image_sep eps g l -> Forall2 (fun s t => image_piece inc g A B s t /\ forall a m, s = DiracSeg a m -> t = DiracSeg (real (g a)) m) l l' -> dirac_sep eps l'.
Proof. intros S F. eapply image_sep_of; eauto. Qed.

(** C17: the whole function scale*X + shift: it is built without error, its pieces are ordered and
    every interval's image has the interval's probability. *)
Lemma shift_scale_list_main :
  forall eps shift scale l, scale <> 0 -> ordered l -> Forall wf_seg l -> Forall has_int l ->
  image_sep eps (affine shift scale) l ->
  exists q, copyShiftedAndScaled eps l shift scale = Ok q /\ ordered (segs q) /\ Forall wf_seg (segs q) /\ Forall has_int (segs q) /\
    forall u v, Rbar_lt u v ->
      pprob (segs q) (lo_end (rlt 0 scale) (affine shift scale) u v) (hi_end (rlt 0 scale) (affine shift scale) u v) = pprob l u v.
Proof.
  intros eps shift scale l N O W HI S.
  assert (F : exists l', Forall2 (fun s t => seg_sas shift scale s = Ok t /\ (image_piece (rlt 0 scale) (affine shift scale) m_infty p_infty s t /\
      forall a m, s = DiracSeg a m -> t = DiracSeg (real (affine shift scale a)) m)) l l').
  { apply Forall_ex2. apply Forall_forall. intros s Hs. rewrite Forall_forall in W, HI.
    destruct (shift_scale_piece_main shift scale s N (W s Hs) (HI s Hs)) as (t & T1 & T2 & _). exists t. splits; auto.
    intros a m ->. simpl in T1. injection T1 as <-. reflexivity. }
  destruct F as (l' & F).
  assert (F1 : Forall2 (image_piece (rlt 0 scale) (affine shift scale) m_infty p_infty) l l') by (eapply Forall2_imp; [|exact F]; cbv beta; intros ? ? HH; apply HH).
  destruct (list_image eps (rlt 0 scale) (affine shift scale) _ m_infty p_infty l l' (affine_ip shift scale N)) as (q & Q1 & Q2 & Q3 & Q4 & Q5 & Q6); auto.
  - apply Forall_forall. intros s _. split; [destruct (sa s)|destruct (sb s)]; simpl; auto.
  - eapply atoms_image; eauto. eapply Forall2_imp; [|exact F]; cbv beta; intros ? ? HH; apply HH.
  - exists q. splits; auto.
    + unfold copyShiftedAndScaled. rewrite (addMap_all eps _ l l'); auto. eapply Forall2_imp; [|exact F]; cbv beta; intros ? ? HH; apply HH.
    + intros u v UV. apply Q6; auto; [destruct u|destruct v]; simpl; auto.
Qed.

(** C17: two successive shift/scales are one. *)
Lemma shift_scale_compose_main :
  forall t1 s1 t2 s2 s a b c, s1 <> 0 -> s2 <> 0 ->
  seg_sas t1 s1 s = Ok a -> seg_sas t2 s2 a = Ok b -> seg_sas (t1 * s2 + t2) (s1 * s2) s = Ok c -> same_piece b c.
Proof.
  intros t1 s1 t2 s2 s a b c N1 N2 E1 E2 E3.
  assert (N3 : s1 * s2 <> 0) by (apply Rmult_integral_contrapositive_currified; auto).
  assert (HH : forall x, x * s1 * s2 + t1 * s2 + t2 = (x * s1 + t1) * s2 + t2) by (intros; ring).
  assert (SF : forall f x, shift_and_scale (shift_and_scale f (1 / s1) t1) (1 / s2) t2 x = shift_and_scale f (1 / (s1 * s2)) (t1 * s2 + t2) x).
  { intros f x. unfold shift_and_scale. replace (1 / (s1 * s2)) with (1 / s1 * (1 / s2)) by (field; auto). rewrite Rabs_mult.
    replace ((x - (t1 * s2 + t2)) * (1 / s1 * (1 / s2))) with (((x - t2) * (1 / s2) - t1) * (1 / s1)) by (field; auto). ring. }
  assert (K : forall x : R, Finite (x * (s1 * s2) + (t1 * s2 + t2)) = Finite ((x * s1 + t1) * s2 + t2)) by (intros; f_equal; ring).
  assert (P : rlt 0 (s1 * s2) = Bool.eqb (rlt 0 s1) (rlt 0 s2)).
  { destruct (rltP 0 s1); destruct (rltP 0 s2); destruct (rltP 0 (s1 * s2)); simpl; auto; exfalso.
    - apply n. apply Rmult_lt_0_compat; auto.
    - assert (s2 < 0) by lra. nra.
    - assert (s1 < 0) by lra. nra.
    - assert (s1 < 0) by lra. assert (s2 < 0) by lra. nra. }
  unfold same_piece.
  unfold seg_sas in E1, E3. destruct (reqP s1 0); [tauto|]. destruct (reqP (s1 * s2) 0); [tauto|]. rewrite P in E3.
  destruct s as [| | | | |a0 b0 f lp]; injection E1 as <-; injection E3 as <-;
    try (unfold seg_sas in E2; destruct (reqP s2 0); [tauto|]; destruct (rlt 0 s1); cbn [sf] in E2; injection E2 as <-; destruct (rlt 0 s2); simpl;
         rewrite ?K; splits; auto; try apply SF; try destruct lp; auto; fail).
Qed.

(** C17: scaling by zero is an error for every piece that is not an atom. *)
Lemma shift_scale_zero_main :
  forall shift s, isDirac s = false -> seg_sas shift 0 s = Err EZeroDiv.
Proof.
  intros shift s D. unfold seg_sas. destruct (reqP 0 0); [|tauto]. destruct s; auto; discriminate.
Qed.

(** C18: one piece under a strictly monotone g with inverse ginv and derivative dginv of the inverse. *)
Lemma composition_piece_main :
  forall inc g ginv dginv pole A B s, inverse_pair inc g ginv A B ->
  within A B s -> wf_seg s -> has_int s -> cont_inside s ->
  derivative_on ginv dginv (lo_end inc g A B) (hi_end inc g A B) ->
  (if isDirac s then is_finite (g (sa s)) else ends_ok g (sa s) (sb s)) ->
  exists t, probComposition g ginv dginv pole s = Ok t /\ image_piece inc g A B s t /\
    (forall a m, s = DiracSeg a m -> t = DiracSeg (real (g a)) m).
Proof. exact probComposition_image. Qed.

(** C18: the whole function, which copyComposition first splits at 0. *)
Lemma composition_list_main :
  forall eps inc g ginv dginv pole A B l, inverse_pair inc g ginv A B ->
  ordered l -> Forall wf_seg l -> Forall (within A B) l -> Forall has_int l -> Forall cont_inside l ->
  derivative_on ginv dginv (lo_end inc g A B) (hi_end inc g A B) ->
  Forall (ends_ok_split g) l -> dirac_sep eps l -> image_sep eps g l ->
  exists q, copyComposition eps l g ginv dginv pole = Ok q /\ ordered (segs q) /\ Forall wf_seg (segs q) /\
    Forall has_int (segs q) /\
    forall u v, Rbar_le A u -> Rbar_lt u v -> Rbar_le v B ->
      pprob (segs q) (lo_end inc g u v) (hi_end inc g u v) = pprob l u v.
Proof. exact copyComposition_law. Qed.

(** C18: a piece on which g takes the same finite value at both ends becomes an atom carrying the
    integral of the piece (its whole mass when the piece is not a constant one: C14). *)
Lemma composition_flat_main :
  forall g ginv dginv pole s (y : R), isDirac s = false -> g (sa s) = y -> g (sb s) = y ->
  probComposition g ginv dginv pole s = Ok (DiracSeg y (seg_integrate s m_infty p_infty)).
Proof.
  intros g ginv dginv pole s y D E1 E2. unfold probComposition. rewrite E1, E2.
  destruct s; try discriminate; cbn [isinf]; rewrite (blt_no y y) by apply Rbar_le_refl;
    destruct (beqP y y); try tauto; auto.
Qed.

Definition ln_ext (x : Rbar) : Rbar := match x with Finite x => if Rlt_dec 0 x then Finite (ln x) else m_infty | m_infty => m_infty | p_infty => p_infty end.
Lemma ln_ip B : Rbar_lt 0 B -> inverse_pair true ln_ext exp 0 B.
Proof.
  intros PB. split; [|split].
  - intros x y X L Y. destruct x as [x| |]; destruct y as [y| |]; simpl in *; try tauto.
    + destruct (Rlt_dec 0 y); [|lra]. destruct (Rlt_dec 0 x); simpl; auto. apply ln_increasing; auto.
    + destruct (Rlt_dec 0 x); simpl; auto.
  - intros x (X & _). simpl in *. exists (ln x). destruct (Rlt_dec 0 x); [|tauto]. split; auto. apply exp_ln; auto.
  - intros y (Y1 & Y2). simpl. destruct (Rlt_dec 0 (exp y)) as [P|P]; [|exfalso; apply P, exp_pos]. rewrite ln_exp. split; auto.
    split; simpl; auto. destruct B as [b| |]; simpl in *; auto. destruct (Rlt_dec 0 b); [|tauto].
    rewrite <- (exp_ln b) by auto. apply exp_increasing; auto.
Qed.
Lemma exp_dv c d : derivative_on exp exp c d.
Proof.
  intros y _. split.
  - auto_derive; auto. ring.
  - apply (ex_derive_continuous (K := R_AbsRing) (V := R_NormedModule)). auto_derive; auto.
Qed.

(** C18 (finding): without the sign condition on infinite ends the result is wrong.  The logarithm of a
    piece on [0,2] becomes a piece on [log 2, +inf): the probability 1 that X is in (0,2) is lost. *)
Lemma composition_infinite_end_refuted_main :
  exists g ginv dginv s t, inverse_pair true g ginv 0 2 /\ within 0 2 s /\ wf_seg s /\ has_int s /\ cont_inside s /\
    derivative_on ginv dginv (g 0) (g 2) /\
    probComposition g ginv dginv false s = Ok t /\ prob s 0 2 = 1 /\ prob t (g 0) (g 2) = 0.
Proof.
  exists ln_ext, exp, exp, (Seg 0 2 (fun _ => 1/2)), (PInfSeg (ln 2) (prob_comp (fun _ => 1/2) exp exp)).
  assert (H2 : ln_ext 2 = ln 2) by (simpl; destruct (Rlt_dec 0 2); [auto|lra]).
  assert (H0 : ln_ext 0 = m_infty) by (simpl; destruct (Rlt_dec 0 0); [lra|auto]).
  splits.
  - apply ln_ip. simpl; lra.
  - split; simpl; lra.
  - simpl; lra.
  - intros _. apply (integrable_const 0 2); lra.
  - intros x _ _. apply continuous_const.
  - apply exp_dv.
  - unfold probComposition. cbn [sa sb sf]. rewrite H0, H2. cbn [isinf]. rewrite (blt_no (ln 2) 0); auto.
    simpl. rewrite <- ln_1. apply Rlt_le, ln_increasing; lra.
  - rewrite prob_Q by (simpl; auto; lra). rewrite !clamp_id by (simpl; lra).
    change (sf (Seg 0 2 (fun _ => 1/2))) with (fun _ : R => 1/2). rewrite Q_const. lra.
  - rewrite H0, H2. apply prob_right_zero; simpl; auto. lra.
Qed.

(** C18 (finding): for decreasing g the "pole at zero" mark is put at the wrong end: the image reaches
    zero at its left end and the piece is marked singular at its right end. *)
Lemma composition_pole_side_refuted_main :
  exists g ginv dginv s t, inverse_pair false g ginv 0 p_infty /\ within 0 p_infty s /\ wf_seg s /\
    probComposition g ginv dginv true s = Ok t /\ sa t = Finite 0 /\ hasLeftPole t = false /\ hasRightPole t = true.
Proof.
  exists one_over_x, inv_fun, inv_deriv, (PInfSeg 1 (fun x => / (x * x))).
  eexists. splits.
  - apply inv_ip_pos.
  - split; simpl; lra.
  - simpl; auto.
  - unfold probComposition. cbn [sa sb sf]. unfold one_over_x. destruct (reqP 1 0); [lra|]. cbn [isinf].
    rewrite (blt_no (1/1) 0) by (simpl; lra). destruct (beqP (1/1) 0) as [H|_]; [injection H; lra|].
    destruct (beqP 0 0); [|exfalso; tauto]. cbn [andb]. reflexivity.
  - reflexivity.
  - reflexivity.
  - reflexivity.
Qed.

(** C18: the logarithm of a non-negative variable without an atom at 0 (copyLogComposition splits at
    1/2, 1 and 2 first, which makes the sign condition hold for every piece). *)
Lemma log_list_main :
  forall eps l, ordered l -> Forall wf_seg l -> Forall (within 0 p_infty) l -> Forall has_int l -> Forall cont_inside l ->
  (forall a m, In (DiracSeg a m) l -> a <> 0) -> dirac_sep eps l -> image_sep eps ln_ext l ->
  exists q, copyLogComposition eps l ln_ext exp exp = Ok q /\ ordered (segs q) /\ Forall wf_seg (segs q) /\
    Forall has_int (segs q) /\
    forall u v, Rbar_le 0 u -> Rbar_lt u v -> pprob (segs q) (ln_ext u) (ln_ext v) = pprob l u v.
Proof.
  intros eps l O W Wi HI C NZ DS S. unfold copyLogComposition.
  set (pts := [Finite (1/2); Finite 1; Finite 2]).
  assert (S0 : StronglySorted Rbar_lt pts) by (repeat constructor; simpl; lra).
  destruct (splitByPoints_ok eps l pts S0 O W DS) as (p & E & Es & _). rewrite E. cbn [rbind]. rewrite Es.
  destruct (split_all_ordered pts l S0 O W) as (O' & W' & P').
  assert (PR : forall u v, Rbar_le u v -> pprob (split_all pts l) u v = pprob l u v) by (intros; apply split_all_prob; auto).
  destruct (copyComposition_law eps true ln_ext exp exp false 0 p_infty (split_all pts l)) as (q & Q1 & Q2 & Q3 & Q4 & Q5); auto.
  - apply ln_ip. simpl; auto.
  - apply split_all_within; auto.
  - apply (split_all_prob pts l 0 0); auto using Rbar_le_refl.
  - apply split_all_cont; auto.
  - apply exp_dv.
  - apply Forall_forall. intros s Hs. unfold ends_ok_split.
    assert (Wi' : within 0 p_infty s) by (pose proof (split_all_within pts l 0 p_infty S0 W Wi) as H; rewrite Forall_forall in H; auto).
    assert (Ws : wf_seg s) by (rewrite Forall_forall in W'; auto).
    assert (NI : forall y, In y pts -> ~ inside s y) by (intros; apply (split_no_inside pts l); auto).
    destruct (isDirac s) eqn:D.
    + destruct s as [| | | |a m|]; try discriminate. simpl.
      assert (HH : In (DiracSeg a m) (getDiracs (split_all pts l))) by (apply filter_In; auto).
      rewrite split_diracs in HH; auto. apply filter_In in HH. destruct HH as (HH & _). pose proof (NZ a m HH).
      destruct Wi' as (W1 & _). simpl in W1. destruct (Rlt_dec 0 a); [reflexivity|lra].
    + pose proof (wf_lt s D Ws) as L. destruct Wi' as (W1 & _).
      rewrite (proj2 (blt_false (sa s) 0)) by auto. cbn [andb].
      assert (N1 := NI (1/2) (or_introl eq_refl)). assert (N2 := NI 2 (or_intror (or_intror (or_introl eq_refl)))). unfold inside in N1, N2.
      assert (NB : sa s <> p_infty) by (intros H; rewrite H in L; destruct (sb s); simpl in L; tauto).
      assert (NM : sb s <> m_infty) by (intros H; rewrite H in L; destruct (sa s); simpl in L; tauto).
      destruct (sa s) as [a| |]; try tauto. destruct (sb s) as [b| |]; try tauto; unfold ends_ok; simpl in *;
        destruct (Rlt_dec 0 a) as [PA|PA]; splits; intros HH; try discriminate;
        try (destruct (Rlt_dec 0 b) as [PB|PB]; try discriminate; try lra); simpl; auto;
        first [exfalso; apply N1; split; auto; lra
              |rewrite <- ln_1; apply ln_increasing; try lra; apply Rnot_le_lt; intros HX; apply N1; split; auto; lra
              |rewrite <- ln_1; apply ln_increasing; try lra; apply Rnot_le_lt; intros HX; apply N2; split; auto; lra].
  - apply dirac_sep_pos. rewrite P'. apply dirac_sep_pos; auto.
  - apply image_sep_pos. rewrite P'. apply image_sep_pos; auto.
  - exists q. splits; auto. intros u v U UV. rewrite <- PR by (apply Rbar_lt_le; auto). apply (Q5 u v); auto. destruct v; simpl; auto.
Qed.

(** C18: 1/X for X without atoms: intervals on either side of zero keep their probability. *)
Lemma inverse_list_main :
  forall eps pole l, ordered l -> Forall wf_seg l -> Forall has_int l -> Forall cont_inside l ->
  Forall (fun s => isDirac s = false) l ->
  exists q, copyProbInverse eps l pole = Ok q /\ ordered (segs q) /\ Forall wf_seg (segs q) /\ Forall has_int (segs q) /\
    (forall u v, Rbar_le 0 u -> Rbar_lt u v -> pprob (segs q) (one_over_x v) (one_over_x u) = pprob l u v) /\
    (forall u v, Rbar_lt u v -> Rbar_le v 0 -> pprob (segs q) (one_over_neg v) (one_over_neg u) = pprob l u v).
Proof. exact inverse_list. Qed.

(** C18 (finding): 1/X loses every atom of X. *)
Lemma inverse_atoms_refuted_main :
  forall eps (a m : R) pole, 0 <= eps -> a <> 0 ->
  exists q, copyProbInverse eps [DiracSeg a m] pole = Ok q /\ getDiracs (segs q) = [] /\ pprob (segs q) m_infty p_infty = 0.
Proof.
  intros eps a m pole E0 N. unfold copyProbInverse.
  assert (S0 : StronglySorted Rbar_lt [Finite 0]) by (constructor; constructor).
  destruct (splitByPoints_ok eps [DiracSeg a m] [Finite 0] S0) as (p & E & Es & _); try (repeat constructor; simpl; auto; fail).
  rewrite E. cbn [rbind]. rewrite Es.
  assert (SA : split_all [Finite 0] [DiracSeg a m] = [DiracSeg a m]).
  { destruct (split_seg_spec [Finite 0] (DiracSeg a m) S0 I) as (_ & _ & _ & P & _). unfold split_all. simpl. rewrite P; auto. }
  rewrite SA. cbn [addMap]. unfold probInverse. cbn [sa sb].
  destruct (beqP a 0) as [H|_]; [injection H; tauto|]. unfold one_over_x. destruct (reqP a 0) as [|_]; [tauto|].
  destruct (bleP (1 / a) (1 / a)) as [_|H]; [|exfalso; apply H, Rbar_le_refl].
  assert (NE : 1 / a <> 0) by (unfold Rdiv; rewrite Rmult_1_l; apply Rinv_neq_0_compat; auto).
  destruct (beqP (1 / a) 0) as [H|_]; [injection H; tauto|]. cbn [andb rbind real].
  eexists. split; [reflexivity|]. split; [reflexivity|].
  cbn [segs]. unfold pprob. simpl. destruct (Rbar_lt_dec _ _) as [H|]; [|lra]. exfalso. unfold rmaxb, rminb in H.
  destruct (Rbar_le_dec m_infty (1/a)) as [_|K]; [|simpl in K; tauto]. destruct (Rbar_le_dec p_infty (1/a)) as [K|_]; [simpl in K; tauto|].
  simpl in H; lra.
Qed.

(** C19: X^2.  Nothing below zero; for 0 <= u < v the interval (u^2, v^2) has the probability of
    (u,v) together with (-v,-u); an interval (y, v^2) starting below zero that of (-v, v). *)
Lemma square_list_main :
  forall eps l, 0 <= eps -> ordered l -> Forall wf_seg l -> Forall has_int l -> Forall cont_inside l ->
  dirac_sep eps l -> atoms_even_sep eps (fun x => x * x) l ->
  exists q, copySquareComposition eps l = Ok q /\ good eps (segs q) /\ Forall has_int (segs q) /\ even_law (fun x => x * x) l (segs q).
Proof. exact square_list. Qed.

(** C19: |X|. *)
Lemma abs_list_main :
  forall eps l, 0 <= eps -> ordered l -> Forall wf_seg l -> Forall has_int l -> Forall cont_inside l ->
  dirac_sep eps l -> atoms_even_sep eps Rabs l ->
  exists q, copyAbsComposition eps l = Ok q /\ good eps (segs q) /\ Forall has_int (segs q) /\ even_law Rabs l (segs q).
Proof. exact abs_list. Qed.

(** C19: a piece that crosses zero is refused. *)
Lemma even_crossing_main :
  forall s, isDirac s = false -> Rbar_lt (sa s) 0 -> Rbar_lt 0 (sb s) ->
  squareComposition s = Err EAssert /\ absComposition s = Err EAssert.
Proof.
  intros s D L1 L2. unfold squareComposition, absComposition, evenComposition.
  assert (B1 : ble 0 (sa s) = false) by (destruct (bleP 0 (sa s)) as [H|]; auto; exfalso; exact (Rbar_lt_not_le _ _ L1 H)).
  assert (B2 : ble (sb s) 0 = false) by (destruct (bleP (sb s) 0) as [H|]; auto; exfalso; exact (Rbar_lt_not_le _ _ L2 H)).
  rewrite B1, B2. rewrite andb_false_r. cbn [andb orb]. destruct s; auto; discriminate.
Qed.

(** Adding two functions adds their probabilities, interval by interval. *)
Lemma sum_probability_main :
  forall eps f g, 0 <= eps -> good eps f -> good eps g -> cross_sep eps f g -> Forall has_int f -> Forall has_int g ->
  exists h, operation eps Rplus f g = Ok h /\ good eps (segs h) /\ Forall has_int (segs h) /\
    forall u v, Rbar_le u v -> pprob (segs h) u v = pprob f u v + pprob g u v.
Proof. exact operation_prob. Qed.
