(** The loops of mean, meanf and var compute expectations; expectations of shifted and scaled variables. *)
From Coq Require Import Reals Lra Lia List Bool Permutation FunctionalExtensionality.
From Coquelicot Require Import Coquelicot.
From Verif Require Import Base Seg Piecewise PiecewiseSpec Integral IntegralFacts SegIntSpec SegIntFacts AtomFacts Indep Transform TransformSpec TransformFacts TransformFacts2 TransformFacts3 OperationFacts TransformFacts4 TransformFacts5 TransformMain MomSpec Mom.
Import List ListNotations.
Open Scope R_scope.

(** contribution of one piece to an expectation *)
Definition contrib (g : R -> R) (s : segment) : R :=
  match s with
  | DiracSeg a m => g a * m
  | _ => RInt_gen (fun x => g x * sf s x) (at_r (sa s)) (at_l (sb s))
  end.
Lemma expect_contrib g l : expect g l = sumR (map (contrib g) l).
Proof. reflexivity. Qed.
Lemma contrib_nd g s : isDirac s = false -> contrib g s = RInt_gen (fun x => g x * sf s x) (at_r (sa s)) (at_l (sb s)).
Proof. destruct s; intros; auto; discriminate. Qed.
Lemma contrib_Q g s : isDirac s = false -> wf_seg s -> contrib g s = Q (fun x => g x * sf s x) (sa s) (sb s).
Proof. intros D W. rewrite contrib_nd by auto. rewrite Q_RInt_gen; auto. apply wf_lt; auto. Qed.

Section Err.
Variable err : (R -> R) -> Rbar -> Rbar -> R.

Lemma poles_not_both s : (hasLeftPole s && hasRightPole s)%bool = false.
Proof. destruct s as [| | | | |a b f []]; reflexivity. Qed.

Lemma piece_int_val s g : isDirac s = false -> wf_seg s -> fst (piece_int err s (fun x => g x * seg_call s x)) = contrib g s.
Proof.
  intros D W. pose proof (wf_lt s D W) as L. rewrite contrib_Q by auto. unfold piece_int, segint. cbn [fst]. rewrite poles_not_both.
  destruct (bltP (sb s) (sa s)) as [A|A]; [exfalso; apply (Rbar_lt_irrefl (sa s)); eapply Rbar_lt_trans; eauto|].
  destruct (beqP (sa s) (sb s)) as [E|_]; [exfalso; rewrite E in L; now apply Rbar_lt_irrefl in L|].
  apply Q_ext; auto. intros x X. rewrite seg_call_in; auto.
Qed.

Lemma mean_piece_val s : wf_seg s -> fst (mean_piece err s) = contrib (fun x => x) s.
Proof.
  intros W. destruct (isDirac s) eqn:D.
  - destruct s; try discriminate. simpl. ring.
  - rewrite <- piece_int_val by auto. destruct s; try discriminate; reflexivity.
Qed.
Lemma mean_loop_val l : forall I0 E, Forall wf_seg l -> fst (mean_loop err l I0 E) = I0 + expect (fun x => x) l.
Proof.
  induction l as [|s l IH]; intros I0 E W; [simpl; unfold expect; simpl; ring|]. inversion W; subst. cbn [mean_loop].
  destruct (mean_piece err s) as (i & e) eqn:Ep. rewrite IH by auto. rewrite !expect_contrib. cbn [map]. rewrite AtomFacts.sumR_cons.
  rewrite <- (mean_piece_val s) by auto. rewrite Ep. simpl. ring.
Qed.
Lemma mean_val l m : Forall wf_seg l -> mean err l = Num m -> m = expect (fun x => x) l.
Proof.
  intros W H. unfold mean in H. pose proof (mean_loop_val l 0 0 W) as K. destruct (mean_loop err l 0 0) as (I0 & E). simpl in K.
  destruct (rlt _ E); [discriminate|]. injection H as <-. lra.
Qed.

Lemma meanf_piece_val f s : wf_seg s -> fst (meanf_piece err f s) = contrib f s.
Proof.
  intros W. destruct (isDirac s) eqn:D.
  - destruct s; try discriminate. reflexivity.
  - rewrite <- (piece_int_val s f) by auto. destruct s; try discriminate; reflexivity.
Qed.
Lemma meanf_loop_val f l : forall I0 aI E, Forall wf_seg l -> fst (fst (meanf_loop err f l I0 aI E)) = I0 + expect f l.
Proof.
  induction l as [|s l IH]; intros I0 aI E W; [simpl; unfold expect; simpl; ring|]. inversion W; subst. cbn [meanf_loop].
  destruct (meanf_piece err f s) as (i & e) eqn:Ep. rewrite IH by auto. rewrite !expect_contrib. cbn [map]. rewrite AtomFacts.sumR_cons.
  rewrite <- (meanf_piece_val f s) by auto. rewrite Ep. simpl. ring.
Qed.
Lemma meanf_val f l m : Forall wf_seg l -> meanf err f l = Num m -> m = expect f l.
Proof.
  intros W H. unfold meanf in H. pose proof (meanf_loop_val f l 0 0 0 W) as K. destruct (meanf_loop err f l 0 0 0) as ((I0 & aI) & E). simpl in K.
  destruct (_ && _)%bool; [discriminate|]. injection H as <-. lra.
Qed.

Lemma var1_val m l : forall I0 E, Forall wf_seg l -> Forall (fun s => isDirac s = false) l ->
  fst (var_loop1 err m l I0 E) = I0 + expect (fun x => (x - m) ^ 2) l.
Proof.
  induction l as [|s l IH]; intros I0 E W D; [simpl; unfold expect; simpl; ring|]. inversion W; inversion D; subst. cbn [var_loop1].
  destruct (var_cont err m s) as (i & e) eqn:Ep. rewrite IH by auto. rewrite !expect_contrib. cbn [map]. rewrite AtomFacts.sumR_cons.
  rewrite <- (piece_int_val s) by auto. unfold var_cont in Ep. rewrite Ep. simpl. ring.
Qed.
Lemma var2_val m l : forall I0, Forall (fun s => isDirac s = true) l -> var_loop2 m l I0 = I0 + expect (fun x => (x - m) ^ 2) l.
Proof.
  induction l as [|s l IH]; intros I0 D; [simpl; unfold expect; simpl; ring|]. inversion D; subst. cbn [var_loop2]. rewrite IH by auto.
  rewrite !expect_contrib. cbn [map]. rewrite AtomFacts.sumR_cons. destruct s; try discriminate. unfold spos. simpl. ring.
Qed.
Lemma expect_parts g l : expect g l = expect g (getSegments l) + expect g (getDiracs l).
Proof.
  induction l as [|s l IH]; [unfold expect; simpl; ring|]. unfold getSegments, getDiracs, isSegment in *. cbn [filter].
  rewrite !expect_contrib in *. destruct (isDirac s); cbn [negb map]; rewrite ?AtomFacts.sumR_cons; rewrite IH; ring.
Qed.
Lemma var_val l v : Forall wf_seg l -> var err l = Num v -> exists m, mean err l = Num m /\ v = expect (fun x => (x - m) ^ 2) l.
Proof.
  intros W H. unfold var in H. destruct (mean err l) as [m| |] eqn:Em; try discriminate. exists m. split; auto.
  pose proof (var1_val m (getSegments l) 0 0) as K. destruct (var_loop1 err m (getSegments l) 0 0) as (I0 & E).
  rewrite var2_val in H by (apply Forall_forall; intros s Hs; apply filter_In in Hs; tauto).
  destruct (rlt 1 E); [discriminate|]. injection H as <-. rewrite (expect_parts _ l). cbn [fst] in K.
  rewrite K; [rewrite Rplus_0_l; reflexivity| |].
  - apply Forall_forall. intros s Hs. apply filter_In in Hs. rewrite Forall_forall in W. apply W; tauto.
  - apply Forall_forall. intros s Hs. apply filter_In in Hs. destruct Hs as (_ & Hs). apply negb_true_iff in Hs. auto.
Qed.
End Err.

(** linearity *)
Lemma expect_lin g h c d l : Forall wf_seg l -> has_expect g l -> has_expect h l ->
  expect (fun x => c * g x + d * h x) l = c * expect g l + d * expect h l /\ has_expect (fun x => c * g x + d * h x) l.
Proof.
  intros W G H. split.
  - rewrite !expect_contrib. induction l as [|s l IH]; [simpl; ring|]. inversion W; subst. cbn [map]. rewrite !AtomFacts.sumR_cons.
    rewrite IH by first [assumption | intros t T; apply G; right; exact T | intros t T; apply H; right; exact T]. specialize (G s (or_introl eq_refl)). specialize (H s (or_introl eq_refl)).
    assert (contrib (fun x => c * g x + d * h x) s = c * contrib g s + d * contrib h s); [|lra].
    destruct (isDirac s) eqn:D; [destruct s; try discriminate; simpl; ring|]. rewrite !contrib_Q by auto.
    rewrite <- Q_scal by auto. rewrite <- Q_scal by auto. rewrite <- Q_plus by (apply integrable_scal; auto).
    apply Q_ext; [apply wf_lt; auto|]. intros; ring.
  - intros s S D. apply (integrable_ext (fun x => c * (g x * sf s x) + d * (h x * sf s x))); [intros; ring|].
    apply integrable_plus; apply integrable_scal; auto.
Qed.
Lemma expect_ext g h l : (forall x, g x = h x) -> expect g l = expect h l.
Proof. intros E. replace h with g by (apply functional_extensionality; auto). reflexivity. Qed.

(** shifting and scaling one piece *)
Lemma sas_contrib shift scale g s t : scale <> 0 -> wf_seg s -> seg_sas shift scale s = Ok t ->
  (isDirac s = false -> integrable (fun x => g (x * scale + shift) * sf s x) (sa s) (sb s)) ->
  contrib g t = contrib (fun x => g (x * scale + shift)) s /\ (isDirac t = false -> integrable (fun x => g x * sf t x) (sa t) (sb t)).
Proof.
  intros N W E HI. destruct (isDirac s) eqn:D.
  - destruct s; try discriminate. simpl in E. injection E as <-. split; [reflexivity|discriminate].
  - specialize (HI eq_refl). set (F := fun x => g (x * scale + shift) * sf s x) in *. set (s' := remake s F).
    assert (Es : isDirac s' = false /\ wf_seg s' /\ sa s' = sa s /\ sb s' = sb s /\ sf s' = F) by (unfold s'; destruct s; try discriminate; simpl in *; auto).
    destruct Es as (D' & W' & A' & B' & F').
    assert (HI' : has_int s') by (intros _; rewrite A', B', F'; exact HI).
    assert (X : exists t', seg_sas shift scale s' = Ok t' /\ isDirac t' = false /\ isDirac t = false /\ sa t' = sa t /\ sb t' = sb t /\ forall y, sf t' y = g y * sf t y).
    { assert (EE : forall y, shift_and_scale F (1 / scale) shift y = g y * shift_and_scale (sf s) (1 / scale) shift y).
      { intros y. unfold shift_and_scale, F. replace ((y - shift) * (1 / scale) * scale + shift) with y by (field; auto). ring. }
      unfold s'. destruct s; try discriminate; simpl in E |- *; destruct (reqP scale 0) as [Z|Z]; try tauto;
      destruct (rltP 0 scale) as [S|S]; injection E as <-; eexists; splits; try reflexivity; exact EE. }
    destruct X as (t' & Et' & Dt' & Dt & At & Bt & Ft).
    pose proof (image_affine shift scale s' t' W' HI' Et' N) as (_ & W1 & H1 & _ & _ & PR).
    specialize (PR m_infty p_infty I I I).
    assert (PR' : prob t' m_infty p_infty = prob s' m_infty p_infty).
    { rewrite <- PR. unfold lo_end, hi_end, affine. destruct (rltP 0 scale) as [S|S]; destruct (Rlt_dec 0 scale); try tauto; auto. }
    assert (K : forall z, isDirac z = false -> wf_seg z -> prob z m_infty p_infty = RInt_gen (sf z) (at_r (sa z)) (at_l (sb z))).
    { intros z Dz Wz. pose proof (wf_lt z Dz Wz) as Lz. rewrite prob_Q by (auto; exact I).
      rewrite clamp_low by first [apply Rbar_lt_le; assumption | destruct (sa z); exact I]. rewrite clamp_high by first [apply Rbar_lt_le; assumption | destruct (sb z); exact I].
      apply Q_RInt_gen; auto. }
    rewrite !K in PR' by auto. rewrite !contrib_nd by auto. split.
    + rewrite A', B', F', At, Bt in PR'. etransitivity; [|exact PR']. f_equal. apply functional_extensionality. intros y. symmetry. apply Ft.
    + intros _. specialize (H1 Dt'). rewrite At, Bt in H1. apply (integrable_ext (sf t')); auto.
Qed.

Lemma expect_perm g l l' : Permutation l l' -> expect g l = expect g l'.
Proof. intros P. rewrite !expect_contrib. apply AtomFacts.sumR_perm, Permutation_map; auto. Qed.

(** ... and a whole density *)
Lemma sas_expect eps shift scale l : scale <> 0 -> ordered l -> Forall wf_seg l -> Forall has_int l -> image_sep eps (affine shift scale) l ->
  exists q, copyShiftedAndScaled eps l shift scale = Ok q /\ ordered (segs q) /\ Forall wf_seg (segs q) /\ Forall has_int (segs q) /\
    forall g, has_expect (fun x => g (x * scale + shift)) l ->
      expect g (segs q) = expect (fun x => g (x * scale + shift)) l /\ has_expect g (segs q).
Proof.
  intros N O W HI SP.
  assert (F : exists l', Forall2 (fun s t => seg_sas shift scale s = Ok t /\ (image_piece (rlt 0 scale) (affine shift scale) m_infty p_infty s t /\
      forall a m, s = DiracSeg a m -> t = DiracSeg (real (affine shift scale a)) m)) l l').
  { apply Forall_ex2. apply Forall_forall. intros s Hs. rewrite Forall_forall in W, HI.
    destruct (shift_scale_piece_main shift scale s N (W s Hs) (HI s Hs)) as (t & T1 & T2 & _). exists t. splits; auto.
    intros a m ->. simpl in T1. injection T1 as <-. reflexivity. }
  destruct F as (l' & F).
  assert (F1 : Forall2 (image_piece (rlt 0 scale) (affine shift scale) m_infty p_infty) l l') by (eapply Forall2_imp; [|exact F]; cbv beta; intros ? ? HH; apply HH).
  destruct (list_image eps (rlt 0 scale) (affine shift scale) _ m_infty p_infty l l' (affine_ip shift scale N)) as (q & Q1 & Q2 & Q3 & Q4 & Q5 & Q6); auto.
  - apply Forall_forall. intros s _. split; [destruct (sa s)|destruct (sb s)]; simpl; auto.
  - eapply atoms_image; eauto. eapply Forall2_imp; [|exact F]; cbv beta; intros ? ? HH; apply HH.
  - exists q. splits; auto.
    + unfold copyShiftedAndScaled. rewrite (addMap_all eps _ l l'); auto. eapply Forall2_imp; [|exact F]; cbv beta; intros ? ? HH; apply HH.
    + intros g HE. rewrite <- (expect_perm g l' (segs q)) by auto.
      assert (K : expect g l' = expect (fun x => g (x * scale + shift)) l /\ has_expect g l').
      { clear - N W HE F. induction F as [|s t l l' (E & _) F IH]; [split; [reflexivity|intros t []]|]. inversion W; subst.
        destruct IH as (I1 & I2); auto; [intros z Hz; apply HE; simpl; auto|].
        destruct (sas_contrib shift scale g s t N H1 E) as (C1 & C2); [apply HE; simpl; auto|].
        rewrite !expect_contrib in *. cbn [map]. rewrite !AtomFacts.sumR_cons. split; [rewrite I1, C1; reflexivity|].
        intros z [<-|Hz]; auto. }
      destruct K as (K1 & K2). split; auto. intros z Hz. apply K2. eapply Permutation_in; [apply Permutation_sym; exact Q2|auto].
Qed.
