(** Main lemmas on summaries of a distribution. *)
From Coq Require Import Reals Lra List Bool Sorted Permutation Lia.
From Coquelicot Require Import Coquelicot.
From Verif Require Import Base Seg Piecewise PiecewiseSpec PiecewiseFacts PiecewiseFacts2 PiecewiseFacts3 PiecewiseFacts4 Integral IntegralFacts SegInt SegIntSpec
  CumintFacts Transform TransformSpec TransformFacts TransformFacts2 OperationFacts AtomFacts CondFacts
  Root Quant QuantSpec Summ SummSpec SummFacts SummFacts2 SummFacts3 SummFacts4.
From Verif Require ExtrFacts3.
Import List ListNotations.
Open Scope R_scope.

(** C71: medianad is a median of the distance from the median: from some fuel on median returns one and the same
    median m, and medianad returns a number d such that intervals around m of half width less than d have probability
    at most 1/2 and intervals of half width more than d at least 1/2. *)
Lemma medianad_dev_main : forall eps l vinf solve, 0 <= eps -> density l -> Forall nonneg_piece l -> Forall cont_inside l -> total_mass l = 1 -> dirac_sep eps l ->
  (forall m, is_quantile (cdf_spec l) (1 / 2) m -> dists_sep eps m l) -> exact_solver solve ->
  (forall k q, density k -> cumint eps k = Ok q -> end_limits vinf (segs q)) ->
  exists N m d, is_quantile (cdf_spec l) (1 / 2) m /\ abs_dev_median l m d /\
    forall fuel, (N <= fuel)%nat -> median vinf solve fuel eps l = Ok (QAt (Finite m)) /\ medianad vinf solve fuel eps l = Ok (QAt (Finite d)).
Proof. exact medianad_ok. Qed.

(** C71: the steps of medianad before the last median build a density of mass 1, that of |X - m|: no mass on the
    negative numbers, and below e > 0 the probability of (m - e, m + e). *)
Lemma medianad_law_main : forall eps l (m : R), 0 <= eps -> density l -> Forall nonneg_piece l -> Forall cont_inside l -> total_mass l = 1 -> dirac_sep eps l ->
  dists_sep eps m l -> is_quantile (cdf_spec l) (1 / 2) m ->
  exists f1 f2 f3, copyShiftedAndScaled eps l (- m) 1 = Ok f1 /\ splitByPoints eps (segs f1) [Finite 0] = Ok f2 /\ copyAbsComposition eps (segs f2) = Ok f3 /\
    density (segs f3) /\ Forall nonneg_piece (segs f3) /\ total_mass (segs f3) = 1 /\
    (forall y, y <= 0 -> pprob (segs f3) m_infty (Finite y) = 0) /\
    (forall e, 0 < e -> pprob (segs f3) m_infty (Finite e) = pprob l (Finite (m - e)) (Finite (m + e))).
Proof. exact folded_density. Qed.

(** C71: for a level below 1/2 iqrange is the non-negative width of an interval between two quantiles that holds
    1 - 2 level of the mass; the level 1 - level gives the same width with a minus sign. *)
Lemma iqrange_width_main : forall eps l vinf solve level, density l -> Forall nonneg_piece l -> total_mass l = 1 -> exact_solver solve ->
  (forall q, cumint eps l = Ok q -> end_limits vinf (segs q)) -> 0 < level < 1 / 2 ->
  exists N, forall fuel, (N <= fuel)%nat -> exists a b : R,
    quantile vinf solve fuel eps l level = Ok (QAt (Finite a)) /\ quantile vinf solve fuel eps l (1 - level) = Ok (QAt (Finite b)) /\ a <= b /\
    iqrange vinf solve fuel eps l level = Ok (QAt (Finite (b - a))) /\ iqrange vinf solve fuel eps l (1 - level) = Ok (QAt (Finite (a - b))) /\
    (forall t, t < a -> 1 - 2 * level <= cdf_spec l b - cdf_spec l t).
Proof. exact iqrange_ok. Qed.

(** C71: for pieces without atom and pole, with one hump each, and a minimiser without rounding, mode returns a point
    of the support at which the density is as high as anywhere. *)
Lemma mode_highest_main : forall fmin far vinf l, exact_min fmin -> l <> [] -> Forall (one_hump far vinf) l ->
  exists s x, In s l /\ Rbar_le (sa s) (Finite x) /\ Rbar_le (Finite x) (sb s) /\ mode fmin far vinf l = Some (Finite x) /\
    maximum fmin far vinf l = Some (Finite x, sf s x) /\
    forall t y, In t l -> Rbar_le (sa t) (Finite y) -> Rbar_le (Finite y) (sb t) -> sf t y <= sf s x.
Proof. exact maximum_ok. Qed.

(** C71: range reports the least and the greatest end of the pieces. *)
Lemma range_hull_main : forall l, l <> [] -> exists lo hi, range l = Ok (lo, hi) /\
  (exists s, In s l /\ (lo = sa s \/ lo = sb s)) /\ (exists s, In s l /\ (hi = sa s \/ hi = sb s)) /\
  forall s, In s l -> Rbar_le lo (sa s) /\ Rbar_le (sa s) hi /\ Rbar_le lo (sb s) /\ Rbar_le (sb s) hi.
Proof.
  intros l NE. unfold range. pose proof (getBreaks_sorted l) as S. pose proof (fun y => ExtrFacts3.getBreaks_end l y) as G.
  destruct (getBreaks l) as [|a t].
  { destruct l as [|s l]; [congruence|]. assert (K : is_end (s :: l) (sa s)) by (exists s; simpl; auto). apply G in K. destruct K. }
  exists a, (last t a). split; auto.
  assert (L : In (last t a) (a :: t) /\ forall y, In y (a :: t) -> Rbar_le y (last t a)).
  { clear - S. revert a S. induction t as [|b t IH]; intros a S; [simpl; split; auto; intros y [<-|[]]; apply Rbar_le_refl|].
    inversion S as [|? ? S' F]; subst. destruct (IH b S') as (I1 & I2). assert (EL : last (b :: t) a = last t b). { destruct t as [|c t]; auto. simpl. clear. revert c. induction t; intros; simpl; auto. }
    rewrite EL. split; [right; auto|]. intros y [<-|H]; auto. apply (Rbar_le_trans _ b); auto. apply Rbar_lt_le. inversion F; auto. apply I2; simpl; auto. }
  assert (LO : forall y, In y (a :: t) -> Rbar_le a y).
  { intros y [<-|H]; [apply Rbar_le_refl|]. inversion S as [|? ? S' F]; subst. rewrite Forall_forall in F. apply Rbar_lt_le; auto. }
  splits.
  - assert (K : In a (a :: t)) by (left; auto). apply G in K. exact K.
  - destruct L as (K & _). apply G in K. exact K.
  - intros s Hs. assert (K1 : In (sa s) (a :: t)) by (apply G; exists s; auto). assert (K2 : In (sb s) (a :: t)) by (apply G; exists s; auto).
    splits; try apply LO; try apply L; auto.
Qed.

(** C71: the mode is not carried along by a change of unit when there is an atom: maximum compares the mass of an atom
    with values of the density.  Half the mass at 0 and half uniform on [1, 5/4]: the mode is in [1, 5/4], but the mode
    of ten times the variable is 0. *)
Lemma mode_scaling_refuted_main : exists l, density l /\ Forall nonneg_piece l /\ total_mass l = 1 /\
  forall eps fmin far vinf, 0 <= eps -> exact_min fmin -> exists q x, copyShiftedAndScaled eps l 0 10 = Ok q /\
    mode fmin far vinf l = Some (Finite x) /\ 1 <= x <= 5 / 4 /\ mode fmin far vinf (segs q) = Some (Finite 0).
Proof.
  exists [DiracSeg 0 (1/2); ConstSeg 0 1 0; ConstSeg 1 (5/4) 2].
  assert (DL : density [DiracSeg 0 (1/2); ConstSeg 0 1 0; ConstSeg 1 (5/4) 2]).
  { unfold density. split; [discriminate|]. split; [repeat constructor; simpl; lra|]. split.
    { constructor; [simpl; auto|]. constructor; [apply integrable_const; lra|]. constructor; [apply integrable_const; lra|constructor]. }
    split; [|simpl; auto]. repeat constructor; simpl; auto; try lra; intros K; injection K; lra. }
  assert (NN : Forall nonneg_piece [DiracSeg 0 (1/2); ConstSeg 0 1 0; ConstSeg 1 (5/4) 2]) by (repeat constructor; simpl; try (intros; lra); lra).
  splits; auto.
  { unfold total_mass. cbn [map mass sumR].
    assert (K : forall f a b, Rbar_lt a b -> RInt_gen (V := R_CompleteNormedModule) f (at_r a) (at_l b) = Q f a b) by (intros; symmetry; apply Q_RInt_gen; auto).
    rewrite !K by (simpl; auto; lra). cbn [sa sb]. change (sf (ConstSeg 0 1 0)) with (fun _ : R => 0). change (sf (ConstSeg 1 (5 / 4) 2)) with (fun _ : R => 2).
    rewrite !Q_const. unfold sumR. simpl. lra. }
  intros eps fmin far vinf E0 EM.
  set (g1 := shift_and_scale (sf (ConstSeg 0 1 0)) (1 / 10) 0). set (g2 := shift_and_scale (sf (ConstSeg 1 (5 / 4) 2)) (1 / 10) 0).
  assert (G1 : forall x, g1 x = 0) by (intros x; unfold g1, shift_and_scale; simpl; ring).
  assert (G2 : forall x, g2 x = 1 / 5) by (intros x; unfold g2, shift_and_scale; simpl; rewrite Rabs_pos_eq; lra).
  set (l1 := [DiracSeg (0 * 10 + 0) (1/2); Seg (0 * 10 + 0) (1 * 10 + 0) g1; Seg (1 * 10 + 0) (5/4 * 10 + 0) g2]).
  destruct (addAll_ordered eps l1) as (q & Q1 & Q2 & _).
  { unfold l1. repeat constructor; simpl; auto; try lra; intros K; injection K; lra. }
  { unfold l1. repeat constructor; simpl; lra. }
  { unfold l1, dirac_sep. repeat constructor; simpl; auto. }
  assert (C : forall a b, a < b -> a <= fmin (fun _ => - 2) a b <= b).
  { intros a b AB. apply (EM (fun _ => - 2) a b AB). exists a. split; [lra|]. split; intros ? ? _ _ _; lra. }
  exists q, (fmin (fun _ => - 2) 1 (5 / 4)). splits.
  - unfold copyShiftedAndScaled. rewrite (addMap_all eps _ _ l1); [exact Q1|]. unfold l1. repeat constructor; unfold seg_sas.
    + destruct (reqP 10 0); [lra|]. destruct (rltP 0 10); [reflexivity|lra].
    + destruct (reqP 10 0); [lra|]. destruct (rltP 0 10); [reflexivity|lra].
  - unfold mode, maximum. simpl. destruct (rltP (1 / 2) 0); [lra|]. simpl. destruct (rltP (1 / 2) 2); [reflexivity|lra].
  - apply C; lra.
  - apply C; lra.
  - rewrite Q2. unfold mode, maximum, l1. cbn [max_loop seg_maximum fst snd option_map sf sa sb real]. rewrite G1. destruct (rltP (1 / 2) 0); [lra|].
    cbn [snd]. rewrite G2. destruct (rltP (1 / 2) (1 / 5)); [lra|]. simpl. f_equal. f_equal. ring.
Qed.

(** C71: folding drops the mark of a singular end away from 0: the density 1 / (2 sqrt(x - 1)) on [1, 2], marked as
    unbounded at 1, becomes a piece of |X| without a mark that is unbounded at 1 all the same; squaring does the same. *)
Lemma fold_pole_refuted_main : exists s, density [s] /\ total_mass [s] = 1 /\ nonneg_piece s /\ hasLeftPole s = true /\
  forall F, F = absComposition \/ F = squareComposition -> exists t, F s = Ok t /\ hasLeftPole t = false /\ sa t = Finite 1 /\
    forall M, exists x, 1 < x /\ Rbar_lt (Finite x) (sb t) /\ M < sf t x.
Proof.
  set (f := fun x => / (2 * sqrt (x - 1))). exists (PoleSeg 1 2 f true).
  assert (P : integrable f 1 2 /\ Q f 1 2 = 1).
  { assert (C : forall x : R, continuous (fun x : R => sqrt (x - 1)) x).
    { intros x. apply (continuous_comp (fun x : R => x - 1) sqrt); [|apply continuous_sqrt].
      apply (continuous_minus (fun x : R => x) (fun _ => 1)); [apply continuous_id|apply continuous_const]. }
    destruct (ftc f (fun x => sqrt (x - 1)) 1 2 0 1) as (A & B).
    - simpl; lra.
    - intros x (X & _). simpl in X. assert (0 < sqrt (x - 1)) by (apply sqrt_lt_R0; lra). unfold f.
      auto_derive; [lra|]. unfold Rminus in *. field. lra.
    - intros x (X & _). simpl in X. assert (0 < sqrt (x - 1)) by (apply sqrt_lt_R0; lra). unfold f.
      apply ex_derive_continuous. auto_derive. unfold Rminus in *. split; [lra|split; [lra|auto]].
    - assert (L0 : sqrt (1 - 1) = 0) by ( replace (1 - 1) with 0 by lra; apply sqrt_0). pose proof (filterlim_at_r_cont (fun x : R => sqrt (x - 1)) 1 (C 1)) as LL. cbv beta in LL. rewrite L0 in LL. exact LL.
    - assert (L1 : sqrt (2 - 1) = 1) by ( replace (2 - 1) with 1 by lra; apply sqrt_1). pose proof (filterlim_at_l_cont (fun x : R => sqrt (x - 1)) 2 (C 2)) as LL. cbv beta in LL. rewrite L1 in LL. exact LL.
    - split; auto. rewrite B. lra. }
  assert (FP : forall x, 1 < x -> 0 < f x) by (intros x X; apply Rinv_0_lt_compat; apply Rmult_lt_0_compat; [lra|apply sqrt_lt_R0; lra]).
  splits.
  - unfold density. split; [discriminate|]. split; [repeat constructor; simpl; lra|]. split; [|split; [repeat constructor|simpl; auto]].
    constructor; [|constructor]. apply P.
  - unfold total_mass. cbn [map mass sumR].
    assert (K : forall f a b, Rbar_lt a b -> RInt_gen (V := R_CompleteNormedModule) f (at_r a) (at_l b) = Q f a b) by (intros; symmetry; apply Q_RInt_gen; auto).
    rewrite !K by (simpl; auto; lra). destruct P as (_ & P). change (sf (PoleSeg 1 2 f true)) with f. cbn [sa sb]. rewrite P. simpl; lra.
  - simpl. intros x X _. apply Rlt_le, FP. auto.
  - reflexivity.
  - assert (H : forall M, exists h, 0 < h < 1 /\ M < / (8 * sqrt h)).
    { intros M. set (k := / (8 * (Rabs M + 1))). pose proof (Rabs_pos M). assert (K : 0 < k) by (apply Rinv_0_lt_compat; lra).
      assert (K1 : k < 1) by (unfold k; rewrite <- Rinv_1; apply Rinv_lt_contravar; lra).
      exists (k * k). split; [split; nra|]. rewrite sqrt_square by lra. replace (/ (8 * k)) with (Rabs M + 1) by (unfold k; field; lra).
      pose proof (Rle_abs M). lra. }
    assert (E : (ble 0 (sa (PoleSeg 1 2 f true)) && blt 0 (sb (PoleSeg 1 2 f true)) || blt (sa (PoleSeg 1 2 f true)) 0 && ble (sb (PoleSeg 1 2 f true)) 0)%bool = true /\
                ble 0 (sa (PoleSeg 1 2 f true)) = true /\ blt 0 (sa (PoleSeg 1 2 f true)) = true).
    { cbn [sa sb]. destruct (bleP 0 1) as [_|K]; [|exfalso; apply K; simpl; lra]. destruct (bltP 0 2) as [_|K]; [|exfalso; apply K; simpl; lra].
      destruct (bltP 0 1) as [_|K]; [|exfalso; apply K; simpl; lra]. auto. }
    destruct E as (E1 & E2 & E3).
    intros F [-> | ->]; unfold absComposition, squareComposition, evenComposition; rewrite E1, E2, E3; cbn [sa sb sf]; eexists; splits; try reflexivity; cbn [sa sb sf].
    + simpl. f_equal. apply Rabs_R1.
    + intros M. destruct (H M) as (h & (H1 & H2) & H3). exists (1 + h). split; [lra|]. split; [simpl; rewrite Rabs_pos_eq; lra|].
      unfold sf, prob_comp, f. cbv beta. rewrite (Rabs_pos_eq (1 + h)), Rabs_R1 by lra. assert (RW : 1 + h - 1 = h) by ring; rewrite !RW. assert (0 < sqrt h) by (apply sqrt_lt_R0; lra).
      apply (Rlt_trans _ _ _ H3). rewrite Rmult_1_r. apply Rinv_lt_contravar; [apply Rmult_lt_0_compat; lra|lra].
    + simpl. f_equal. ring.
    + intros M. destruct (H M) as (h & (H1 & H2) & H3). exists ((1 + h) * (1 + h)). split; [nra|]. split; [simpl; nra|].
      unfold sf, prob_comp, f. cbv beta. rewrite sqrt_square by lra. assert (RW : 1 + h - 1 = h) by ring; rewrite !RW. assert (Hs : 0 < sqrt h) by (apply sqrt_lt_R0; lra).
      assert (Hd : 0 < 1 / 2 / (1 + h)) by (apply Rdiv_lt_0_compat; lra). rewrite Rabs_pos_eq by lra.
      apply (Rlt_trans _ _ _ H3). replace (/ (2 * sqrt h) * (1 / 2 / (1 + h))) with (/ (4 * (1 + h) * sqrt h)) by (field; lra). apply Rinv_lt_contravar; [repeat apply Rmult_lt_0_compat; lra|]. apply Rmult_lt_compat_r; lra.
Qed.
