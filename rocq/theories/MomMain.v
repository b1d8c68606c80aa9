(** Main lemmas: mean, variance and moments (C59). *)
From Coq Require Import Reals Lra Lia List Bool Sorted Permutation FunctionalExtensionality.
From Coquelicot Require Import Coquelicot.
From Verif Require Import Base Seg Piecewise PiecewiseSpec PiecewiseFacts2 Integral IntegralFacts SegIntSpec SegIntFacts IndepSpec AtomFacts AtomFacts3 Indep Transform TransformSpec TransformFacts MixSpec Mix MixMain MomSpec Mom MomFacts MomFacts2 MomFacts3 MomFacts4 MomFacts5 MomFacts6.
Import List ListNotations.
Open Scope R_scope.

(** The number returned by mean is the mean of the law: it is determined by the probabilities of intervals,
    as the integral of P(X > x) over the positive numbers minus that of P(X < x) over the negative ones. *)
Lemma mean_exact_main : forall err l m, mean_ready l -> mean err l = Num m -> law_mean (pprob l) m.
Proof. intros err l m (W & HI & NN & C & HE) H. rewrite (mean_val err l m W H). apply tail_law. apply tail_list; auto. Qed.

(** Two representations of the same law have the same mean. *)
Lemma mean_same_law_main : forall err l l' m m', mean_ready l -> mean_ready l' ->
  (forall u v, Rbar_le u v -> pprob l u v = pprob l' u v) -> mean err l = Num m -> mean err l' = Num m' -> m = m'.
Proof.
  intros err l l' m m' H H' E M M'. apply (law_mean_unique (pprob l')).
  - apply (law_mean_ext (pprob l)); auto. apply (mean_exact_main err); auto.
  - apply (mean_exact_main err); auto.
Qed.

Lemma lin2 a b c l : Forall wf_seg l -> Forall has_int l -> has_expect (fun x => x) l -> has_expect (fun x => x ^ 2) l ->
  expect (fun x => a * x ^ 2 + b * x + c) l = a * expect (fun x => x ^ 2) l + b * expect (fun x => x) l + c * pprob l m_infty p_infty /\
  has_expect (fun x => a * x ^ 2 + b * x + c) l.
Proof.
  intros W HI H1 H2. destruct (expect_lin (fun x => x ^ 2) (fun x => x) a b l W H2 H1) as (A1 & A2).
  destruct (expect_lin (fun x => a * x ^ 2 + b * x) (fun _ => 1) 1 c l W A2 (const_has 1 l HI)) as (B1 & B2).
  rewrite expect_const in B1 by auto. rewrite A1 in B1.
  split.
  - rewrite (expect_ext _ (fun x => 1 * (a * x ^ 2 + b * x) + c * 1)) by (intros; ring). rewrite B1. ring.
  - intros s Hs D. apply (integrable_ext (fun x => (1 * (a * x ^ 2 + b * x) + c * 1) * sf s x)); [intros; ring|]. apply B2; auto.
Qed.
Lemma quad_centre m l : Forall wf_seg l -> Forall has_int l -> has_expect (fun x => x) l -> has_expect (fun x => x ^ 2) l -> 
  expect (fun x => (x - m) ^ 2) l = expect (fun x => x ^ 2) l - 2 * m * expect (fun x => x) l + m ^ 2 * pprob l m_infty p_infty /\ has_expect (fun x => (x - m) ^ 2) l.
Proof.
  intros W HI H1 H2. destruct (lin2 1 (- 2 * m) (m ^ 2) l W HI H1 H2) as (A & B). split.
  - rewrite (expect_ext _ (fun x => 1 * x ^ 2 + - 2 * m * x + m ^ 2)) by (intros; ring). rewrite A. ring.
  - intros s Hs D. apply (integrable_ext (fun x => (1 * x ^ 2 + - 2 * m * x + m ^ 2) * sf s x)); [intros; ring|]. apply B; auto.
Qed.

(** mean, var, std and moment are consistent: the variance is not negative and is the second moment minus the
    squared mean; std squared is the variance; the zeroth moment is 1, the first about the mean is 0 and the second
    about the mean is the variance. *)
Lemma moments_consistent_main : forall err l m v, prob_law l -> has_expect (fun x => x) l -> has_expect (fun x => x ^ 2) l ->
  mean err l = Num m -> var err l = Num v ->
  0 <= v /\
  (forall e, moment err l 2 (Some 0) = Num e -> v = e - m ^ 2) /\
  (std err l = Num (sqrt v) /\ sqrt v ^ 2 = v) /\
  (forall c e, moment err l 0 c = Num e -> e = 1) /\
  (forall e, moment err l 1 (Some 0) = Num e -> e = m) /\
  (forall e, moment err l 1 None = Num e -> e = 0) /\
  (forall e, moment err l 2 None = Num e -> e = v).
Proof.
  intros err l m v (W & HI & NN & T) H1 H2 M V. destruct (var_val err l v W V) as (m' & M' & Ev).
  rewrite M in M'. injection M' as <-. pose proof (mean_val err l m W M) as Em.
  destruct (quad_centre m l W HI H1 H2) as (C1 & C2). rewrite T, <- Em in C1.
  assert (V0 : 0 <= v).
  { rewrite Ev. replace 0 with (expect (fun _ => 0) l) by (rewrite expect_const by auto; ring). apply expect_le; auto; [apply const_has; auto|]. intros. apply pow2_ge_0. }
  splits; auto.
  - intros e E. unfold moment in E. apply meanf_val in E; auto. rewrite Ev, C1.
    rewrite (expect_ext _ (fun x => x ^ 2)) in E by (intros; ring). rewrite E. ring.
  - unfold std. rewrite V. destruct (rltP v 0); [lra|reflexivity].
  - simpl. rewrite Rmult_1_r. apply sqrt_sqrt; auto.
  - intros c e E. unfold moment in E. assert (E' : exists c', meanf err (fun x => (x - c') ^ 0) l = Num e) by (destruct c; [eauto|rewrite M in E; eauto]).
    destruct E' as (c' & E'). apply meanf_val in E'; auto. rewrite E'. rewrite (expect_ext _ (fun _ => 1)) by (intros; ring). rewrite expect_const by auto. rewrite T. ring.
  - intros e E. unfold moment in E. apply meanf_val in E; auto. rewrite E, Em. apply expect_ext. intros; ring.
  - intros e E. unfold moment in E. rewrite M in E. apply meanf_val in E; auto. rewrite E. rewrite (expect_ext _ (fun x => 1 * x + (- m) * 1)) by (intros; ring).
    destruct (expect_lin (fun x => x) (fun _ => 1) 1 (- m) l W H1 (const_has 1 l HI)) as (A & _). rewrite A, expect_const, T, <- Em by auto. ring.
  - intros e E. unfold moment in E. rewrite M in E. apply meanf_val in E; auto. rewrite E, Ev. reflexivity.
Qed.

(** When the error estimates are small the results are numbers, and they are the expectations. *)
Lemma moments_defined_main : forall err l, (forall f a b, err f a b = 0) -> Forall wf_seg l ->
  mean err l = Num (expect (fun x => x) l) /\ var err l = Num (expect (fun x => (x - expect (fun x => x) l) ^ 2) l) /\
  forall f, meanf err f l = Num (expect f l).
Proof.
  intros err l Z W.
  assert (M : mean err l = Num (expect (fun x => x) l)).
  { destruct (mean err l) as [m| |] eqn:E; [f_equal; apply (mean_val err); auto| |]; exfalso; unfold mean in E;
    assert (K : forall l I0, snd (mean_loop err l I0 0) = 0);
    try (clear -Z; induction l as [|s l IH]; intros I0; [reflexivity|]; simpl; assert (S2 : snd (mean_piece err s) = 0) by (destruct s; simpl; auto); destruct (mean_piece err s) as (i & e); simpl in S2; subst; rewrite Rplus_0_l; apply IH);
    specialize (K l 0); destruct (mean_loop err l 0 0) as (I0 & E0); simpl in K; subst; destruct (rltP (1 / 10) 0); try lra; discriminate. }
  splits; auto.
  - destruct (var err l) as [v| |] eqn:E.
    + destruct (var_val err l v W E) as (m & M' & ->). rewrite M in M'. injection M' as <-. reflexivity.
    + exfalso. unfold var in E. rewrite M in E. destruct (var_loop1 _ _ _ _ _) as (I0 & E0). destruct (rlt 1 E0); discriminate.
    + exfalso. unfold var in E. rewrite M in E.
      assert (K : forall m l I0, snd (var_loop1 err m l I0 0) = 0).
      { clear -Z. induction l as [|s l IH]; intros I0; [reflexivity|]. cbn [var_loop1]. destruct (var_cont err m s) as (i & e) eqn:Ev. unfold var_cont, piece_int in Ev.
        assert (e = 0) by (injection Ev as _ <-; apply Z). subst. rewrite Rplus_0_l. apply IH. }
      specialize (K (expect (fun x => x) l) (getSegments l) 0). destruct (var_loop1 _ _ _ _ _) as (I0 & E0). simpl in K. subst. destruct (rltP 1 0); try lra; discriminate.
  - intros f. destruct (meanf err f l) as [m| |] eqn:E; [f_equal; apply (meanf_val err); auto| |]; exfalso; unfold meanf in E;
    assert (K : forall l I0 aI, snd (meanf_loop err f l I0 aI 0) = 0);
    try (clear -Z; induction l as [|s l IH]; intros I0 aI; [reflexivity|]; simpl; assert (S2 : snd (meanf_piece err f s) = 0) by (destruct s; simpl; auto); destruct (meanf_piece err f s) as (i & e); simpl in S2; subst; rewrite Rabs_R0, Rplus_0_l; apply IH);
    specialize (K l 0 0); destruct (meanf_loop err f l 0 0 0) as ((I0 & aI) & E0); simpl in K; subst; replace (0 / aI) with 0 in E by (unfold Rdiv; ring); rewrite Rabs_R0 in E;
    destruct (rltP (1 / 1000) 0); try lra; rewrite andb_false_r in E; discriminate.
Qed.

(** scale*X + shift: the mean is scaled and shifted, the variance is scaled by the square, the standardised third
    moment keeps its absolute value and takes the sign of the scale, the fourth does not change. *)
Lemma moments_affine_main : forall err eps shift scale l, scale <> 0 -> ordered l -> prob_law l -> image_sep eps (affine shift scale) l ->
  (forall k, (1 <= k <= 4)%nat -> forall c, has_expect (fun x => (x - c) ^ k) l) ->
  exists q, copyShiftedAndScaled eps l shift scale = Ok q /\
  forall m m' v v', mean err l = Num m -> mean err (segs q) = Num m' -> var err l = Num v -> var err (segs q) = Num v' ->
    m' = scale * m + shift /\ v' = scale ^ 2 * v /\
    (forall t t', skewness err l = Num t -> skewness err (segs q) = Num t' -> t' = (if Rlt_dec 0 scale then t else - t)) /\
    (forall t t', kurtosis err l = Num t -> kurtosis err (segs q) = Num t' -> t' = t).
Proof.
  intros err eps shift scale l N O (W & HI & NN & T) SP HE.
  destruct (sas_expect eps shift scale l N O W HI SP) as (q & Eq & _ & W' & _ & EX). exists q. split; auto.
  intros m m' v v' M M' V V'.
  pose proof (mean_val err l m W M) as Em. pose proof (mean_val err (segs q) m' W' M') as Em'.
  destruct (var_val err l v W V) as (m1 & M1 & Ev). rewrite M in M1. injection M1 as <-.
  destruct (var_val err (segs q) v' W' V') as (m1 & M1 & Ev'). rewrite M' in M1. injection M1 as <-.
  assert (H1 : has_expect (fun x => x) l).
  { intros s Hs D. apply (integrable_ext (fun x => (x - 0) ^ 1 * sf s x)); [intros; ring|]. apply (HE 1%nat); auto. }
  destruct (expect_lin (fun x => x) (fun _ => 1) scale shift l W H1 (const_has 1 l HI)) as (A1 & A2).
  assert (HL : has_expect (fun x => (fun y => y) (x * scale + shift)) l).
  { intros s Hs D. apply (integrable_ext (fun x => (scale * x + shift * 1) * sf s x)); [intros; ring|]. apply A2; auto. }
  assert (Mm : m' = scale * m + shift).
  { destruct (EX (fun y => y) HL) as (B & _). rewrite Em', B. rewrite (expect_ext _ (fun x => scale * x + shift * 1)) by (intros; ring).
    rewrite A1, <- Em, expect_const, T by auto. ring. }
  assert (PW : forall k, (1 <= k <= 4)%nat -> expect (fun x => (x - m') ^ k) (segs q) = scale ^ k * expect (fun x => (x - m) ^ k) l).
  { intros k Hk. specialize (HE k Hk m).
    assert (EE : forall x, (x * scale + shift - m') ^ k = scale ^ k * (x - m) ^ k).
    { intros x. rewrite <- Rpow_mult_distr. f_equal. rewrite Mm. ring. }
    assert (HK : has_expect (fun x => (x * scale + shift - m') ^ k) l).
    { intros s Hs D. apply (integrable_ext (fun x => scale ^ k * ((x - m) ^ k * sf s x))); [intros; rewrite EE; ring|]. apply integrable_scal. apply HE; auto. }
    destruct (EX (fun y => (y - m') ^ k) HK) as (B & _). rewrite B. rewrite (expect_ext _ (fun x => scale ^ k * (x - m) ^ k + 0 * 1)) by (intros; rewrite EE; ring).
    destruct (expect_lin (fun x => (x - m) ^ k) (fun _ => 1) (scale ^ k) 0 l W HE (const_has 1 l HI)) as (C1 & _). rewrite C1. ring. }
  assert (VV : v' = scale ^ 2 * v) by (rewrite Ev', Ev; apply PW; lia).
  assert (AB : 0 < Rabs scale) by (apply Rabs_pos_lt; auto).
  assert (S2 : scale ^ 2 = Rabs scale ^ 2) by (rewrite pow2_abs; auto).
  assert (SH : forall k e t t', (1 <= k <= 4)%nat -> shape err l k e = Num t -> shape err (segs q) k e = Num t' -> 0 < v /\ t' = scale ^ k / Rpower (scale ^ 2) e * t).
  { intros k e t t' Hk. unfold shape. rewrite V, V'. destruct (reqP v 0) as [|Nv]; [discriminate|]. destruct (reqP v' 0) as [|Nv']; [discriminate|].
    unfold about_mean. rewrite M, M'. unfold moment.
    destruct (meanf err (fun x => (x - m) ^ k) l) as [a| |] eqn:Ea; [|discriminate|discriminate].
    destruct (meanf err (fun x => (x - m') ^ k) (segs q)) as [a'| |] eqn:Ea'; [|discriminate|discriminate]. unfold over_power.
    destruct (rltP v 0) as [|Vp]; [discriminate|]. destruct (rltP v' 0) as [|Vp']; [discriminate|]. intros Et Et'.
    apply meanf_val in Ea; auto. apply meanf_val in Ea'; auto. rewrite PW, <- Ea in Ea' by auto.
    assert (P0 : 0 < v) by lra. split; auto. injection Et as <-. injection Et' as <-. rewrite Ea', VV.
    assert (P2 : 0 < scale ^ 2) by (rewrite S2; apply pow_lt; auto).
    rewrite <- Rpower_mult_distr by auto. field. split; apply Rgt_not_eq, exp_pos. }
  splits; auto.
  - intros t t' E1 E2. destruct (SH 3%nat (3 / 2) t t' ltac:(lia) E1 E2) as (P0 & ->).
    assert (R3 : Rpower (scale ^ 2) (3 / 2) = Rabs scale ^ 3).
    { rewrite S2. rewrite <- Rpower_pow by auto. rewrite Rpower_mult. rewrite <- Rpower_pow by auto. f_equal. simpl. field. }
    rewrite R3. destruct (Rlt_dec 0 scale) as [S|S].
    + rewrite Rabs_pos_eq by lra. field. auto.
    + rewrite Rabs_left by lra. field. auto.
  - intros t t' E1 E2. destruct (SH 4%nat 2 t t' ltac:(lia) E1 E2) as (P0 & ->).
    replace (Rpower (scale ^ 2) 2) with (scale ^ 4); [field; auto|].
    assert (R2 : forall y, 0 < y -> Rpower y 2 = y ^ 2) by (intros y Y; rewrite <- Rpower_pow by auto; f_equal).
    rewrite R2 by (rewrite S2; apply pow_lt; auto). ring.
Qed.

(** The mean lies in the range of the density. *)
Lemma mean_in_range_main : forall err l m a b, prob_law l -> has_expect (fun x => x) l -> mean err l = Num m -> pw_range l = Ok (a, b) ->
  Rbar_le a m /\ Rbar_le m b.
Proof.
  intros err l m a b (W & HI & NN & T) HE M RG.
  assert (RB : forall s, In s l -> Rbar_le a (sa s) /\ Rbar_le (sb s) b).
  { unfold pw_range in RG. pose proof (getBreaks_sorted l) as SS. pose proof (getBreaks_In l) as GI. destruct (getBreaks l) as [|c bs] eqn:Eb; [discriminate|].
    assert (Ea : a = c) by congruence. assert (Elast : b = last (c :: bs) c) by congruence. clear RG.
    assert (K : forall y, In y (c :: bs) -> Rbar_le c y /\ Rbar_le y (last (c :: bs) c)).
    { clear - SS. intros y Hy. split.
      - apply StronglySorted_inv in SS. destruct SS as (_ & F). rewrite Forall_forall in F. destruct Hy as [<-|Hy]; [apply Rbar_le_refl|apply Rbar_lt_le, F; auto].
      - revert y Hy. generalize c at 3. revert SS. generalize (c :: bs). intros k SS d. induction SS as [|x k SS IH F]; intros y Hy; [destruct Hy|].
        destruct k as [|z k]; [destruct Hy as [<-|[]]; apply Rbar_le_refl|].
        change (last (x :: z :: k) d) with (last (z :: k) d). destruct Hy as [<-|Hy]; [|apply IH; auto].
        eapply Rbar_le_trans; [|apply IH; left; reflexivity]. rewrite Forall_forall in F. apply Rbar_lt_le, F. left; auto. }
    intros s Hs. rewrite Ea, Elast. split; apply K; apply GI; exists s; auto. }
  pose proof (mean_val err l m W M) as Em.
  assert (C : forall c, expect (fun _ => c) l = c) by (intros; rewrite expect_const, T by auto; ring).
  split.
  - destruct a as [a| |]; [|destruct l as [|s l]|exact I].
    + simpl. rewrite Em, <- (C a). apply expect_le; auto; [apply const_has; auto|]. intros x (s & Hs & X). destruct (RB s Hs) as (R1 & R2).
      destruct (isDirac s) eqn:D; [destruct s; try discriminate; subst; exact R1|].
      assert (Rbar_le a x); [|auto]. apply (Rbar_le_trans _ (sa s)); auto. apply Rbar_lt_le. destruct s; try discriminate; apply X.
    + unfold pprob in T. simpl in T. lra.
    + exfalso. destruct (RB s (or_introl eq_refl)) as (R1 & R2). inversion W; subst. destruct (isDirac s) eqn:D; [destruct s; try discriminate; exact R1|].
      pose proof (wf_lt s D H1) as LT. destruct (sa s); simpl in R1; contradiction.
  - destruct b as [b| |]; [|exact I|destruct l as [|s l]].
    + simpl. rewrite Em, <- (C b). apply expect_le; auto; [apply const_has; auto|]. intros x (s & Hs & X). destruct (RB s Hs) as (R1 & R2).
      destruct (isDirac s) eqn:D; [destruct s; try discriminate; subst; exact R2|].
      assert (Rbar_le x b); [|auto]. apply (Rbar_le_trans _ (sb s)); auto. apply Rbar_lt_le. destruct s; try discriminate; apply X.
    + unfold pprob in T. simpl in T. lra.
    + exfalso. destruct (RB s (or_introl eq_refl)) as (R1 & R2). inversion W; subst. destruct (isDirac s) eqn:D; [destruct s; try discriminate; exact R2|].
      pose proof (wf_lt s D H1) as LT. destruct (sb s); simpl in R2; try contradiction; destruct (sa s); contradiction.
Qed.

(** Chebyshev's inequality holds between the variance returned and the probabilities. *)
Lemma chebyshev_main : forall err l m v k, prob_law l -> has_expect (fun x => x) l -> has_expect (fun x => x ^ 2) l ->
  mean err l = Num m -> var err l = Num v -> 0 <= k ->
  k ^ 2 * (pprob l m_infty (Finite (m - k)) + pprob l (Finite (m + k)) p_infty) <= v.
Proof.
  intros err l m v k (W & HI & NN & T) H1 H2 M V K. destruct (var_val err l v W V) as (m' & M' & Ev). rewrite M in M'. injection M' as <-.
  destruct (quad_centre m l W HI H1 H2) as (_ & C2). rewrite Ev.
  apply markov; auto; [lra|apply pow2_ge_0|intros; apply pow2_ge_0|]. intros x _ [X|X].
  - assert (0 <= (m - x - k) * (m - x + k)) by (apply Rmult_le_pos; lra). lra.
  - assert (0 <= (x - m - k) * (x - m + k)) by (apply Rmult_le_pos; lra). lra.
Qed.

(** Sums and products of independent discrete variables: the means add and the variances add; the mean of the
    product is the product of the means. *)
Lemma moments_discrete_main : forall err eps f g q, 0 <= eps -> discrete f -> discrete g -> prob_law f -> prob_law g ->
  (forall h a b, err h a b = 0) ->
  (values_sep eps Rplus f g -> convdiracs eps Rplus f g = Ok q ->
    exists m m' v v', mean err f = Num m /\ mean err g = Num m' /\ var err f = Num v /\ var err g = Num v' /\
      mean err (segs q) = Num (m + m') /\ var err (segs q) = Num (v + v')) /\
  (values_sep eps Rmult f g -> convdiracs eps Rmult f g = Ok q ->
    exists m m', mean err f = Num m /\ mean err g = Num m' /\ mean err (segs q) = Num (m * m')).
Proof.
  intros err eps f g q He Df Dg (Wf & Hf & _ & Tf) (Wg & Hg & _ & Tg) Z.
  destruct (moments_defined_main err f Z Wf) as (Mf & Vf & _). destruct (moments_defined_main err g Z Wg) as (Mg & Vg & _).
  assert (One : forall l, discrete l -> Forall wf_seg l -> Forall has_int l -> pprob l m_infty p_infty = 1 -> watom (fun _ => 1) l = 1).
  { intros l D W HI T. rewrite <- expect_watom by auto. rewrite expect_const by auto. rewrite T. ring. }
  pose proof (One f Df Wf Hf Tf) as Of. pose proof (One g Dg Wg Hg Tg) as Og.
  assert (WQ : forall l, discrete l -> Forall wf_seg l).
  { intros l D. apply Forall_forall. intros s Hs. unfold discrete in D. rewrite Forall_forall in D. specialize (D s Hs). destruct s; try discriminate. exact I. }
  assert (PSL : forall u1 v1 u2 v2 c1 c2, pair_sum (fun x y => c1 * (u1 x * v1 y) + c2 * (u2 x * v2 y)) f g = c1 * (watom u1 f * watom v1 g) + c2 * (watom u2 f * watom v2 g)).
  { intros. rewrite pair_sum_plus, !pair_sum_scal, !pair_sum_mult. reflexivity. }
  split; intros SV E.
  - destruct (conv_expect eps Rplus f g q (fun x => x) He SV E) as (E1 & Dq). 
    destruct (moments_defined_main err (segs q) Z (WQ _ Dq)) as (Mq & Vq & _).
    exists (expect (fun x => x) f), (expect (fun x => x) g). eexists. eexists. splits; eauto.
    + rewrite Mq. f_equal. rewrite E1. rewrite (pair_sum_ext _ (fun x y => 1 * (x * 1) + 1 * (1 * y))) by (intros; ring).
      rewrite (PSL (fun x => x) (fun _ => 1) (fun _ => 1) (fun y => y)). rewrite Of, Og. rewrite !expect_watom by auto. ring.
    + rewrite Vq. f_equal. set (mf := expect (fun x => x) f) in *. set (mg := expect (fun x => x) g) in *.
      assert (Eq : expect (fun x => x) (segs q) = mf + mg).
      { rewrite E1. rewrite (pair_sum_ext _ (fun x y => 1 * (x * 1) + 1 * (1 * y))) by (intros; ring).
        rewrite (PSL (fun x => x) (fun _ => 1) (fun _ => 1) (fun y => y)). rewrite Of, Og. unfold mf, mg. rewrite !expect_watom by auto. ring. }
      rewrite Eq. destruct (conv_expect eps Rplus f g q (fun x => (x - (mf + mg)) ^ 2) He SV E) as (E2 & _). rewrite E2.
      rewrite (pair_sum_ext _ (fun x y => (1 * ((x - mf) ^ 2 * 1) + 1 * (1 * (y - mg) ^ 2)) + 2 * ((x - mf) * (y - mg)))) by (intros; ring).
      rewrite pair_sum_plus, (PSL (fun x => (x - mf) ^ 2) (fun _ => 1) (fun _ => 1) (fun y => (y - mg) ^ 2)). rewrite pair_sum_scal.
      rewrite (pair_sum_mult (fun x => x - mf) (fun y => y - mg)).
      assert (Z1 : watom (fun x => x - mf) f = 0).
      { rewrite <- expect_watom by auto. rewrite (expect_ext _ (fun x => 1 * x + (- mf) * 1)) by (intros; ring).
        destruct (expect_lin (fun x => x) (fun _ => 1) 1 (- mf) f Wf (discrete_has _ _ Df) (discrete_has _ _ Df)) as (K & _). rewrite K, expect_const, Tf by auto. unfold mf. ring. }
      rewrite Z1, Of, Og. rewrite !expect_watom by auto. ring.
  - destruct (conv_expect eps Rmult f g q (fun x => x) He SV E) as (E1 & Dq). 
    destruct (moments_defined_main err (segs q) Z (WQ _ Dq)) as (Mq & _ & _).
    exists (expect (fun x => x) f), (expect (fun x => x) g). splits; auto. rewrite Mq. f_equal. rewrite E1.
    rewrite (pair_sum_mult (fun x => x) (fun y => y)). rewrite !expect_watom by auto. reflexivity.
Qed.

(** The mean of a mixture is the weighted sum of the means. *)
Lemma mean_mixture_main : forall err eps ps cs ms q m, 0 <= eps -> length ps = length cs -> Forall (component eps) cs ->
  (forall c d, In c cs -> In d cs -> cross_sep eps c d) -> Forall (fun p => 0 <= p) ps -> Forall mean_ready cs ->
  Forall2 (fun c mc => mean err c = Num mc) cs ms -> mix_pdf eps ps cs = Ok q -> mean err (segs q) = Num m ->
  m = sumR (map (fun pm => fst pm * snd pm) (combine ps ms)).
Proof.
  intros err eps ps cs ms q m He L C X P0 R F E M.
  assert (NE : cs <> []) by (intros ->; destruct ps; [discriminate E|discriminate L]).
  pose proof (mix_ready eps ps cs q He L C X P0 R E) as Rq.
  destruct (mix_exact_main eps ps cs He L NE C X) as (q' & E' & _ & P). rewrite E in E'. injection E' as <-.
  apply (law_mean_unique (mixture_prob ps cs)).
  - apply (law_mean_ext (pprob (segs q))); auto. apply (mean_exact_main err); auto.
  - apply law_mean_mix; auto. clear - F R. induction F; constructor; inversion R; subst; auto. apply (mean_exact_main err); auto.
Qed.
