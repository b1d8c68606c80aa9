(** Declared singularities of the named distributions, continued. *)
From Coq Require Import Reals Lra Lia List Bool Sorted Arith.
From Coquelicot Require Import Coquelicot.
From Verif Require Import Base Seg Piecewise PiecewiseSpec Integral SegIntSpec Std StdSpec StdPoleSpec.
From Verif Require Import PiecewiseFacts2 IntegralFacts CumintFacts CumintFacts2 StdFacts StdFacts2 StdFacts3 StdFacts4 StdFacts5 StdPoleFacts.
Import List ListNotations.
Open Scope R_scope.

Lemma expo_pd eps lmbda : 0 < lmbda -> poles_declared (expo_init eps lmbda).
Proof.
  intros L. unfold expo_init. cbv zeta.
  assert (B : forall (a : R) b, 0 <= a -> bounded_on (expo_pdf lmbda) a b).
  { intros a b A. apply (bounded_exp _ (fun x => - lmbda * x) lmbda 0); [lra|]. intros x X _. simpl in X. right.
    unfold expo_pdf. destruct (rltP x 0); [lra|]. split; auto. nra. }
  pd_shape (Finite 0) p_infty; [apply tame_seg|apply tame_pinf]; apply B; lra.
Qed.

Lemma pareto_pd eps alpha xmin : 0 < alpha -> 0 < xmin -> poles_declared (pareto_init eps alpha xmin).
Proof.
  intros A X. unfold pareto_init. rewrite (proj2 (rlt_true _ _) A), (proj2 (rlt_true _ _) X). cbn [andb]. cbv zeta.
  assert (B : forall (a : R) b, xmin <= a -> bounded_on (pareto_pdf alpha xmin) a b).
  { intros a b H. apply (bounded_exp _ (fun x => - ((alpha + 1) * ln x)) (alpha * Rpower xmin alpha) (- ((alpha + 1) * ln xmin))).
    - apply Rmult_le_pos; [lra|left; apply Rpower_pos].
    - intros x Hx _. simpl in Hx. right. unfold pareto_pdf. cbv zeta. destruct (rltP x xmin); [lra|]. split.
      + unfold Rdiv. f_equal. rewrite exp_Ropp. reflexivity.
      + assert (ln xmin <= ln x) by (apply ln_le_mono; lra). nra. }
  pd_shape (Finite xmin) p_infty; [apply tame_seg|apply tame_pinf]; apply B; lra.
Qed.

Lemma levy_pd eps c xmin : 0 < c -> poles_declared (levy_init eps c xmin).
Proof.
  intros C. unfold levy_init. rewrite (proj2 (rlt_true _ _) C). cbv zeta.
  assert (B : forall (a : R) b, xmin <= a -> bounded_on (levy_pdf c xmin) a b).
  { intros a b H. apply (bounded_exp _ (fun x => ln (x - xmin) * (-1.5) - 0.5 * c / (x - xmin)) (sqrt (c / (2 * PI))) (1.5 * (ln (3 / c) - 1))); [apply sqrt_pos|].
    intros x Hx _. simpl in Hx. right. unfold levy_pdf. cbv zeta. destruct (rleP x xmin); [lra|]. split; auto.
    set (t := x - xmin). assert (T : 0 < t) by (unfold t; lra).
    assert (P : 0 < c / (3 * t)) by (apply Rdiv_lt_0_compat; lra).
    pose proof (ln_le_minus (c / (3 * t)) P) as Q.
    assert (E : ln (c / (3 * t)) = - ln (3 / c) - ln t).
    { replace (c / (3 * t)) with (/ (3 / c * t)) by (field; lra). assert (0 < 3 / c) by (apply Rdiv_lt_0_compat; lra).
      rewrite ln_Rinv by (apply Rmult_lt_0_compat; auto). rewrite ln_mult by auto. ring. }
    assert (E2 : 0.5 * c / t = 1.5 * (c / (3 * t))) by (replace 0.5 with (1 / 2) by lra; replace 1.5 with (3 / 2) by lra; field; lra). rewrite E2. rewrite E in Q. lra. }
  pd_shape (Finite xmin) p_infty; [apply tame_seg|apply tame_pinf]; apply B; lra.
Qed.

Lemma laplace_pd eps lmbda mu : 0 < lmbda -> poles_declared (laplace_init eps lmbda mu).
Proof.
  intros L. unfold laplace_init. rewrite (proj2 (rlt_true _ _) L). cbv zeta.
  assert (B : forall a b, bounded_on (laplace_pdf lmbda mu) a b).
  { intros a b. apply (bounded_exp _ (fun x => - Rabs (x - mu) / lmbda) (0.5 / lmbda) 0).
    - apply Rlt_le, Rdiv_lt_0_compat; lra.
    - intros x _ _. right. split; auto. pose proof (Rabs_pos (x - mu)). apply Rle_div_l; lra. }
  pd_shape m_infty p_infty; [apply tame_minf|apply tame_seg|apply tame_seg|apply tame_pinf]; auto.
Qed.

Lemma semi_pd eps r : 0 < r -> poles_declared (semi_init eps r).
Proof.
  intros H. unfold semi_init. rewrite (proj2 (rlt_true _ _) H). cbv zeta. pose proof PI_RGT_0 as HP.
  assert (B : forall a b, bounded_on (semi_pdf r) a b).
  { intros a b. assert (0 < PI * r * r) by (apply Rmult_lt_0_compat; auto; apply Rmult_lt_0_compat; auto). assert (0 < 2 / (PI * r * r)) by (apply Rdiv_lt_0_compat; lra).
    apply (bounded_pos _ (2 / (PI * r * r) * sqrt (r * r))). intros x _ _. unfold semi_pdf, semi_value. destruct (in_semi r x); [|split; [lra|apply Rmult_le_pos; [lra|apply sqrt_pos]]].
    split; [apply Rmult_le_pos; [lra|apply sqrt_pos]|]. apply Rmult_le_compat_l; [lra|]. apply sqrt_le_1_alt. nra. }
  pd_shape (Finite (- r)) (Finite r); [apply tame_lpole|apply tame_seg|apply tame_rpole]; intros; apply B.
Qed.

Lemma weibull_pd eps k lmbda : 0 < k -> 0 < lmbda -> poles_declared (weibull_init eps k lmbda).
Proof.
  intros K L. unfold weibull_init. rewrite (proj2 (rlt_true _ _) K), (proj2 (rlt_true _ _) L). cbn [andb]. cbv zeta.
  assert (B : forall c : R, 0 <= c -> 0 < c \/ 1 <= k -> bounded_on (weibull_f k lmbda) c p_infty).
  { intros c C H. apply (bounded_exp _ (fun x => ln (x / lmbda) * (k - 1) - Rpower (x / lmbda) k) (k / lmbda) (if Rle_dec 1 k then 0 else ln (c / lmbda) * (k - 1))).
    { apply Rlt_le, Rdiv_lt_0_compat; lra. }
    intros x X _. simpl in X. right. unfold weibull_f, weibull_pdf. destruct (rltP x 0); [lra|]. destruct (reqP x 0); [lra|]. cbn [real]. split; auto.
    unfold Rpower. set (w := ln (x / lmbda)). pose proof (exp_pos (k * w)). destruct (Rle_dec 1 k) as [H1|H1].
    - destruct (Rle_dec w 0); [nra|]. pose proof (exp_ineq1_le (k * w)). nra.
    - destruct H as [H|H]; [|lra]. assert (ln (c / lmbda) <= w).
      { unfold w. apply ln_le_mono; [apply Rdiv_lt_0_compat; lra|]. apply Rmult_le_compat_r; [left; apply Rinv_0_lt_compat; auto|lra]. }
      nra. }
  assert (G : forall b fl, 0 < b -> (fl = false -> 1 <= k) ->
     poles_declared (make_pwf eps (weibull_f k lmbda) [Finite 0; Finite b; p_infty] [fl; false; false] (no_poles [Finite 0; Finite b; p_infty]))).
  { intros b fl HB HF. apply pd_make0; [bps|simpl; lia|reflexivity|intros [|[|[|i]]]; reflexivity|].
    intros c C HC. apply B; auto. destruct fl; auto. }
  destruct (rleP k 1) as [H|H]; [apply G; auto; discriminate|].
  assert (P : 0 < lmbda * Rpower ((k - 1) / k) (1 / k)) by (apply Rmult_lt_0_compat; auto; apply Rpower_pos).
  destruct (is_int k); apply G; auto; intros; lra.
Qed.

Lemma gumbel_pd eps M mu sigma : 0 < sigma -> poles_declared (gumbel_init eps M mu sigma).
Proof.
  intros S. unfold gumbel_init. rewrite (proj2 (rlt_true _ _) S). cbv zeta.
  assert (B : forall a b, bounded_on (gumbel_pdf M mu sigma) a b).
  { intros a b. apply (bounded_exp _ (fun x => 1 / sigma * (mu - x) - exp (1 / sigma * (mu - x))) (1 / sigma) 0).
    - apply Rlt_le, Rdiv_lt_0_compat; lra.
    - intros x _ _. unfold gumbel_pdf. cbv zeta. destruct (rlt M (1 / sigma * (mu - x))); auto. right. split; auto.
      pose proof (exp_ineq1_le (1 / sigma * (mu - x))). lra. }
  set (l := ln ((3 + sqrt 5) / 2)).
  assert (HL : 0 < sigma * l).
  { apply Rmult_lt_0_compat; auto. unfold l. rewrite <- ln_1. pose proof (sqrt_pos 5). apply ln_increasing; lra. }
  pd_shape m_infty p_infty; [apply tame_minf|apply tame_seg|apply tame_pinf]; auto.
Qed.

Lemma frechet_pd eps alpha s m : 0 < alpha -> 0 < s -> poles_declared (frechet_init eps alpha s m).
Proof.
  intros A S. unfold frechet_init. rewrite (proj2 (rlt_true _ _) A), (proj2 (rlt_true _ _) S). cbn [andb]. cbv zeta.
  assert (B : forall a b, bounded_on (frechet_pdf alpha s m) a b).
  { intros a b. set (c := (alpha + 1) / alpha). assert (C : 0 < c) by (apply Rdiv_lt_0_compat; lra).
    apply (bounded_exp _ (fun x => - (alpha + 1) * ln ((x - m) / s) - Rpower ((x - m) / s) (- alpha)) (alpha / s) (c * ln c - c)).
    - apply Rlt_le, Rdiv_lt_0_compat; lra.
    - intros x _ _. unfold frechet_pdf. cbv zeta. destruct (rleP ((x - m) / s) 0); auto. right. split; auto.
      unfold Rpower. set (w := ln ((x - m) / s)). pose proof (exp_ineq1_le (- alpha * w - ln c)) as Q.
      unfold Rminus in Q. rewrite exp_plus, exp_Ropp, exp_ln in Q by auto.
      assert (E : - (alpha + 1) * w = c * (- alpha * w)) by (unfold c; field; lra). rewrite E.
      apply Rmult_le_compat_l with (r := c) in Q; [|lra].
      replace (c * (exp (- alpha * w) * / c)) with (exp (- alpha * w)) in Q by (field; lra). lra. }
  destruct (frechet_infl_order alpha A) as (I1 & I2).
  assert (J0 : 0 < 1 / alpha) by (apply Rdiv_lt_0_compat; lra).
  pose proof (Rpower_lt_base _ _ _ J0 I1 I2) as J. pose proof (Rpower_pos (frechet_infl alpha (-1)) (1 / alpha)) as J1.
  assert (K1 : 0 < Rpower (frechet_infl alpha (-1)) (1 / alpha) * s) by (apply Rmult_lt_0_compat; auto).
  assert (K2 : Rpower (frechet_infl alpha (-1)) (1 / alpha) * s < Rpower (frechet_infl alpha 1) (1 / alpha) * s) by (apply Rmult_lt_compat_r; auto).
  pd_shape (Finite m) p_infty; [apply tame_seg|apply tame_seg|apply tame_pinf]; apply B.
Qed.

Lemma loglog_pd eps k s : 0 < k -> 0 < s -> poles_declared (loglog_init eps k s).
Proof.
  intros K S. unfold loglog_init. destruct (rleP k 0); [lra|]. destruct (rleP s 0); [lra|]. cbv zeta.
  pose proof (loglog_breaks_sorted k s K S) as SB.
  assert (B : forall c : R, 0 <= c -> 0 < c \/ 1 <= k -> bounded_on (loglog_pdf k s) c p_infty).
  { intros c C H. apply (bounded_exp _ (fun x => ln k + k * ln s + (k - 1) * ln x - 2 * ln (exp (k * ln s) + exp (k * ln x))) 1
      (ln k + k * ln s + (if Rle_dec 1 k then Rmax (- (2 * (k * ln s))) (- (k * ln s)) else (k - 1) * ln c - 2 * (k * ln s)))); [lra|].
    intros x X _. simpl in X. right. unfold loglog_pdf. destruct (rleP 0 x); [|lra]. split; [unfold loglog_value; ring|].
    pose proof (exp_pos (k * ln s)). pose proof (exp_pos (k * ln x)).
    assert (L1 : k * ln s <= ln (exp (k * ln s) + exp (k * ln x))) by (rewrite <- (ln_exp (k * ln s)) at 1; apply ln_le_mono; lra).
    assert (L2 : k * ln x <= ln (exp (k * ln s) + exp (k * ln x))) by (rewrite <- (ln_exp (k * ln x)) at 1; apply ln_le_mono; lra).
    destruct (Rle_dec 1 k) as [G1|G1].
    - pose proof (Rmax_l (- (2 * (k * ln s))) (- (k * ln s))). pose proof (Rmax_r (- (2 * (k * ln s))) (- (k * ln s))).
      destruct (Rle_dec (ln x) 0); nra.
    - destruct H as [H|H]; [|exfalso; lra]. assert (ln c <= ln x) by (apply ln_le_mono; lra). nra. }
  assert (FL : (rlt k 1 || negb (is_int k))%bool = false -> 1 <= k).
  { intros E. apply orb_false_iff in E. destruct E as (E & _). destruct (rltP k 1); [discriminate|lra]. }
  unfold loglog_breaks in *. cbv zeta in *. destruct (rlt 1 k); [destruct (rlt 2 k)|]; cbn [app tl map] in *;
   (apply pd_make0; [exact SB|simpl; lia|reflexivity|intros [|[|[|[|i]]]]; reflexivity|];
    intros c C HC; apply B; auto; destruct (rlt k 1 || negb (is_int k))%bool; auto).
Qed.
