(** Moments of the named distributions: Weibull, Frechet, normal, Laplace, Pareto. *)
From Coq Require Import Reals Lra Lia List Bool Sorted.
From Coquelicot Require Import Coquelicot.
From Verif Require Import Base Seg Piecewise PiecewiseSpec PiecewiseFacts2 Integral IntegralFacts SegIntSpec CumintFacts CumintFacts2 Std StdSpec StdFacts StdFacts2 StdFacts3 StdFacts4 StdFacts5 StdFacts7 StdFacts8 StdFacts9.
From Verif Require Import MomSpec Mom MomFacts3 MStdSpec MStdFacts MStdFacts2.
Import List ListNotations.
Open Scope R_scope.

(** increasing to 0 from the right *)
Lemma lim_at_right_0 {T} (F : (T -> Prop) -> Prop) {FF : Filter F} (g : T -> R) :
  F (fun x => 0 < g x) -> filterlim g F (locally 0) -> filterlim g F (at_right 0).
Proof.
  intros P L. intros A HA. unfold at_right, within in HA. specialize (L _ HA). unfold filtermap in *.
  generalize (filter_and _ _ P L). apply filter_imp. intros x (H1 & H2). auto.
Qed.

(** Weibull *)
Lemma weibull_power k lmbda (j : nat) : 0 < k -> 0 < lmbda ->
  has_val (fun x => x ^ j * weibull_f k lmbda x) 0 p_infty (lmbda ^ j * Gamma (1 + INR j / k)).
Proof.
  intros K L. pose proof (pos_INR j) as J.
  assert (J' : 0 <= INR j / k) by (apply Rmult_le_pos; auto; apply Rlt_le, Rinv_0_lt_compat; auto).
  pose proof (gamma_int (1 + INR j / k) ltac:(lra)) as I0.
  assert (Y : forall x : R, RbarIn 0 p_infty x -> 0 < x / lmbda) by (intros x (X & _); simpl in X; apply Rdiv_lt_0_compat; auto).
  apply (ii_up _ _ _ (fun x => exp (k * ln (x / lmbda))) (fun x => exp (k * ln (x / lmbda)) * (k / x)) 0 p_infty) in I0.
  - apply (ii_scal (lmbda ^ j)) in I0.
    eapply ii_ext; [|exact I0].
    intros x X. pose proof (Y x X) as Z. destruct X as (X & _). simpl in X. cbv beta.
    unfold weibull_f, weibull_pdf. destruct (rltP x 0); [lra|]. destruct (reqP x 0); [lra|]. simpl real.
    unfold gamma_kernel, Rpower. rewrite ln_exp.
    assert (LN : ln (x / lmbda) = ln x + - ln lmbda) by (unfold Rdiv; rewrite ln_mult, ln_Rinv by (auto; apply Rinv_0_lt_compat; auto); auto).
    replace ((1 + INR j / k - 1) * (k * ln (x / lmbda))) with (INR j * ln x + - (INR j * ln lmbda)) by (rewrite LN; field; lra).
    rewrite <- !Rpower_pow by auto. unfold Rpower.
    replace (ln (x / lmbda) * (k - 1) - exp (k * ln (x / lmbda))) with (k * ln (x / lmbda) + - ln (x / lmbda) + - exp (k * ln (x / lmbda))) by ring.
    rewrite !exp_plus, (exp_Ropp (ln (x / lmbda))), (exp_ln (x / lmbda)), (exp_Ropp (INR j * ln lmbda)) by auto.
    pose proof (exp_pos (INR j * ln lmbda)). field. lra.
  - simpl. auto.
  - intros x X. pose proof (Y x X) as Z. destruct X as (X & _). simpl in X. splits.
    + split; simpl; auto. apply exp_pos.
    + auto_derive; [exact Z|]. unfold Rdiv. field. lra.
    + apply der_cont. auto_derive. split; auto. lra.
    + apply gamma_kernel_cont. apply exp_pos.
  - simpl. apply (lim_at_right_0 (at_right 0)).
    + apply filter_forall. intros x. apply exp_pos.
    + apply (lim_exp_m (at_right 0)). apply (lim_aff_mm _ (fun x => ln (x / lmbda)) _ 0 k); [intros; ring|auto|].
      apply (filterlim_ext (fun x => ln ((x - 0) / lmbda))); [intros x; f_equal; field; lra|]. apply lim_ln_shift. lra.
  - simpl. apply (lim_exp_p (Rbar_locally p_infty)). apply (lim_aff_pp _ (fun x => ln (x / lmbda)) _ 0 k); [intros; ring|auto|].
    apply (filterlim_ext (fun x => ln ((x - 0) / lmbda))); [intros x; f_equal; field; lra|]. apply lim_ln_shift_p. lra.
Qed.

Lemma weibull_moments eps k lmbda : 0 < k -> 0 < lmbda ->
  has_moments (weibull_init eps k lmbda) (lmbda * Gamma (1 + 1 / k)) (lmbda ^ 2 * (Gamma (1 + 2 / k) - Gamma (1 + 1 / k) ^ 2)).
Proof.
  intros K L.
  apply (moments_raw _ (weibull_f k lmbda) 0 p_infty _ _ (lmbda ^ 2 * Gamma (1 + 2 / k))).
  - unfold weibull_init. rewrite (proj2 (rlt_true _ _) K), (proj2 (rlt_true _ _) L). cbv zeta. cbn [andb].
    destruct (rleP k 1) as [K1|K1]; [apply (pieces_make eps (weibull_f k lmbda) [Finite 0; Finite k; p_infty]); first [exact (eq_refl _)|simpl; lia|bps; lra]|].
    assert (M : 0 < lmbda * Rpower ((k - 1) / k) (1 / k)) by (apply Rmult_lt_0_compat; auto; apply exp_pos).
    destruct (is_int k); apply (pieces_make eps (weibull_f k lmbda) [Finite 0; Finite (lmbda * Rpower ((k - 1) / k) (1 / k)); p_infty]); first [exact (eq_refl _)|simpl; lia|bps; lra].
  - eapply ii_val; [eapply ii_ext; [|apply (weibull_power k lmbda 0); auto]|].
    + intros x X. simpl. ring.
    + simpl. replace (1 + 0 / k) with 1 by (field; lra). rewrite Gamma_1. ring.
  - eapply ii_val; [eapply ii_ext; [|apply (weibull_power k lmbda 1); auto]|].
    + intros x X. simpl. ring.
    + simpl. ring.
  - apply (weibull_power k lmbda 2); auto.
  - ring.
Qed.

(** Frechet *)
Lemma frechet_power alpha s m (j : nat) : INR j < alpha -> 0 < s ->
  has_val (fun x => (x - m) ^ j * frechet_pdf alpha s m x) m p_infty (s ^ j * Gamma (1 - INR j / alpha)).
Proof.
  intros JA S0. pose proof (pos_INR j) as J. assert (A : 0 < alpha) by lra.
  assert (J' : INR j / alpha < 1) by (apply Rmult_lt_reg_r with alpha; auto; unfold Rdiv; rewrite Rmult_assoc, Rinv_l; lra).
  pose proof (gamma_int (1 - INR j / alpha) ltac:(lra)) as I0.
  assert (Y : forall x : R, RbarIn m p_infty x -> 0 < (x - m) / s) by (intros x (X & _); simpl in X; apply Rdiv_lt_0_compat; lra).
  apply (ii_down _ _ _ (fun x => exp (- alpha * ln ((x - m) / s))) (fun x => exp (- alpha * ln ((x - m) / s)) * (- alpha / (x - m))) m p_infty) in I0.
  - apply (ii_scal (s ^ j)) in I0.
    eapply ii_ext; [|exact I0].
    intros x X. pose proof (Y x X) as Z. destruct X as (X & _). simpl in X. cbv beta.
    unfold frechet_pdf. destruct (rleP ((x - m) / s) 0); [lra|].
    unfold gamma_kernel, Rpower. rewrite ln_exp. assert (X' : 0 < x - m) by lra.
    assert (LN : ln ((x - m) / s) = ln (x - m) + - ln s) by (unfold Rdiv; rewrite ln_mult, ln_Rinv by (auto; apply Rinv_0_lt_compat; auto); auto).
    replace ((1 - INR j / alpha - 1) * (- alpha * ln ((x - m) / s))) with (INR j * ln (x - m) + - (INR j * ln s)) by (rewrite LN; field; lra).
    rewrite <- !Rpower_pow by auto. unfold Rpower.
    replace (- (alpha + 1) * ln ((x - m) / s) - exp (- alpha * ln ((x - m) / s)))
      with ((- alpha * ln ((x - m) / s) + - ln ((x - m) / s)) + - exp (- alpha * ln ((x - m) / s))) by ring.
    rewrite !exp_plus, (exp_Ropp (ln ((x - m) / s))), (exp_ln ((x - m) / s)), (exp_Ropp (INR j * ln s)) by auto.
    pose proof (exp_pos (INR j * ln s)). field. lra.
  - simpl. auto.
  - intros x X. pose proof (Y x X) as Z. destruct X as (X & _). simpl in X. splits.
    + split; simpl; auto. apply exp_pos.
    + auto_derive; [exact Z|]. unfold Rdiv, Rminus. field. lra.
    + apply der_cont. auto_derive. split; auto. lra.
    + apply gamma_kernel_cont. apply exp_pos.
  - simpl. apply (lim_exp_p (at_right m)). apply (lim_aff_mp _ (fun x => ln ((x - m) / s)) _ 0 (- alpha)); [intros; ring|lra|].
    apply lim_ln_shift. lra.
  - simpl. apply (lim_at_right_0 (Rbar_locally p_infty)).
    + apply filter_forall. intros x. apply exp_pos.
    + apply (lim_exp_m (Rbar_locally p_infty)). apply (lim_aff_pm _ (fun x => ln ((x - m) / s)) _ 0 (- alpha)); [intros; ring|lra|].
      apply lim_ln_shift_p. lra.
Qed.
Lemma frechet_pieces eps alpha s m : 0 < alpha -> 0 < s -> pieces (frechet_init eps alpha s m) (frechet_pdf alpha s m) m p_infty.
Proof.
  intros A S0. unfold frechet_init. rewrite (proj2 (rlt_true _ _) A), (proj2 (rlt_true _ _) S0). cbv zeta. cbn [andb].
  destruct (frechet_infl_order alpha A) as (O1 & O2). assert (IA : 0 < 1 / alpha) by (apply Rdiv_lt_0_compat; lra).
  pose proof (Rpower_lt_base _ _ (1 / alpha) IA O1 O2) as O3.
  pose proof (exp_pos (1 / alpha * ln (frechet_infl alpha (-1)))) as O4. fold (Rpower (frechet_infl alpha (-1)) (1 / alpha)) in O4.
  apply pieces_add; [carr; nra|simpl; auto].
Qed.
Lemma frechet_mean eps alpha s m : 1 < alpha -> 0 < s -> has_mean (frechet_init eps alpha s m) (m + s * Gamma (1 - 1 / alpha)).
Proof.
  intros A S0. apply (mean_of _ (frechet_pdf alpha s m) m p_infty); [apply frechet_pieces; lra|].
  pose proof (frechet_power alpha s m 0 ltac:(simpl; lra) S0) as I0. pose proof (frechet_power alpha s m 1 ltac:(simpl; lra) S0) as I1.
  apply (ii_scal m) in I0. pose proof (ii_plus _ _ _ _ _ _ I0 I1) as K.
  eapply ii_val; [eapply ii_ext; [|exact K]|].
  - intros x X. simpl. ring.
  - simpl. replace (1 - 0 / alpha) with 1 by (field; lra). rewrite Gamma_1. ring.
Qed.
Lemma frechet_moments eps alpha s m : 2 < alpha -> 0 < s ->
  has_moments (frechet_init eps alpha s m) (m + s * Gamma (1 - 1 / alpha)) (s ^ 2 * (Gamma (1 - 2 / alpha) - Gamma (1 - 1 / alpha) ^ 2)).
Proof.
  intros A S0. 
  pose proof (frechet_power alpha s m 0 ltac:(simpl; lra) S0) as I0. pose proof (frechet_power alpha s m 1 ltac:(simpl; lra) S0) as I1.
  pose proof (frechet_power alpha s m 2 ltac:(simpl; lra) S0) as I2.
  assert (E0 : s ^ 0 * Gamma (1 - INR 0 / alpha) = 1) by (simpl; replace (1 - 0 / alpha) with 1 by (field; lra); rewrite Gamma_1; ring).
  rewrite E0 in I0. clear E0.
  apply (moments_of _ (frechet_pdf alpha s m) m p_infty); [apply frechet_pieces; lra| |].
  - pose proof (ii_plus _ _ _ _ _ _ (ii_scal m _ _ _ _ I0) I1) as K.
    eapply ii_val; [eapply ii_ext; [|exact K]|].
    + intros x X. simpl. ring.
    + simpl. ring.
  - set (g := Gamma (1 - 1 / alpha)) in *.
    pose proof (ii_plus _ _ _ _ _ _ I2 (ii_plus _ _ _ _ _ _ (ii_scal (- (2 * (s * g))) _ _ _ _ I1) (ii_scal ((s * g) ^ 2) _ _ _ _ I0))) as K.
    eapply ii_val; [eapply ii_ext; [|exact K]|].
    + intros x X. simpl. ring.
    + simpl. fold g. replace (1 + 1) with 2 by ring. ring.
Qed.

(** normal *)
Lemma lim_gauss (j : nat) (F : (R -> Prop) -> Prop) {FF : Filter F} (g : R -> R) :
  filterlim (fun x => Rabs (g x)) F (Rbar_locally p_infty) -> filterlim (fun x => g x ^ j * exp (- (g x * g x) / 2)) F (locally 0).
Proof.
  intros H. apply (filterlim_norm_zero (U := R) (V := R_NormedModule)).
  assert (B : filterlim (fun x => Rpower (Rabs (g x)) (INR j) * exp (- Rabs (g x))) F (locally 0)).
  { apply (filterlim_comp _ _ _ (fun x => Rabs (g x)) (fun y => Rpower y (INR j) * exp (- y)) F (Rbar_locally p_infty)); auto. apply lim_pow_exp. }
  apply (lim_squeeze F _ _) with (2 := B).
  assert (U : F (fun x => 2 < Rabs (g x))) by (apply (H (fun y => 2 < y)); exists 2; auto).
  revert U. apply filter_imp. intros x X. unfold norm; simpl; unfold abs; simpl. split; [apply Rabs_pos|].
  rewrite Rabs_mult, <- RPow_abs, Rpower_pow by lra. rewrite (Rabs_pos_eq (exp _)) by (apply Rlt_le, exp_pos).
  apply Rmult_le_compat_l; [apply pow_le; lra|]. apply exp_mono.
  assert (g x * g x = Rabs (g x) * Rabs (g x)) by (rewrite <- Rabs_mult; rewrite Rabs_pos_eq; auto; apply Rle_0_sqr).
  rewrite H0. nra.
Qed.
Lemma normal_ints mu sigma : 0 < sigma -> has_val (normal_pdf mu sigma) m_infty p_infty 1 /\
  has_val (fun x => (x - mu) * normal_pdf mu sigma x) m_infty p_infty 0 /\
  has_val (fun x => (x - mu) ^ 2 * normal_pdf mu sigma x) m_infty p_infty (sigma ^ 2).
Proof.
  intros S0.
  assert (P0 : 0 < sqrt (2 * PI)) by (apply sqrt_lt_R0; pose proof PI_RGT_0; lra).
  assert (E : forall x, normal_pdf mu sigma x = / (sigma * sqrt (2 * PI)) * exp (- ((x - mu) / sigma * ((x - mu) / sigma)) / 2)).
  { intros x. unfold normal_pdf. replace (- ((x - mu) * (x - mu) * (0.5 / (sigma * sigma)))) with (- ((x - mu) / sigma * ((x - mu) / sigma)) / 2) by (replace 0.5 with (/ 2) by lra; field; lra). field. lra. }
  assert (LP : filterlim (fun x => Rabs ((x - mu) / sigma)) (Rbar_locally p_infty) (Rbar_locally p_infty)).
  { apply (filterlim_comp _ _ _ (fun x => (x - mu) / sigma) Rabs _ (Rbar_locally p_infty)).
    - apply (lim_aff_pp _ (fun x => x) _ (- mu / sigma) (/ sigma)); [intros; field; lra|apply Rinv_0_lt_compat; auto|apply lim_id_p].
    - apply (filterlim_Rabs p_infty). }
  assert (LM : filterlim (fun x => Rabs ((x - mu) / sigma)) (Rbar_locally m_infty) (Rbar_locally p_infty)).
  { apply (filterlim_comp _ _ _ (fun x => (x - mu) / sigma) Rabs _ (Rbar_locally m_infty)).
    - apply (lim_aff_mm _ (fun x => x) _ (- mu / sigma) (/ sigma)); [intros; field; lra|apply Rinv_0_lt_compat; auto|apply lim_id_m].
    - apply (filterlim_Rabs m_infty). }
  assert (I0 : has_val (normal_pdf mu sigma) m_infty p_infty 1).
  { apply (ii_ftc _ (normal_cdf mu sigma) m_infty p_infty 0 1); simpl; auto; [| | | |ring].
    - intros x _. unfold normal_cdf.
      replace (normal_pdf mu sigma x) with (scal (/ sigma) (gker ((x - mu) / sigma) / sqrt (2 * PI))).
      + apply (is_derive_comp Phi (fun x => (x - mu) / sigma)); [apply Phi_der|]. auto_derive; auto. field. lra.
      + unfold scal; simpl; unfold mult; simpl. rewrite E. unfold gker. field. lra.
    - intros x _. apply der_cont. unfold normal_pdf. auto_derive. auto.
    - unfold normal_cdf. eapply filterlim_comp; [|apply Phi_m].
      apply (lim_aff_mm _ (fun x => x) _ (- mu / sigma) (/ sigma)); [intros; field; lra|apply Rinv_0_lt_compat; auto|apply lim_id_m].
    - unfold normal_cdf. eapply filterlim_comp; [|apply Phi_p].
      apply (lim_aff_pp _ (fun x => x) _ (- mu / sigma) (/ sigma)); [intros; field; lra|apply Rinv_0_lt_compat; auto|apply lim_id_p]. }
  set (t := fun x => (x - mu) / sigma).
  assert (I1 : has_val (fun x => (x - mu) * normal_pdf mu sigma x) m_infty p_infty 0).
  { apply (ii_ftc _ (fun x => - (sigma / sqrt (2 * PI)) * (t x ^ 0 * exp (- (t x * t x) / 2))) m_infty p_infty 0 0); simpl at_r; simpl at_l; auto; [| | | | |ring].
    - simpl; auto.
    - intros x _. rewrite E. unfold t. auto_derive; auto. unfold Rdiv, Rminus. field. lra.
    - intros x _. apply der_cont. unfold normal_pdf. auto_derive. auto.
    - apply (lim_der (Rbar_locally m_infty) (fun y => - (sigma / sqrt (2 * PI)) * y) (fun x => t x ^ 0 * exp (- (t x * t x) / 2)) 0); [auto_derive; auto|ring|apply (lim_gauss 0 (Rbar_locally m_infty) t); auto].
    - apply (lim_der (Rbar_locally p_infty) (fun y => - (sigma / sqrt (2 * PI)) * y) (fun x => t x ^ 0 * exp (- (t x * t x) / 2)) 0); [auto_derive; auto|ring|apply (lim_gauss 0 (Rbar_locally p_infty) t); auto]. }
  assert (I2 : has_val (fun x => (x - mu) ^ 2 * normal_pdf mu sigma x + - sigma ^ 2 * normal_pdf mu sigma x) m_infty p_infty 0).
  { apply (ii_ftc _ (fun x => - (sigma ^ 2 / sqrt (2 * PI)) * (t x ^ 1 * exp (- (t x * t x) / 2))) m_infty p_infty 0 0); simpl at_r; simpl at_l; auto; [| | | | |ring].
    - simpl; auto.
    - intros x _. rewrite E. unfold t. auto_derive; auto. unfold Rdiv, Rminus. field. lra.
    - intros x _. apply der_cont. unfold normal_pdf. auto_derive. auto.
    - apply (lim_der (Rbar_locally m_infty) (fun y => - (sigma ^ 2 / sqrt (2 * PI)) * y) (fun x => t x ^ 1 * exp (- (t x * t x) / 2)) 0); [auto_derive; auto|ring|apply (lim_gauss 1 (Rbar_locally m_infty) t); auto].
    - apply (lim_der (Rbar_locally p_infty) (fun y => - (sigma ^ 2 / sqrt (2 * PI)) * y) (fun x => t x ^ 1 * exp (- (t x * t x) / 2)) 0); [auto_derive; auto|ring|apply (lim_gauss 1 (Rbar_locally p_infty) t); auto]. }
  splits; auto.
  pose proof (ii_plus _ _ _ _ _ _ I2 (ii_scal (sigma ^ 2) _ _ _ _ I0)) as K.
  eapply ii_val; [eapply ii_ext; [|exact K]|ring]. intros x X. simpl. ring.
Qed.
Lemma normal_moments eps mu sigma : 0 < sigma -> has_moments (normal_init eps mu sigma) mu (sigma ^ 2).
Proof.
  intros S0. destruct (normal_ints mu sigma S0) as (I0 & I1 & I2).
  apply (moments_of _ (normal_pdf mu sigma) m_infty p_infty); auto.
  - unfold normal_init. destruct (rleP sigma 0); [lra|]. cbv zeta. apply pieces_add; [carr; lra|simpl; auto].
  - pose proof (ii_plus _ _ _ _ _ _ (ii_scal mu _ _ _ _ I0) I1) as K.
    eapply ii_val; [eapply ii_ext; [|exact K]|ring]. intros x X. simpl. ring.
Qed.
