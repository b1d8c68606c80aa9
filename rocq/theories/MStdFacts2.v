(** Moments of the named distributions: the gamma integral; uniform, gamma, chi-square, exponential. *)
From Coq Require Import Reals Lra Lia List Bool Sorted.
From Coquelicot Require Import Coquelicot.
From Verif Require Import Base Seg Piecewise PiecewiseSpec PiecewiseFacts2 Integral IntegralFacts SegIntSpec CumintFacts CumintFacts2 Std StdSpec StdFacts StdFacts2 StdFacts3 StdFacts4 StdFacts8 StdFacts9.
From Verif Require Import MomSpec Mom MomFacts3 MStdSpec MStdFacts.
Import List ListNotations.
Open Scope R_scope.

Lemma ln_le_lin x c : 0 < x -> 0 < c -> ln x <= x / c - 1 + ln c.
Proof.
  intros X C. assert (D : 0 < x / c) by (apply Rdiv_lt_0_compat; auto).
  pose proof (exp_ineq1_le (ln (x / c))) as E. rewrite exp_ln in E by auto.
  unfold Rdiv in E at 1. rewrite ln_mult, ln_Rinv in E by (auto; apply Rinv_0_lt_compat; auto). lra.
Qed.

(** a quantity between 0 and another with limit 0 *)
Lemma lim_squeeze {T} (F : (T -> Prop) -> Prop) {FF : Filter F} (f g : T -> R) :
  F (fun x => 0 <= f x <= g x) -> filterlim g F (locally 0) -> filterlim f F (locally 0).
Proof.
  intros B G. apply (filterlim_le_le (F := F) (fun _ => 0) f g (Finite 0)); auto.
  apply filterlim_const.
Qed.

(** powers times exp(-x) vanish at infinity *)
Lemma lim_pow_exp (k : R) : filterlim (fun x => Rpower x k * exp (- x)) (Rbar_locally p_infty) (locally 0).
Proof.
  set (c := 2 * (Rabs k + 1)). assert (C : 0 < c) by (unfold c; pose proof (Rabs_pos k); lra).
  apply (lim_squeeze _ _ (fun x => exp (Rabs k * (ln c) + (- / 2) * x))).
  - exists (Rmax 1 c). intros x X. pose proof (Rmax_l 1 c). pose proof (Rmax_r 1 c). unfold Rpower. rewrite <- exp_plus.
    split; [apply Rlt_le, exp_pos|]. apply exp_mono.
    assert (L0 : 0 <= ln x) by (rewrite <- ln_1; apply Rlt_le, ln_increasing; lra).
    pose proof (ln_le_lin x c ltac:(lra) C) as L1.
    assert (k * ln x <= Rabs k * ln x) by (apply Rmult_le_compat_r; auto; apply Rle_abs).
    assert (Rabs k * ln x <= Rabs k * (x / c - 1 + ln c)) by (apply Rmult_le_compat_l; auto; apply Rabs_pos).
    assert (Rabs k * (x / c) <= / 2 * x).
    { replace (/ 2 * x) with ((Rabs k + 1) * (x / c)) by (unfold c; field; pose proof (Rabs_pos k); lra).
      apply Rmult_le_compat_r; [apply Rlt_le, Rdiv_lt_0_compat; lra|lra]. }
    pose proof (Rabs_pos k). nra.
  - apply (lim_exp_m (Rbar_locally p_infty)). apply (lim_aff_pm _ (fun x => x) _ (Rabs k * ln c) (- / 2)); [intros; ring|lra|apply lim_id_p].
Qed.
(** positive powers vanish at 0 *)
Lemma lim_pow_0 (k : R) : 0 < k -> filterlim (fun x => Rpower x k) (at_right 0) (locally 0).
Proof.
  intros K. unfold Rpower. apply (lim_exp_m (at_right 0)).
  apply (lim_aff_mm _ ln _ 0 k); [intros; ring|auto|]. 
  apply (filterlim_ext (fun x => ln ((x - 0) / 1))); [intros x; f_equal; field|]. apply lim_ln_shift. lra.
Qed.

Lemma gamma_int k : 0 < k -> has_val (gamma_kernel k) 0 p_infty (Gamma k).
Proof. intros K. destruct (gamma_prim k K) as (G & P). rewrite (Gamma_prim k G P). apply ii_prim; auto. Qed.

Lemma Gamma_1 : Gamma 1 = 1.
Proof.
  apply (ii_unique (gamma_kernel 1) 0 p_infty); [apply gamma_int; lra|].
  apply (ii_ext (fun t => exp (- t))).
  { intros x (X & _). simpl in X. unfold gamma_kernel. rewrite Rminus_eq_0, Rpower_O by auto. ring. }
  apply (ii_ftc _ (fun t => - exp (- t)) 0 p_infty (-1) 0); simpl; auto.
  - intros x _. auto_derive; auto. ring.
  - intros x _. apply der_cont. auto_derive. auto.
  - apply lim_r_cont; [auto_derive; auto|]. rewrite Ropp_0, exp_0. lra.
  - apply (lim_der (Rbar_locally p_infty) (fun y => - y) (fun t => exp (- t)) 0); [auto_derive; auto|ring|].
    apply (lim_exp_m (Rbar_locally p_infty)). apply (lim_aff_pm _ (fun x => x) _ 0 (-1)); [intros; ring|lra|apply lim_id_p].
  - ring.
Qed.

Lemma Gamma_succ k : 0 < k -> Gamma (k + 1) = k * Gamma k.
Proof.
  intros K.
  assert (E : has_val (fun t => k * gamma_kernel k t + - 1 * gamma_kernel (k + 1) t) 0 p_infty 0).
  { apply (ii_ftc _ (fun t => Rpower t k * exp (- t)) 0 p_infty 0 0); simpl; auto.
    - intros x (X & _). simpl in X. unfold Rpower, gamma_kernel, Rpower. auto_derive; auto.
      replace (k + 1 - 1) with k by ring.
      replace ((k - 1) * ln x) with (k * ln x + - ln x) by ring. rewrite exp_plus, (exp_Ropp (ln x)), exp_ln by auto. field. lra.
    - intros x (X & _). simpl in X. apply der_cont. unfold gamma_kernel, Rpower. auto_derive. auto.
    - apply (lim_squeeze (at_right 0) _ (fun t => Rpower t k)); [|apply lim_pow_0; auto].
      exists (mkposreal 1 Rlt_0_1). intros t _ T. pose proof (exp_pos (k * ln t)) as P1. pose proof (exp_pos (- t)) as P2.
      assert (exp (- t) <= 1) by (rewrite <- exp_0; apply exp_mono; lra). unfold Rpower. split; nra.
    - apply lim_pow_exp.
    - ring. }
  assert (E' : has_val (fun t => k * gamma_kernel k t + - 1 * gamma_kernel (k + 1) t) 0 p_infty (k * Gamma k + - 1 * Gamma (k + 1))).
  { apply (ii_plus (fun t => k * gamma_kernel k t) (fun t => - 1 * gamma_kernel (k + 1) t)); apply (ii_scal _ (gamma_kernel _)); apply gamma_int; lra. }
  pose proof (ii_unique _ _ _ _ _ E E'). lra.
Qed.

(** uniform *)
Lemma uniform_moments eps (a b : R) : a < b -> has_moments (uniform_init eps a b) ((a + b) / 2) ((b - a) ^ 2 / 12).
Proof.
  intros L. unfold uniform_init. destruct (reqP (b - a) 0); [lra|].
  apply (moments_of _ (fun _ => 1 / (b - a)) a b).
  - apply pieces_add; [|simpl; auto]. apply Forall_cons; [|apply Forall_nil]. repeat split; simpl; auto. discriminate.
  - apply (ii_ftc _ (fun x => x ^ 2 / (2 * (b - a))) a b (a ^ 2 / (2 * (b - a))) (b ^ 2 / (2 * (b - a)))); simpl; auto.
    + intros x _. auto_derive; auto. field. lra.
    + intros x _. apply der_cont. auto_derive. auto.
    + apply (lim_r_cont (fun x => x * (x * 1) / (2 * (b - a)))); [auto_derive; auto|auto].
    + apply (lim_l_cont (fun x => x * (x * 1) / (2 * (b - a)))); [auto_derive; auto|auto].
    + field. lra.
  - set (m := (a + b) / 2).
    apply (ii_ftc _ (fun x => (x - m) ^ 3 / (3 * (b - a))) a b ((a - m) ^ 3 / (3 * (b - a))) ((b - m) ^ 3 / (3 * (b - a)))).
    + simpl. auto.
    + intros x _. auto_derive; auto. field. lra.
    + intros x _. apply der_cont. auto_derive. auto.
    + apply (lim_r_cont (fun x => (x - m) ^ 3 / (3 * (b - a)))); [auto_derive; auto|auto].
    + apply (lim_l_cont (fun x => (x - m) ^ 3 / (3 * (b - a)))); [auto_derive; auto|auto].
    + unfold m. field. lra.
Qed.

(** powers times the gamma density *)
Lemma gamma_power lg k theta (j : nat) : 0 < k -> 0 < theta -> is_lgamma lg k ->
  has_val (fun x => x ^ j * exp (gamma_log_pdf lg k theta x)) 0 p_infty (theta ^ j * Gamma (k + INR j) / Gamma k).
Proof.
  intros K TH LG. pose proof (pos_INR j) as J.
  pose proof (gamma_int (k + INR j) ltac:(lra)) as I0.
  apply (ii_up _ _ _ (fun x => x / theta) (fun _ => / theta) 0 p_infty) in I0.
  - apply (ii_scal (theta ^ j / Gamma k)) in I0. pose proof (Gamma_pos k K).
    eapply ii_val; [eapply ii_ext; [|exact I0]|field; lra].
    intros x (X & _). simpl in X. cbv beta. rewrite <- LG. rewrite <- !Rpower_pow by auto.
    unfold gamma_kernel, gamma_log_pdf, Rpower.
    assert (L : ln (x / theta) = ln x + - ln theta) by (unfold Rdiv; rewrite ln_mult, ln_Rinv by (auto; apply Rinv_0_lt_compat; auto); auto).
    rewrite L. generalize (x / theta). intros y.
    assert (T : / theta = exp (- ln theta)) by (rewrite exp_Ropp, exp_ln by auto; auto). rewrite T.
    unfold Rdiv. rewrite <- (exp_Ropp (lg k)), <- !exp_plus. f_equal. ring.
  - simpl. auto.
  - intros x (X & _). simpl in X. assert (0 < x / theta) by (apply Rdiv_lt_0_compat; auto). splits.
    + split; simpl; auto.
    + auto_derive; auto. field. lra.
    + apply continuous_const.
    + apply gamma_kernel_cont; auto.
  - simpl. apply (filterlim_ext (fun x => (x - 0) / theta)); [intros; rewrite Rminus_0_r; auto|]. apply lim_shift; auto.
  - simpl. apply (lim_aff_pp _ (fun x => x) _ 0 (/ theta)); [intros; field; lra|apply Rinv_0_lt_compat; auto|apply lim_id_p].
Qed.

Lemma gamma_has r f lg k theta : 0 < k -> 0 < theta -> is_lgamma lg k -> pieces r f 0 p_infty ->
  (forall x : R, RbarIn 0 p_infty x -> exp (gamma_log_pdf lg k theta x) = f x) -> has_moments r (k * theta) (k * theta ^ 2).
Proof.
  intros K TH LG P E. pose proof (Gamma_pos k K) as GP.
  assert (E1 : Gamma (k + INR 1) = k * Gamma k) by (simpl; apply Gamma_succ; auto).
  assert (E2 : Gamma (k + INR 2) = (k + 1) * (k * Gamma k)).
  { replace (k + INR 2) with (k + 1 + 1) by (simpl; ring). rewrite !Gamma_succ by lra. ring. }
  apply (moments_raw r f 0 p_infty (k * theta) (k * theta ^ 2) (theta ^ 2 * ((k + 1) * k))); auto.
  - eapply ii_val; [eapply ii_ext; [|apply (gamma_power lg k theta 0); auto]|].
    + intros x X. cbv beta. rewrite E by auto. simpl. ring.
    + simpl. rewrite Rplus_0_r. field. lra.
  - eapply ii_val; [eapply ii_ext; [|apply (gamma_power lg k theta 1); auto]|].
    + intros x X. cbv beta. rewrite E by auto. simpl. ring.
    + rewrite E1. field. lra.
  - eapply ii_val; [eapply ii_ext; [|apply (gamma_power lg k theta 2); auto]|].
    + intros x X. cbv beta. rewrite E by auto. simpl. ring.
    + rewrite E2. field. lra.
  - ring.
Qed.

Lemma gamma_moments lg eps k theta : 0 < k -> 0 < theta -> is_lgamma lg k -> has_moments (gamma_init lg eps k theta) (k * theta) (k * theta ^ 2).
Proof.
  intros K TH LG. apply (gamma_has _ (gamma_f lg k theta) lg k theta); auto; [|apply gamma_f_in].
  unfold gamma_init. rewrite (proj2 (rlt_true _ _) K), (proj2 (rlt_true _ _) TH). cbv zeta. cbn [andb].
  destruct (rltP k 1) as [K1|K1]; [|destruct (reqP k 1) as [K2|K2]].
  - apply pieces_add; [carr; lra|simpl; auto].
  - apply pieces_add; [carr; lra|simpl; auto].
  - assert (M : 0 < (k - 1) * theta) by (apply Rmult_lt_0_compat; lra). apply pieces_add; [carr; lra|simpl; auto].
Qed.

Lemma chi_moments lg eps df : 1 <= df -> is_lgamma lg (df / 2) -> has_moments (chi_init lg eps df) df (2 * df).
Proof.
  intros D LG. replace (2 * df) with (df / 2 * 2 ^ 2) by field. replace df with (df / 2 * 2) at 2 by field.
  apply (gamma_has _ (chi_f lg df) lg (df / 2) 2); auto; try lra; [|apply chi_f_in].
  unfold chi_init. rewrite (proj2 (rlt_true 0 df)) by lra. cbv zeta.
  destruct (rleP 1 df) as [_|]; [|lra]. cbn [andb]. destruct (rleP df 20) as [L|L].
  - apply (pieces_make eps (chi_f lg df) [Finite 0; Finite (df / 2); Finite (df * 2); p_infty]); first [exact (eq_refl _)|simpl; lia|bps; lra].
  - apply Rnot_le_lt in L. destruct (rltP 20 df) as [_|]; [|contradiction].
    apply (pieces_make eps (chi_f lg df) [Finite 0; Finite (df * 0.75); Finite (df * 4 / 3); p_infty]); first [exact (eq_refl _)|simpl; lia|bps; lra].
Qed.

Lemma expo_moments eps lmbda : 0 < lmbda -> has_moments (expo_init eps lmbda) (1 / lmbda) (1 / lmbda ^ 2).
Proof.
  intros L. replace (1 / lmbda ^ 2) with (1 * (1 / lmbda) ^ 2) by (field; lra). replace (1 / lmbda) with (1 * (1 / lmbda)) at 1 by ring.
  assert (T : 0 < 1 / lmbda) by (apply Rdiv_lt_0_compat; lra).
  apply (gamma_has _ (expo_pdf lmbda) (fun _ => 0) 1 (1 / lmbda)); auto; try lra.
  - unfold is_lgamma. rewrite exp_0, Gamma_1. auto.
  - unfold expo_init. cbv zeta. apply pieces_add; [carr; lra|simpl; auto].
  - intros x (X & _). simpl in X. unfold expo_pdf, gamma_log_pdf. destruct (rltP x 0); [lra|].
    rewrite <- (exp_ln lmbda L) at 3. rewrite <- exp_plus. f_equal. unfold Rdiv. rewrite Rmult_1_l, ln_Rinv by auto. field. lra.
Qed.
