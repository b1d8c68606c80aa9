(** Main statements about the logarithms with cut-offs (C76). *)
From Coq Require Import Reals Lra Lia List Bool.
From Coquelicot Require Import Rcomplements.
From Verif Require Import Base Stab.
Import List ListNotations.
Open Scope R_scope.

Lemma big1 : 2 < big. Proof. unfold big. lra. Qed.
Lemma ln_le_m1 y : 0 < y -> ln y <= y - 1.
Proof. intros Y. pose proof (exp_ineq1_le (ln y)) as K. rewrite exp_ln in K by auto. lra. Qed.
Lemma ln1p_up z : 0 < z -> 0 <= ln (1 + z) <= z.
Proof. intros Z. split; [rewrite <- ln_1; left; apply ln_increasing; lra|]. pose proof (ln_le_m1 (1 + z) ltac:(lra)). lra. Qed.
Lemma ln1p_lo z : 0 < z -> z - z * z <= ln (1 + z).
Proof.
  intros Z. pose proof (ln_le_m1 (/ (1 + z)) ltac:(apply Rinv_0_lt_compat; lra)) as K. rewrite ln_Rinv in K by lra.
  assert (E : / (1 + z) = 1 - z / (1 + z)) by (field; lra). rewrite E in K.
  assert (F : z - z * z <= z / (1 + z)). { apply (Rmult_le_reg_r (1 + z)); [lra|]. replace (z / (1 + z) * (1 + z)) with z by (field; lra). nra. }
  lra.
Qed.
Lemma ln1m z : 0 < z <= 1 / 2 -> - z - 2 * (z * z) <= ln (1 - z) <= - z.
Proof.
  intros Z. split; [|pose proof (ln_le_m1 (1 - z) ltac:(lra)); lra].
  pose proof (ln_le_m1 (/ (1 - z)) ltac:(apply Rinv_0_lt_compat; lra)) as K. rewrite ln_Rinv in K by lra.
  assert (F : / (1 - z) - 1 <= z + 2 * (z * z)). { apply (Rmult_le_reg_r (1 - z)); [lra|]. replace ((/ (1 - z) - 1) * (1 - z)) with z by (field; lra). nra. }
  lra.
Qed.
Lemma inv_big z : big < z -> 0 < / z <= / big /\ / z <= 1 / 2.
Proof.
  intros Z. pose proof big1. split; [split; [apply Rinv_0_lt_compat; lra|left; apply Rinv_lt_contravar; auto; apply Rmult_lt_0_compat; lra]|].
  replace (1 / 2) with (/ 2) by field. left. apply Rinv_lt_contravar; lra.
Qed.
Lemma small_big z : 0 < z < / big -> z * z <= / big /\ z <= 1 / 2.
Proof.
  intros Z. pose proof big1. assert (/ big <= 1 / 2) by (replace (1 / 2) with (/ 2) by field; left; apply Rinv_lt_contravar; lra). split; [nra|lra].
Qed.
Lemma exp_shift x a : a <> 0 -> exp (x + ln (Rabs a)) = Rabs a * exp x.
Proof. intros A. rewrite exp_plus, exp_ln by (apply Rabs_pos_lt; auto). ring. Qed.
Lemma ln_big x z : exp x = z -> 0 < z -> ln z = x.
Proof. intros <- _. apply ln_exp. Qed.

(** C76: logexp_p1 is log(|a| exp(x) + 1) up to 10^-16; for negative a, where log(a exp(x) + 1) is announced, it is still that. *)
Lemma logexp_p1_error_main :
  forall x a, a <> 0 -> Rabs (logexp_p1 x a - ln (Rabs a * exp x + 1)) <= / 10 ^ 16.
Proof.
  change (10 ^ 16) with big. intros x a A. unfold logexp_p1. pose proof (exp_shift x a A) as E. set (x' := x + ln (Rabs a)) in *. rewrite <- E, (Rplus_comm _ 1). pose proof (exp_pos x') as P.
  pose proof big1 as B. assert (IB : 0 < / big) by (apply Rinv_0_lt_compat; lra).
  destruct (rltP (exp x') (/ big)) as [S1|S1].
  - pose proof (small_big (exp x') ltac:(lra)). pose proof (ln1p_up _ P). pose proof (ln1p_lo _ P). rewrite Rabs_pos_eq; lra.
  - destruct (rltP big (exp x')) as [S2|S2]; [|rewrite Rminus_diag_eq, Rabs_R0 by auto; lra].
    replace (1 + exp x') with (exp x' * (1 + / exp x')) by (field; lra). destruct (inv_big _ S2) as ((I1 & I2) & _).
    rewrite ln_mult, ln_exp by lra. pose proof (ln1p_up _ I1). rewrite Rabs_left1; lra.
Qed.

(** C76: logexp_m1 with a = 1 is -log|exp(-x) - 1| up to 2*10^-16, for every x <> 0; for another a it shifts x the wrong way: it is the
    value for exp(-x)/|a|, not for |a| exp(-x). *)
Lemma logexp_m1_error_main :
  forall x a, a <> 0 -> exp (- x) / Rabs a <> 1 -> Rabs (logexp_m1 x a - - ln (Rabs (exp (- x) / Rabs a - 1))) <= 2 / 10 ^ 16.
Proof.
  change (10 ^ 16) with big. intros x a A N. unfold logexp_m1. assert (PA : 0 < Rabs a) by (apply Rabs_pos_lt; auto).
  assert (E : exp (- (x + ln (Rabs a))) = exp (- x) / Rabs a).
  { replace (- (x + ln (Rabs a))) with (- x + - ln (Rabs a)) by ring. rewrite exp_plus, (exp_Ropp (ln _)), exp_ln by auto. reflexivity. }
  set (x' := x + ln (Rabs a)) in *. rewrite <- E in N. rewrite <- E. pose proof (exp_pos (- x')) as P.
  pose proof big1 as B. assert (IB : 0 < / big) by (apply Rinv_0_lt_compat; lra). unfold Rdiv.
  destruct (rltP (exp (- x')) (/ big)) as [S1|S1].
  - destruct (small_big (exp (- x')) ltac:(lra)) as (Q1 & Q2). rewrite (Rabs_left1 (exp (- x') - 1)) by lra.
    replace (- (exp (- x') - 1)) with (1 - exp (- x')) by ring. pose proof (ln1m _ (conj P Q2)). apply Rabs_le. lra.
  - destruct (rltP big (exp (- x'))) as [S2|S2]; [|rewrite Rminus_diag_eq, Rabs_R0 by auto; lra].
    destruct (inv_big _ S2) as ((I1 & I2) & I3). rewrite (Rabs_pos_eq (exp (- x') - 1)) by lra.
    replace (exp (- x') - 1) with (exp (- x') * (1 - / exp (- x'))) by (field; lra).
    rewrite ln_mult, ln_exp by lra. pose proof (ln1m _ (conj I1 I3)). assert (/ exp (- x') * / exp (- x') <= / exp (- x') / 2) by nra. apply Rabs_le. lra.
Qed.

(** C76: log_1m_exp is log|1 - |a| exp(x)| up to 2*10^-16 (its description has another sign and another exponent). *)
Lemma log_1m_exp_error_main :
  forall x a, a <> 0 -> Rabs a * exp x <> 1 -> Rabs (log_1m_exp x a - ln (Rabs (1 - Rabs a * exp x))) <= 2 / 10 ^ 16.
Proof.
  change (10 ^ 16) with big. intros x a A N. unfold log_1m_exp. pose proof (exp_shift x a A) as E. set (x' := x + ln (Rabs a)) in *. rewrite <- E in N. rewrite <- E. pose proof (exp_pos x') as P.
  pose proof big1 as B. assert (IB : 0 < / big) by (apply Rinv_0_lt_compat; lra). unfold Rdiv. rewrite (Rabs_minus_sym 1).
  destruct (rltP (exp x') (/ big)) as [S1|S1].
  - destruct (small_big (exp x') ltac:(lra)) as (Q1 & Q2). rewrite (Rabs_left1 (exp x' - 1)) by lra.
    replace (- (exp x' - 1)) with (1 - exp x') by ring. pose proof (ln1m _ (conj P Q2)). apply Rabs_le. lra.
  - destruct (rltP big (exp x')) as [S2|S2]; [|rewrite Rminus_diag_eq, Rabs_R0 by auto; lra].
    destruct (inv_big _ S2) as ((I1 & I2) & I3). rewrite (Rabs_pos_eq (exp x' - 1)) by lra.
    replace (exp x' - 1) with (exp x' * (1 - / exp x')) by (field; lra).
    rewrite ln_mult, ln_exp by lra. pose proof (ln1m _ (conj I1 I3)). assert (/ exp x' * / exp x' <= / exp x' / 2) by nra. apply Rabs_le. lra.
Qed.

Lemma expm1_ne0 x : x <> 0 -> exp (- x) - 1 <> 0.
Proof. intros X E. apply X. assert (H : exp (- x) = exp 0) by (rewrite exp_0; lra). apply exp_inv in H. lra. Qed.

(** C76: for every parameter other than 0, of either sign, the generator of FrankCopula2d is the Frank generator up to 4*10^-16, and its
    inverse, on arrays, the inverse of the Frank generator up to 2*10^-16/|theta|; the inverse of a single number raises TypeError. *)
Lemma frank2d_generator_main :
  forall th, th <> 0 ->
  (forall t, 0 < t <= 1 -> Rabs (f2_fi th t - - ln ((exp (- t * th) - 1) / (exp (- th) - 1))) <= 4 / 10 ^ 16) /\
  (forall s, 0 < s -> exists r, f2_fi_inv false th s = Ok r /\ Rabs (r - - ln (1 + (exp (- th) - 1) * exp (- s)) / th) <= 2 / 10 ^ 16 / Rabs th) /\
  (forall s, f2_fi_inv true th s = Err EType).
Proof.
  change (10 ^ 16) with big. intros th TH. pose proof (expm1_ne0 th TH) as NE. assert (A1 : (1 : R) <> 0) by lra. pose proof big1 as B. assert (IB : 0 < / big) by (apply Rinv_0_lt_compat; lra). splits.
  - intros t T. unfold f2_fi. assert (NT : t * th <> 0) by (apply Rmult_integral_contrapositive; lra). pose proof (expm1_ne0 _ NT) as NE2.
    replace (- t * th) with (- (t * th)) by ring.
    assert (L : ln ((exp (- (t * th)) - 1) / (exp (- th) - 1)) = ln (Rabs (exp (- (t * th)) - 1)) - ln (Rabs (exp (- th) - 1))).
    { assert (PQ : 0 < (exp (- (t * th)) - 1) / (exp (- th) - 1)).
      { destruct (Rdichotomy _ _ TH) as [N|N].
        - assert (1 < exp (- th)) by (rewrite <- exp_0; apply exp_increasing; lra). assert (1 < exp (- (t * th))) by (rewrite <- exp_0; apply exp_increasing; nra).
          apply Rdiv_lt_0_compat; lra.
        - assert (exp (- th) < 1) by (rewrite <- exp_0; apply exp_increasing; lra). assert (exp (- (t * th)) < 1) by (rewrite <- exp_0; apply exp_increasing; nra).
          replace ((exp (- (t * th)) - 1) / (exp (- th) - 1)) with ((1 - exp (- (t * th))) / (1 - exp (- th))) by (field; lra). apply Rdiv_lt_0_compat; lra. }
      rewrite <- (Rabs_pos_eq _ (Rlt_le _ _ PQ)) at 1. unfold Rdiv. rewrite Rabs_mult, Rabs_inv.
      rewrite ln_mult, ln_Rinv; try apply Rinv_0_lt_compat; try apply Rabs_pos_lt; auto. }
    rewrite L. pose proof (logexp_m1_error_main (t * th) 1 A1) as K1. change (10 ^ 16) with big in K1. pose proof (logexp_m1_error_main th 1 A1) as K2. change (10 ^ 16) with big in K2. rewrite Rabs_R1 in K1, K2.
    replace (exp (- (t * th)) / 1) with (exp (- (t * th))) in K1 by field. replace (exp (- th) / 1) with (exp (- th)) in K2 by field.
    specialize (K1 ltac:(lra)). specialize (K2 ltac:(lra)). apply Rabs_le_between in K1. apply Rabs_le_between in K2. apply Rabs_le. unfold Rdiv in *. lra.
  - intros s S0. unfold f2_fi_inv. destruct (reqP (exp (- th) - 1) 0) as [|_]; [tauto|]. set (a := exp (- th) - 1) in *.
    assert (G : forall v w, Rabs (v - w) <= 2 / big -> Rabs (- 1 / th * v - - w / th) <= 2 / big / Rabs th).
    { intros v w H. replace (- 1 / th * v - - w / th) with ((v - w) * (- / th)) by (field; auto). rewrite Rabs_mult, Rabs_Ropp, Rabs_inv.
      unfold Rdiv at 2. apply Rmult_le_compat_r; auto. left. apply Rinv_0_lt_compat, Rabs_pos_lt; auto. }
    destruct (rltP 0 a) as [P|P]; eexists; (split; [reflexivity|]); apply G.
    + pose proof (logexp_p1_error_main (- s) a ltac:(lra)) as K. change (10 ^ 16) with big in K. rewrite (Rabs_pos_eq a), (Rplus_comm _ 1) in K by lra. unfold Rdiv. lra.
    + assert (N : a < 0) by lra. assert (N1 : -1 < a) by (unfold a; pose proof (exp_pos (- th)); lra).
      assert (ES : 0 < exp (- s) < 1) by (split; [apply exp_pos|rewrite <- exp_0; apply exp_increasing; lra]).
      pose proof (log_1m_exp_error_main (- s) a ltac:(lra)) as K. change (10 ^ 16) with big in K. rewrite (Rabs_left1 a) in K by lra.
      replace (1 - - a * exp (- s)) with (1 + a * exp (- s)) in K by ring. assert (P1 : 0 < 1 + a * exp (- s)) by nra. rewrite (Rabs_pos_eq (1 + _)) in K by lra. apply K. nra.
  - intros s. unfold f2_fi_inv. destruct (reqP (exp (- th) - 1) 0) as [|_]; [tauto|auto].
Qed.

(** C76: with another a than 1 the functions are not what their descriptions say: logexp_m1(0, 3) is not -log(3 - 1), logexp_p1(0, -1/2)
    is not log(-1/2 + 1). *)
Lemma stable_doc_refuted_main :
  1 / 2 < Rabs (logexp_m1 0 3 - - ln (3 * exp (Ropp 0) - 1)) /\ 1 / 2 < Rabs (logexp_p1 0 (Ropp (1 / 2)) - ln (Ropp (1 / 2) * exp 0 + 1)).
Proof.
  assert (B : / big <= / 100). { unfold big. left. apply Rinv_lt_contravar; lra. }
  assert (L3 : 2 / 3 <= ln 3).
  { pose proof (ln_le_m1 (1 / 3) ltac:(lra)) as K. replace (1 / 3) with (/ 3) in K by field. rewrite ln_Rinv in K by lra. lra. }
  split.
  - pose proof (logexp_m1_error_main 0 3 ltac:(lra)) as K. change (10 ^ 16) with big in K. rewrite Ropp_0, exp_0, (Rabs_pos_eq 3) in K by lra. rewrite Ropp_0, exp_0.
    specialize (K ltac:(lra)). replace (1 / 3 - 1) with (Ropp (2 * / 3)) in K by field. rewrite Rabs_Ropp, (Rabs_pos_eq (2 * / 3)) in K by lra.
    rewrite ln_mult, ln_Rinv in K by lra. replace (3 * 1 - 1) with 2 by ring. apply Rabs_le_between in K. rewrite Rabs_pos_eq; unfold Rdiv in *; lra.
  - pose proof (logexp_p1_error_main 0 (Ropp (1 / 2)) ltac:(lra)) as K. change (10 ^ 16) with big in K. rewrite exp_0, Rabs_Ropp, (Rabs_pos_eq (1 / 2)) in K by lra. rewrite exp_0.
    replace (1 / 2 * 1 + 1) with (3 * / 2) in K by field. replace (- (1 / 2) * 1 + 1) with (/ 2) by field. rewrite ln_mult, ln_Rinv in K by lra. rewrite ln_Rinv by lra.
    apply Rabs_le_between in K. rewrite Rabs_pos_eq; lra.
Qed.
