(** Proofs about functions of one variable, part 1: inverse pairs and derivatives of the inverses. *)
From Coq Require Import Reals Lra List Bool Ratan.
From Coquelicot Require Import Coquelicot.
From Verif Require Import Base Seg Piecewise TransformSpec Func.
Import List ListNotations.
Open Scope R_scope.

Lemma ext_ip g ginv c d :
  (forall x y, x < y -> g x < g y) -> (forall x, Rbar_lt c (g x)) -> (forall x, Rbar_lt (g x) d) ->
  (forall y : R, betw c d y -> g (ginv y) = y) -> inverse_pair true (ext g c d) ginv m_infty p_infty.
Proof.
  intros M C D I. split; [|split].
  - intros x y _ L _. destruct x as [x| |]; destruct y as [y| |]; cbn [ext]; try (exfalso; exact L).
    + apply M; auto.
    + apply D.
    + apply C.
    + apply (Rbar_lt_trans _ (g 0)); auto.
  - intros x _. exists (g x). split; auto. assert (E : g (ginv (g x)) = g x) by (apply I; split; auto).
    destruct (Rtotal_order (ginv (g x)) x) as [H|[H|H]]; auto; apply M in H; lra.
  - intros y Y. simpl in Y. split; [split; simpl; auto|]. simpl. f_equal. apply I; auto.
Qed.

(** exp *)
Lemma exp_ip : inverse_pair true exp_f exp_inv m_infty p_infty.
Proof.
  apply ext_ip; simpl; auto.
  - apply exp_increasing.
  - apply exp_pos.
  - intros y (Y & _). apply exp_ln. exact Y.
Qed.
Lemma cont_near (f h : R -> R) (y a b : R) : a < y < b -> (forall x, a < x < b -> f x = h x) -> continuous h y -> continuous f y.
Proof.
  intros Y E C. assert (L : locally y (fun x => a < x < b)).
  { apply (open_and (fun x => a < x) (fun x => x < b)); auto; [apply open_gt|apply open_lt]. }
  apply (continuous_ext_loc f h y); auto. apply (filter_imp (fun x => a < x < b)); auto. intros x Hx. symmetry; auto.
Qed.
Lemma der_near (f h : R -> R) (y a b l : R) : a < y < b -> (forall x, a < x < b -> f x = h x) -> is_derive h y l -> is_derive f y l.
Proof.
  intros Y E C. assert (L : locally y (fun x => a < x < b)).
  { apply (open_and (fun x => a < x) (fun x => x < b)); auto; [apply open_gt|apply open_lt]. }
  apply (is_derive_ext_loc h f y l); auto. apply (filter_imp (fun x => a < x < b)); auto. intros x Hx. symmetry; auto.
Qed.
Lemma der_cont (f : R -> R) y : ex_derive f y -> continuous f y.
Proof. intros H. apply (ex_derive_continuous (K := R_AbsRing) (V := R_NormedModule)). auto. Qed.

Lemma exp_dv' : derivative_on exp_inv exp_der (Finite 0) p_infty.
Proof.
  intros y (Y & _). simpl in Y. unfold exp_inv, exp_der. split.
  - auto_derive; auto. rewrite Rabs_right by lra. field. lra.
  - apply (cont_near _ (fun x => / x) y 0 (y + 1)); [lra| |].
    + intros x Hx. rewrite Rabs_right by lra. field; lra.
    + apply der_cont. auto_derive. lra.
Qed.
(** log *)
Lemma log_ip : inverse_pair true log_f log_inv (Finite 0) p_infty.
Proof.
  split; [|split].
  - intros x y X L Y. destruct x as [x| |]; destruct y as [y| |]; simpl in *; try tauto.
    + rewrite (proj2 (rlt_true 0 y)) by lra. destruct (rltP 0 x); simpl; auto. apply ln_increasing; auto.
    + destruct (rltP 0 x); simpl; auto.
  - intros x (X & _). simpl in *. exists (ln x). rewrite (proj2 (rlt_true 0 x)) by auto. split; auto. apply exp_ln; auto.
  - intros y _. unfold log_inv, log_f. rewrite (proj2 (rlt_true 0 (exp y))) by apply exp_pos. rewrite ln_exp. split; auto.
    split; simpl; auto. apply exp_pos.
Qed.
Lemma log_dv c d : derivative_on log_inv log_der c d.
Proof.
  intros y _. unfold log_inv, log_der. split.
  - auto_derive; auto. ring.
  - apply der_cont. auto_derive; auto.
Qed.
(** atan *)
Lemma PI2_pos : 0 < PI / 2.
Proof. pose proof PI_RGT_0. lra. Qed.
Lemma atan_inv_in y : - PI / 2 < y < PI / 2 -> atan_inv y = tan y.
Proof. intros Y. unfold atan_inv. destruct (rleP y (- PI / 2)); [lra|]. destruct (rleP (PI / 2) y); [lra|]. auto. Qed.
Lemma atan_der_in y : - PI / 2 < y < PI / 2 -> atan_der y = 1 + tan y * tan y.
Proof. intros Y. unfold atan_der. destruct (rleP y (- PI / 2)); [lra|]. destruct (rleP (PI / 2) y); [lra|]. auto. Qed.
Lemma atan_ip : inverse_pair true atan_f atan_inv m_infty p_infty.
Proof.
  apply ext_ip.
  - apply atan_increasing.
  - intros x. simpl. apply atan_bound.
  - intros x. simpl. apply atan_bound.
  - intros y (Y1 & Y2). simpl in *. rewrite atan_inv_in by auto. apply atan_tan. lra.
Qed.
Lemma cos_in y : - PI / 2 < y < PI / 2 -> 0 < cos y.
Proof. intros. apply cos_gt_0; lra. Qed.
Lemma atan_dv : derivative_on atan_inv atan_der (Finite (- PI / 2)) (Finite (PI / 2)).
Proof.
  intros y (Y1 & Y2). simpl in *. pose proof (cos_in y (conj Y1 Y2)).
  assert (D : is_derive tan y (1 + tan y * tan y)).
  { apply (is_derive_ext (fun x => sin x / cos x)); [intros; reflexivity|]. auto_derive; [lra|]. unfold tan. field. lra. }
  split.
  - rewrite atan_der_in by auto. apply (der_near _ tan y (- PI / 2) (PI / 2)); auto. intros; apply atan_inv_in; auto.
  - apply (cont_near _ (fun x => 1 + tan x * tan x) y (- PI / 2) (PI / 2)); auto.
    + intros; apply atan_der_in; auto.
    + assert (continuous tan y) by (apply der_cont; eexists; eauto).
      apply (continuous_plus (fun _ => 1) (fun x => tan x * tan x)); [apply continuous_const|].
      apply (continuous_mult tan tan); auto.
Qed.
(** tanh *)
Lemma tanh_exp x : tanh x = 1 - 2 / (exp (2 * x) + 1).
Proof.
  unfold tanh, sinh, cosh. pose proof (exp_pos x). pose proof (exp_pos (- x)). pose proof (exp_pos (2 * x)).
  replace (exp (2 * x)) with (exp x * exp x) in * by (rewrite <- exp_plus; f_equal; ring).
  assert (E : exp x * exp (- x) = 1) by (rewrite <- exp_plus; replace (x + - x) with 0 by ring; apply exp_0).
  replace (exp (- x)) with (/ exp x) by (field_simplify_eq; lra). field. repeat split; nra.
Qed.
Lemma tanh_inv_in y : Ropp 1 < y < 1 -> tanh_inv y = 1 / 2 * ln ((1 + y) / (1 - y)).
Proof. intros Y. unfold tanh_inv. destruct (rleP y (Ropp 1)); [lra|]. destruct (rleP 1 y); [lra|]. auto. Qed.
Lemma tanh_der_in y : Ropp 1 < y < 1 -> tanh_der y = 1 / (1 - y * y).
Proof. intros Y. unfold tanh_der. destruct (rleP y (Ropp 1)); [lra|]. destruct (rleP 1 y); [lra|]. auto. Qed.
Lemma inv_dec x y : 0 < x -> x < y -> / y < / x.
Proof. intros. apply Rinv_lt_contravar; auto. nra. Qed.
Lemma tanh_ip : inverse_pair true tanh_f tanh_inv m_infty p_infty.
Proof.
  apply ext_ip.
  - intros x y L. rewrite !tanh_exp. pose proof (exp_increasing (2 * x) (2 * y)). pose proof (exp_pos (2 * x)).
    pose proof (inv_dec (exp (2 * x) + 1) (exp (2 * y) + 1)). unfold Rdiv. lra.
  - intros x. cbn. rewrite tanh_exp. pose proof (exp_pos (2 * x)). pose proof (inv_dec 1 (exp (2 * x) + 1)).
    rewrite Rinv_1 in *. unfold Rdiv. lra.
  - intros x. cbn. rewrite tanh_exp. pose proof (exp_pos (2 * x)). pose proof (Rinv_0_lt_compat (exp (2 * x) + 1)). unfold Rdiv. lra.
  - intros y (Y1 & Y2). cbn in *. rewrite tanh_inv_in by auto. rewrite tanh_exp.
    replace (2 * (1 / 2 * ln ((1 + y) / (1 - y)))) with (ln ((1 + y) / (1 - y))) by field.
    rewrite exp_ln by (apply Rdiv_lt_0_compat; lra). field. lra.
Qed.
Lemma tanh_dv : derivative_on tanh_inv tanh_der (Finite (Ropp 1)) (Finite 1).
Proof.
  intros y (Y1 & Y2). cbn in *. assert (0 < (1 + y) / (1 - y)) by (apply Rdiv_lt_0_compat; lra). split.
  - rewrite tanh_der_in by auto. apply (der_near _ (fun y => 1 / 2 * ln ((1 + y) / (1 - y))) y (Ropp 1) 1); auto.
    + intros; apply tanh_inv_in; auto.
    + auto_derive; [split; [lra|auto]|]. field. nra.
  - apply (cont_near _ (fun y => 1 / (1 - y * y)) y (Ropp 1) 1); auto.
    + intros; apply tanh_der_in; auto.
    + apply der_cont. auto_derive. nra.
Qed.
(** sigmoid *)
Lemma sigm_exp x : sigm x = 1 - 1 / (exp x + 1).
Proof.
  unfold sigm. pose proof (exp_pos x). destruct (rltP 0 x).
  - rewrite exp_Ropp. field. split; lra.
  - field. lra.
Qed.
Lemma sigm_inv_in y : 0 < y < 1 -> sigm_inv y = ln (y / (1 - y)).
Proof. intros Y. unfold sigm_inv. destruct (rleP y (Ropp 1)); [lra|]. destruct (rleP 1 y); [lra|]. auto. Qed.
Lemma sigm_der_in y : 0 < y < 1 -> sigm_der y = 1 / (y * (1 - y)).
Proof. intros Y. unfold sigm_der. destruct (rleP y (Ropp 1)); [lra|]. destruct (rleP 1 y); [lra|]. auto. Qed.
Lemma sigm_ip : inverse_pair true sigm_f sigm_inv m_infty p_infty.
Proof.
  apply ext_ip.
  - intros x y L. rewrite !sigm_exp. pose proof (exp_increasing x y L). pose proof (exp_pos x).
    pose proof (inv_dec (exp x + 1) (exp y + 1)). unfold Rdiv. lra.
  - intros x. cbn. rewrite sigm_exp. pose proof (exp_pos x). pose proof (inv_dec 1 (exp x + 1)). rewrite Rinv_1 in *. unfold Rdiv. lra.
  - intros x. cbn. rewrite sigm_exp. pose proof (exp_pos x). pose proof (Rinv_0_lt_compat (exp x + 1)). unfold Rdiv. lra.
  - intros y (Y1 & Y2). cbn in *. rewrite sigm_inv_in by auto. rewrite sigm_exp.
    rewrite exp_ln by (apply Rdiv_lt_0_compat; lra). field. lra.
Qed.
Lemma sigm_dv : derivative_on sigm_inv sigm_der (Finite 0) (Finite 1).
Proof.
  intros y (Y1 & Y2). cbn in *. assert (0 < y / (1 - y)) by (apply Rdiv_lt_0_compat; lra). split.
  - rewrite sigm_der_in by auto. apply (der_near _ (fun y => ln (y / (1 - y))) y 0 1); auto.
    + intros; apply sigm_inv_in; auto.
    + auto_derive; [split; [lra|auto]|]. field. nra.
  - apply (cont_near _ (fun y => 1 / (y * (1 - y))) y 0 1); auto.
    + intros; apply sigm_der_in; auto.
    + apply der_cont. auto_derive. nra.
Qed.
(** tan, away from its poles *)
Lemma tan_ip (A B : R) : - PI / 2 < A -> A < B -> B < PI / 2 -> inverse_pair true tan_f tan_inv (Finite A) (Finite B).
Proof.
  intros HA AB HB. split; [|split].
  - intros x y X L Y. destruct x as [x| |]; destruct y as [y| |]; cbn in *; try tauto. apply tan_increasing; lra.
  - intros x (X & Y). cbn in *. exists (tan x). split; auto. unfold tan_inv. apply atan_tan. lra.
  - intros y (Y1 & Y2). cbn in *. unfold tan_inv. rewrite tan_atan. split; auto.
    rewrite <- (tan_atan y) in Y1, Y2. pose proof (atan_bound y).
    split; cbn; apply Rnot_le_lt; intros [HH|HH].
    + apply tan_increasing in HH; lra.
    + rewrite HH in Y1; lra.
    + apply tan_increasing in HH; lra.
    + rewrite HH in Y2; lra.
Qed.
Lemma tan_dv c d : derivative_on tan_inv tan_der c d.
Proof.
  intros y _. unfold tan_inv, tan_der. split.
  - replace (1 / (1 + y * y)) with (/ (1 + y²)) by (unfold Rsqr; field; nra). apply is_derive_atan.
  - apply der_cont. auto_derive. nra.
Qed.
(** sin and cos *)
Lemma asin_dv : derivative_on asin arc_der (Finite (Ropp 1)) (Finite 1).
Proof.
  intros y (Y1 & Y2). cbn in *.
  assert (P : 0 < 1 - y * y) by nra. assert (P' : 0 < sqrt (1 - y * y)) by (apply sqrt_lt_R0; auto).
  split.
  - apply (der_near _ (fun x => atan (x / sqrt (1 - x²))) y (Ropp 1) 1); auto.
    + intros x Hx. apply asin_atan. lra.
    + unfold Rsqr, arc_der.
      assert (D1 : is_derive (fun x => x / sqrt (1 - x * x)) y (1 / (sqrt (1 - y * y) * (1 - y * y)))).
      { auto_derive; [replace (1 + - (y * y)) with (1 - y * y) by ring; repeat split; lra|].
        assert (E : sqrt (1 - y * y) * sqrt (1 - y * y) = 1 - y * y) by (apply sqrt_sqrt; lra).
        replace (sqrt (1 + - (y * y))) with (sqrt (1 - y * y)) by (f_equal; ring).
        set (r := sqrt (1 - y * y)) in *. clearbody r. rewrite <- E. apply (Rmult_eq_reg_r (r * r * r)); [|apply Rgt_not_eq; repeat apply Rmult_lt_0_compat; lra].
        field_simplify; [|lra|lra]. nra. }
      evar (l : R). replace (1 / sqrt (1 - y * y)) with l; [apply (is_derive_comp atan); [apply is_derive_atan|exact D1]|].
      unfold l. unfold scal; simpl. unfold mult; simpl. unfold Rsqr.
      assert (E : sqrt (1 - y * y) * sqrt (1 - y * y) = 1 - y * y) by (apply sqrt_sqrt; lra).
      set (r := sqrt (1 - y * y)) in *. clearbody r. rewrite <- E.
      assert (Y : y * y = 1 - r * r) by lra. replace (y / r * (y / r)) with (y * y / (r * r)) by (field; lra). rewrite Y. field. nra.
  - unfold arc_der. apply der_cont. auto_derive. replace (1 + - (y * y)) with (1 - y * y) by ring. repeat split; lra.
Qed.
Lemma acos_dv : derivative_on acos marc_der (Finite (Ropp 1)) (Finite 1).
Proof.
  intros y Y. destruct (asin_dv y Y) as (D & C). unfold marc_der. destruct Y as (Y1 & Y2). cbn in *. split.
  - apply (der_near _ (fun x => PI / 2 - asin x) y (Ropp 1) 1); auto.
    + intros x Hx. apply acos_asin. lra.
    + replace (- (1 / sqrt (1 - y * y))) with (minus 0 (arc_der y)) by (unfold minus, plus, opp, arc_der; simpl; ring).
      apply (is_derive_minus (fun _ => PI / 2) asin); auto. apply (is_derive_const (K := R_AbsRing) (V := R_NormedModule)).
  - apply (continuous_opp arc_der). auto.
Qed.
Lemma two_pi_acos_dv : derivative_on two_pi_acos arc_der (Finite (Ropp 1)) (Finite 1).
Proof.
  intros y Y. destruct (acos_dv y Y) as (D & C). destruct (asin_dv y Y) as (_ & C'). split; auto. unfold two_pi_acos.
  replace (arc_der y) with (minus 0 (marc_der y)) by (unfold minus, plus, opp, arc_der, marc_der; simpl; ring).
  apply (is_derive_minus (fun _ => 2 * PI) acos); auto. apply (is_derive_const (K := R_AbsRing) (V := R_NormedModule)).
Qed.
Lemma cos_ip1 : inverse_pair false cos_f acos (Finite 0) (Finite PI).
Proof.
  split; [|split].
  - intros x y X L Y. destruct x as [x| |]; destruct y as [y| |]; cbn in *; try tauto. apply cos_decreasing_1; lra.
  - intros x (X & Y). cbn in *. exists (cos x). split; auto. apply acos_cos. lra.
  - intros y (Y1 & Y2). cbn in *. rewrite cos_0, cos_PI in *. rewrite cos_acos by lra. split; auto.
    pose proof (acos_bound y). split; cbn; apply Rnot_le_lt; intros HH.
    + assert (E : acos y = 0) by lra. pose proof (cos_acos y). rewrite E, cos_0 in *. lra.
    + assert (E : acos y = PI) by lra. pose proof (cos_acos y). rewrite E, cos_PI in *. lra.
Qed.
Lemma cos_2PI x : cos (2 * PI - x) = cos x.
Proof. rewrite cos_minus. rewrite cos_2PI, sin_2PI. ring. Qed.
Lemma sin_2PI' x : sin (2 * PI - x) = - sin x.
Proof. rewrite sin_minus. rewrite Rtrigo1.cos_2PI, sin_2PI. ring. Qed.
Lemma cos_ip2 : inverse_pair true cos_f two_pi_acos (Finite PI) (Finite (2 * PI)).
Proof.
  assert (N2 : cos (2 * PI) = 1) by apply Rtrigo1.cos_2PI.
  split; [|split].
  - intros x y X L Y. destruct x as [x| |]; destruct y as [y| |]; cbn in *; try tauto.
    rewrite <- (cos_2PI x), <- (cos_2PI y). apply cos_decreasing_1; lra.
  - intros x (X & Y). cbn in *. exists (cos x). split; auto. unfold two_pi_acos. rewrite <- cos_2PI. rewrite acos_cos by lra. ring.
  - intros y (Y1 & Y2). cbn in *. rewrite N2, cos_PI in *. unfold two_pi_acos. rewrite cos_2PI. rewrite cos_acos by lra. split; auto.
    pose proof (acos_bound y). split; cbn; apply Rnot_le_lt; intros HH.
    + assert (E : acos y = PI) by lra. pose proof (cos_acos y). rewrite E, cos_PI in *. lra.
    + assert (E : acos y = 0) by lra. pose proof (cos_acos y). rewrite E, cos_0 in *. lra.
Qed.
Lemma sin_ip1 : inverse_pair true sin_f asin (Finite (- PI / 2)) (Finite (PI / 2)).
Proof.
  assert (E1 : sin (- PI / 2) = Ropp 1) by (replace (- PI / 2) with (- (PI / 2)) by field; rewrite sin_neg, sin_PI2; ring).
  split; [|split].
  - intros x y X L Y. destruct x as [x| |]; destruct y as [y| |]; cbn in *; try tauto. apply sin_increasing_1; lra.
  - intros x (X & Y). cbn in *. exists (sin x). split; auto. apply asin_sin. lra.
  - intros y (Y1 & Y2). cbn in *. rewrite E1, sin_PI2 in *. rewrite sin_asin by lra. split; auto.
    pose proof (asin_bound y). split; cbn; apply Rnot_le_lt; intros HH.
    + assert (E : asin y = - PI / 2) by lra. pose proof (sin_asin y). rewrite E, E1 in *. lra.
    + assert (E : asin y = PI / 2) by lra. pose proof (sin_asin y). rewrite E, sin_PI2 in *. lra.
Qed.
