(** Textbook distribution functions of the named distributions, part 6: normal, Levy, gamma, chi-square, beta, F, Student. *)
From Coq Require Import Reals Lra List Bool Sorted Arith Lia.
From Coquelicot Require Import Coquelicot.
From Verif Require Import Base Seg Piecewise PiecewiseSpec PiecewiseFacts2 Integral IntegralFacts SegIntSpec CumintFacts CumintFacts2 Std StdSpec StdFacts StdFacts2 StdFacts3 StdFacts4 StdFacts5 StdFacts6 StdFacts7 StdFacts8.
Import List ListNotations.
Open Scope R_scope.

Lemma within_line H (x : R) : within m_infty p_infty H x = H x.
Proof. unfold within. destruct (Rbar_le_dec x m_infty); [contradiction|]. destruct (Rbar_le_dec p_infty x); [contradiction|auto]. Qed.

Lemma within_ext a b H K (x : R) : (forall x : R, RbarIn a b x -> H x = K x) -> within a b H x = within a b K x.
Proof.
  intros E. unfold within. destruct (Rbar_le_dec x a) as [A|A]; auto. destruct (Rbar_le_dec b x) as [B|B]; auto.
  apply E. split; apply Rbar_not_le_lt; auto.
Qed.

(** normal *)
Lemma normal_law eps (mu sigma : R) : 0 < sigma -> law (normal_init eps mu sigma) m_infty p_infty (normal_cdf mu sigma).
Proof.
  intros S. unfold normal_init. destruct (rleP sigma 0); [lra|]. cbv zeta.
  assert (P : 0 < sqrt (2 * PI)) by (apply sqrt_lt_R0; pose proof PI_RGT_0; lra).
  apply (law_add eps _ (normal_pdf mu sigma) (normal_cdf mu sigma)).
  - discriminate.
  - carr; lra.
  - simpl; auto.
  - simpl; auto.
  - intros x _. unfold normal_pdf. apply Rlt_le, Rmult_lt_0_compat; [|apply exp_pos]. apply Rdiv_lt_0_compat; [lra|]. apply Rmult_lt_0_compat; auto.
  - intros x _. unfold normal_cdf.
    replace (normal_pdf mu sigma x) with (scal (/ sigma) (gker ((x - mu) / sigma) / sqrt (2 * PI))).
    + apply (is_derive_comp Phi (fun x => (x - mu) / sigma)); [apply Phi_der|]. auto_derive; auto. field. lra.
    + unfold scal; simpl; unfold mult; simpl. unfold normal_pdf, gker.
      replace (- ((x - mu) * (x - mu) * (0.5 / (sigma * sigma)))) with (- ((x - mu) / sigma * ((x - mu) / sigma)) / 2) by (replace 0.5 with (/ 2) by lra; field; lra). field. lra.
  - intros x _. apply der_cont. unfold normal_pdf. auto_derive. auto.
  - simpl. unfold normal_cdf. eapply filterlim_comp; [|apply Phi_m].
    apply (lim_aff_mm _ (fun x => x) _ (- mu / sigma) (/ sigma)); [intros; field; lra|apply Rinv_0_lt_compat; auto|apply lim_id_m].
  - simpl. unfold normal_cdf. eapply filterlim_comp; [|apply Phi_p].
    apply (lim_aff_pp _ (fun x => x) _ (- mu / sigma) (/ sigma)); [intros; field; lra|apply Rinv_0_lt_compat; auto|apply lim_id_p].
  - intros x. rewrite within_line. auto.
Qed.

(** Levy *)
Lemma levy_law eps (c xmin : R) : 0 < c -> law (levy_init eps c xmin) xmin p_infty (levy_cdf c xmin).
Proof.
  intros C. unfold levy_init. rewrite (proj2 (rlt_true _ _) C). cbv zeta.
  assert (P : 0 < sqrt (2 * PI)) by (apply sqrt_lt_R0; pose proof PI_RGT_0; lra).
  assert (SC : 0 < sqrt c) by (apply sqrt_lt_R0; auto). assert (SS : sqrt c * sqrt c = c) by (apply sqrt_sqrt; lra).
  set (s := fun x => sqrt c * exp (- / 2 * ln ((x - xmin) / 1))).
  assert (IN : forall x : R, RbarIn xmin p_infty x -> 0 < x - xmin) by (intros x (X & _); simpl in X; lra).
  assert (SE : forall x : R, 0 < x - xmin -> s x = sqrt (c / (x - xmin))).
  { intros x X. unfold s. rewrite sqrt_div by lra. unfold Rdiv. f_equal. rewrite Rinv_1, Rmult_1_r.
    replace (- / 2 * ln (x - xmin)) with (- (/ 2 * ln (x - xmin))) by ring. rewrite exp_Ropp. f_equal.
    apply (Rpower_sqrt (x - xmin)); auto. }
  assert (E : forall x : R, RbarIn xmin p_infty x ->
    sqrt (c / (2 * PI)) * exp (ln (x - xmin) * (- (3 / 2)) - / 2 * c / (x - xmin)) = levy_pdf c xmin x).
  { intros x X. apply IN in X. unfold levy_pdf. destruct (rleP x xmin); [lra|].
    replace (-1.5) with (- (3 / 2)) by lra. replace 0.5 with (/ 2) by lra. auto. }
  apply (law_add eps _ (levy_pdf c xmin) (fun x => 2 * (1 - Phi (s x)))).
  - discriminate.
  - carr; lra.
  - simpl; auto.
  - simpl; auto.
  - intros x X. rewrite <- E by auto. apply Rmult_le_pos; [apply sqrt_pos|apply Rlt_le, exp_pos].
  - intros x X. rewrite <- E by auto. apply IN in X.
    assert (DS : is_derive s x (- / 2 * / (x - xmin) * s x)).
    { unfold s. auto_derive; [lra|]. unfold Rdiv, Rminus. rewrite Rinv_1, Rmult_1_r. field. lra. }
    assert (DP : is_derive (fun x => Phi (s x)) x (- / 2 * / (x - xmin) * s x * (gker (s x) / sqrt (2 * PI)))).
    { apply (is_derive_comp Phi s x _ _ (Phi_der (s x)) DS). }
    apply (is_derive_ext (fun x => 2 - 2 * Phi (s x))); [intros t; apply Rminus_diag_uniq; ring|].
    replace (sqrt (c / (2 * PI)) * exp (ln (x - xmin) * (- (3 / 2)) - / 2 * c / (x - xmin)))
      with (minus 0 (2 * (- / 2 * / (x - xmin) * s x * (gker (s x) / sqrt (2 * PI))))).
    + apply (is_derive_minus (fun _ => 2) (fun x => 2 * Phi (s x))); [apply (is_derive_const (V := R_NormedModule))|].
      apply (is_derive_scal (fun x => Phi (s x)) x 2). exact DP.
    + unfold minus, plus, opp; simpl.
      assert (GK : gker (s x) = exp (- (/ 2 * c / (x - xmin)))).
      { unfold gker. f_equal. rewrite SE by auto. rewrite sqrt_sqrt by (apply Rlt_le, Rdiv_lt_0_compat; auto). field. lra. }
      rewrite GK. unfold s. rewrite sqrt_div by (pose proof PI_RGT_0; lra).
      replace (ln (x - xmin) * - (3 / 2) - / 2 * c / (x - xmin)) with (- / 2 * ln ((x - xmin) / 1) + - ln (x - xmin) + - (/ 2 * c / (x - xmin))).
      * rewrite !exp_plus, (exp_Ropp (ln (x - xmin))), exp_ln by auto. field. split; lra.
      * replace ((x - xmin) / 1) with (x - xmin) by field. field. lra.
  - intros x X. apply (loc_cont _ _ xmin p_infty x X E). apply IN in X. apply der_cont. auto_derive. splits; auto; lra.
  - simpl. apply (lim_der (at_right xmin) (fun y => 2 * (1 - y)) (fun x => Phi (s x)) 1); [auto_derive; auto|ring|].
    eapply filterlim_comp; [|apply Phi_p].
    apply (lim_aff_pp _ (fun x => exp (- / 2 * ln ((x - xmin) / 1))) _ 0 (sqrt c)); [intros; unfold s; ring|auto|].
    apply (lim_exp_p (at_right xmin)). apply (lim_aff_mp _ (fun x => ln ((x - xmin) / 1)) _ 0 (- / 2)); [intros; ring|lra|apply lim_ln_shift; lra].
  - simpl. apply (lim_der (Rbar_locally p_infty) (fun y => 2 * (1 - Phi (sqrt c * y))) (fun x => exp (- / 2 * ln ((x - xmin) / 1))) 0).
    + exists (2 * (0 - sqrt c * (gker (sqrt c * 0) / sqrt (2 * PI)))).
      apply (is_derive_scal (fun y => 1 - Phi (sqrt c * y)) 0 2).
      apply (is_derive_minus (fun _ => 1) (fun y => Phi (sqrt c * y))); [apply (is_derive_const (V := R_NormedModule))|].
      apply (is_derive_comp Phi (fun y => sqrt c * y)); [apply Phi_der|]. auto_derive; auto. ring.
    + rewrite Rmult_0_r, Phi_0. field.
    + apply (lim_exp_m (Rbar_locally p_infty)). apply (lim_aff_pm _ (fun x => ln ((x - xmin) / 1)) _ 0 (- / 2)); [intros; ring|lra|apply lim_ln_shift_p; lra].
  - intros x. unfold levy_cdf. apply within_ext. intros y Y. rewrite SE by (apply IN; auto). auto.
Qed.

(** the derivative of a primitive *)
Lemma prim_der f a b G (x : R) : prim f a b G -> RbarIn a b x -> continuous f x -> is_derive (fun t : R => G t) x (f x).
Proof.
  intros (_ & P & _) X C.
  assert (D : is_derive (fun t : R => G t - G x) x (f x)).
  { apply (is_derive_RInt (V := R_CompleteNormedModule) f (fun t : R => G t - G x) x x); auto.
    generalize (filter_and _ _ (CdfDerive.loc_gt x a (proj1 X)) (CdfDerive.loc_lt x b (proj2 X))). apply filter_imp.
    intros y Y. apply P; auto. }
  assert (EE : forall t : R, (G t - G x) + G x = G t) by (intros; ring).
  apply (is_derive_ext (fun t : R => (G t - G x) + G x)); [exact EE|].
  replace (f x) with (plus (f x) 0) by (unfold plus; simpl; ring).
  apply (is_derive_plus (fun t : R => G t - G x) (fun _ => G x) x (f x) 0); auto. apply (is_derive_const (V := R_NormedModule)).
Qed.
Lemma prim_lim_r f a b G : prim f a b G -> filterlim (fun t : R => G t) (at_r a) (locally (G a)).
Proof. intros (L & _ & _ & P). apply P; auto. apply Rbar_le_refl. Qed.
Lemma prim_lim_l f a b G : prim f a b G -> filterlim (fun t : R => G t) (at_l b) (locally (G b)).
Proof. intros (L & _ & P & _). apply P; auto. apply Rbar_le_refl. Qed.

Lemma prim_pos f a b G (u v : R) : prim f a b G -> RbarIn a b u -> RbarIn a b v -> u < v -> (forall x : R, RbarIn a b x -> 0 < f x /\ continuous f x) -> 0 < G b - G a.
Proof.
  intros P U V UV F.
  assert (NN : forall p q, Rbar_le a p -> Rbar_lt p q -> Rbar_le q b -> 0 <= G q - G p).
  { intros p q A L B. rewrite <- (prim_Q f p q G p q (prim_sub _ _ _ _ p q P A L B)); auto using Rbar_le_refl, Rbar_lt_le.
    apply Q_nonneg; [eapply prim_integrable, prim_sub; eauto|]. intros x (X1 & X2). apply Rlt_le, F.
    split; [apply (Rbar_le_lt_trans a p x)|apply (Rbar_lt_le_trans x q b)]; auto. }
  assert (L : 0 < G v - G u).
  { rewrite <- (is_RInt_unique _ _ _ _ (proj1 (proj2 P) u v U V)).
    assert (IN : forall x, u <= x <= v -> RbarIn a b x).
    { intros x X. split; [apply (Rbar_lt_le_trans a u x)|apply (Rbar_le_lt_trans x v b)]; try apply U; try apply V; simpl; lra. }
    apply RInt_gt_0; auto; intros x X; apply F; apply IN; lra. }
  pose proof (NN a u (Rbar_le_refl _) (proj1 U) (Rbar_lt_le _ _ (proj2 U))).
  pose proof (NN v b (Rbar_lt_le _ _ (proj1 V)) (proj2 V) (Rbar_le_refl _)). lra.
Qed.

Lemma Gamma_prim k G : prim (gamma_kernel k) 0 p_infty G -> Gamma k = G p_infty - G 0.
Proof. intros P. unfold Gamma. apply (prim_Q _ 0 p_infty _ _ _ P); simpl; auto; lra. Qed.
Lemma Gamma_pos k : 0 < k -> 0 < Gamma k.
Proof.
  intros K. destruct (gamma_prim k K) as (G & P). rewrite (Gamma_prim k G P).
  apply (prim_pos (gamma_kernel k) 0 p_infty G 1 2); auto; try (split; simpl; auto; lra); try lra.
  intros x (X & _). split; [apply gamma_kernel_pos|apply gamma_kernel_cont; auto].
Qed.
Lemma Beta_prim p q G : prim (beta_kernel p q) 0 1 G -> Beta p q = G 1 - G 0.
Proof. intros P. unfold Beta. apply (prim_Q _ 0 1 _ _ _ P); simpl; lra. Qed.
Lemma Beta_pos p q : 0 < p -> 0 < q -> 0 < Beta p q.
Proof.
  intros P0 Q0. destruct (beta_prim p q P0 Q0) as (G & P). rewrite (Beta_prim p q G P).
  apply (prim_pos (beta_kernel p q) 0 1 G (/ 4) (/ 2)); auto; try (split; simpl; lra); try lra.
  intros x (X1 & X2). split; [apply beta_kernel_pos|apply beta_kernel_cont; auto].
Qed.
Lemma student_int_prim df G : prim (student_kernel df) m_infty p_infty G -> student_integral df = G p_infty - G m_infty.
Proof. intros P. unfold student_integral. apply (prim_Q _ m_infty p_infty _ _ _ P); simpl; auto. Qed.
Lemma student_int_pos df : 0 < df -> 0 < student_integral df.
Proof.
  intros D. destruct (student_prim df D) as (G & P). rewrite (student_int_prim df G P).
  apply (prim_pos (student_kernel df) m_infty p_infty G 0 1); auto; try (split; simpl; auto; lra); try lra.
  intros x _. split; [apply student_kernel_pos|apply student_kernel_cont; auto].
Qed.

(** gamma *)
Section GammaLaw.
Variables (lg : R -> R) (k theta : R).
Hypothesis K : 0 < k.
Hypothesis TH : 0 < theta.
Hypothesis LG : is_lgamma lg k.
Variable G0 : Rbar -> R.
Hypothesis P0 : prim (gamma_kernel k) 0 p_infty G0.
Let H (x : R) := (G0 (x / theta) - G0 0) / exp (lg k).
Let f (x : R) := exp (gamma_log_pdf lg k theta x).

Lemma gamma_facts :
  (forall x : R, RbarIn 0 p_infty x -> 0 <= f x) /\
  (forall x : R, RbarIn 0 p_infty x -> is_derive H x (f x)) /\
  (forall x : R, RbarIn 0 p_infty x -> continuous f x) /\
  filterlim H (at_r 0) (locally 0) /\ filterlim H (at_l p_infty) (locally 1) /\
  (forall x : R, gamma_cdf k theta x = within 0 p_infty H x).
Proof.
  pose proof (exp_pos (lg k)) as EP.
  assert (DX : forall x : R, 0 < x -> 0 < x / theta) by (intros; apply Rdiv_lt_0_compat; auto).
  splits.
  - intros x _. apply Rlt_le, exp_pos.
  - intros x (X & _). simpl in X. pose proof (DX x X) as Y.
    assert (D : is_derive (fun x => G0 (x / theta)) x (scal (/ theta) (gamma_kernel k (x / theta)))).
    { apply (is_derive_comp (fun t : R => G0 t) (fun x => x / theta)).
      - apply (prim_der _ 0 p_infty); auto; [split; simpl; auto|apply gamma_kernel_cont; auto].
      - auto_derive; auto. field. lra. }
    assert (EE : forall t : R, / exp (lg k) * G0 (t / theta) + - (G0 0 / exp (lg k)) = H t) by (intros; unfold H; field; lra).
    apply (is_derive_ext _ _ _ _ EE).
    replace (f x) with (plus (/ exp (lg k) * scal (/ theta) (gamma_kernel k (x / theta))) 0).
    + apply (is_derive_plus (fun t => / exp (lg k) * G0 (t / theta)) (fun _ => - (G0 0 / exp (lg k)))); [|apply (is_derive_const (V := R_NormedModule))].
      apply (is_derive_scal (fun x => G0 (x / theta))). exact D.
    + unfold plus, scal; simpl; unfold mult; simpl. unfold f, gamma_log_pdf, gamma_kernel, Rpower.
      unfold Rdiv at 1 2. rewrite (ln_mult x) by (auto; apply Rinv_0_lt_compat; auto). rewrite ln_Rinv by auto.
      replace ((k - 1) * ln x - x / theta - (lg k + k * ln theta)) with
        ((k - 1) * (ln x + - ln theta) + - (x * / theta) + - ln theta + - lg k) by (unfold Rdiv; ring).
      rewrite !exp_plus, (exp_Ropp (ln theta)), (exp_Ropp (lg k)), exp_ln by auto. field. lra.
  - intros x (X & _). simpl in X. apply der_cont. unfold f, gamma_log_pdf. auto_derive. auto.
  - simpl. apply (lim_der (at_right 0) (fun y => (y - G0 0) / exp (lg k)) (fun x => G0 (x / theta)) (G0 0)); [auto_derive; lra|field; lra|].
    apply (filterlim_ext (fun x => G0 ((x - 0) / theta))); [intros; rewrite Rminus_0_r; auto|].
    eapply (filterlim_comp _ _ _ (fun x => (x - 0) / theta) (fun t : R => G0 t)); [apply lim_shift; auto|]. apply (prim_lim_r _ _ _ _ P0).
  - simpl. apply (lim_der (Rbar_locally p_infty) (fun y => (y - G0 0) / exp (lg k)) (fun x => G0 (x / theta)) (G0 p_infty)); [auto_derive; lra| |].
    + unfold is_lgamma in LG. rewrite LG, (Gamma_prim _ _ P0). field. rewrite <- (Gamma_prim _ _ P0). pose proof (Gamma_pos k K). lra.
    + eapply (filterlim_comp _ _ _ (fun x => x / theta) (fun t : R => G0 t)); [|apply (prim_lim_l _ _ _ _ P0)].
      apply (lim_aff_pp _ (fun x => x) _ 0 (/ theta)); [intros; field; lra|apply Rinv_0_lt_compat; auto|apply lim_id_p].
  - intros x. unfold gamma_cdf. apply within_ext. intros y (Y & _). simpl in Y. unfold H. rewrite <- LG. f_equal.
    apply (prim_Q _ 0 p_infty _ _ _ P0); simpl; auto; try lra. apply Rlt_le, DX; auto.
Qed.
End GammaLaw.

Lemma facts_ext (f g : R -> R) (a b : Rbar) (H F : R -> R) : (forall x : R, RbarIn a b x -> f x = g x) ->
  (forall x : R, RbarIn a b x -> 0 <= f x) /\
  (forall x : R, RbarIn a b x -> is_derive H x (f x)) /\
  (forall x : R, RbarIn a b x -> continuous f x) /\
  filterlim H (at_r a) (locally 0) /\ filterlim H (at_l b) (locally 1) /\
  (forall x : R, F x = within a b H x) ->
  (forall x : R, RbarIn a b x -> 0 <= g x) /\
  (forall x : R, RbarIn a b x -> is_derive H x (g x)) /\
  (forall x : R, RbarIn a b x -> continuous g x) /\
  filterlim H (at_r a) (locally 0) /\ filterlim H (at_l b) (locally 1) /\
  (forall x : R, F x = within a b H x).
Proof.
  intros E (F1 & F2 & F3 & F4 & F5 & F6). splits; auto.
  - intros x X. rewrite <- E by auto. auto.
  - intros x X. rewrite <- E by auto. auto.
  - intros x X. apply (loc_cont _ _ a b x X E). auto.
Qed.

Lemma gamma_f_in lg k theta (x : R) : RbarIn 0 p_infty x -> exp (gamma_log_pdf lg k theta x) = gamma_f lg k theta x.
Proof. intros (X & _). simpl in X. unfold gamma_f, gamma_pdf. destruct (rltP x 0); [lra|]. destruct (reqP x 0); [lra|]. auto. Qed.

Lemma gamma_law lg eps k theta : 0 < k -> 0 < theta -> is_lgamma lg k -> law (gamma_init lg eps k theta) 0 p_infty (gamma_cdf k theta).
Proof.
  intros K TH LG. unfold gamma_init. rewrite (proj2 (rlt_true _ _) K), (proj2 (rlt_true _ _) TH). cbv zeta. cbn [andb].
  destruct (gamma_prim k K) as (G0 & P0).
  pose proof (gamma_facts lg k theta K TH LG G0 P0) as GF. eapply facts_ext in GF; [|apply gamma_f_in].
  destruct GF as (F1 & F2 & F3 & F4 & F5 & F6).
  destruct (rltP k 1) as [K1|K1]; [|destruct (reqP k 1) as [K2|K2]].
  - eapply (law_add eps _ (gamma_f lg k theta)); eauto; [discriminate|carr; lra|simpl; auto|simpl; auto].
  - eapply (law_add eps _ (gamma_f lg k theta)); eauto; [discriminate|carr; lra|simpl; auto|simpl; auto].
  - assert (M : 0 < (k - 1) * theta) by (apply Rmult_lt_0_compat; lra).
    eapply (law_add eps _ (gamma_f lg k theta)); eauto; [discriminate|carr; lra|simpl; auto|simpl; auto].
Qed.

(** chi-square *)
Lemma chi_f_in lg df (x : R) : RbarIn 0 p_infty x -> exp (gamma_log_pdf lg (df / 2) 2 x) = chi_f lg df x.
Proof.
  intros (X & _). simpl in X. unfold chi_f, chi_pdf. destruct (rltP x 0); [lra|]. destruct (reqP x 0); [lra|]. auto.
Qed.
Lemma chi_law lg eps df : 1 <= df -> is_lgamma lg (df / 2) -> law (chi_init lg eps df) 0 p_infty (gamma_cdf (df / 2) 2).
Proof.
  intros D LG. unfold chi_init. rewrite (proj2 (rlt_true 0 df)) by lra. cbv zeta.
  destruct (gamma_prim (df / 2) ltac:(lra)) as (G0 & P0).
  pose proof (gamma_facts lg (df / 2) 2 ltac:(lra) ltac:(lra) LG G0 P0) as GF. eapply facts_ext in GF; [|apply chi_f_in].
  destruct GF as (F1 & F2 & F3 & F4 & F5 & F6).
  destruct (rleP 1 df) as [_|]; [|lra]. cbn [andb]. destruct (rleP df 20) as [L|L].
  - eapply (law_make eps (chi_f lg df) _ [Finite 0; Finite (df / 2); Finite (df * 2); p_infty]); eauto; first [exact (eq_refl _)|simpl; lia|bps; lra].
  - apply Rnot_le_lt in L. destruct (rltP 20 df) as [_|]; [|contradiction].
    eapply (law_make eps (chi_f lg df) _ [Finite 0; Finite (df * 0.75); Finite (df * 4 / 3); p_infty]); eauto; first [exact (eq_refl _)|simpl; lia|bps; lra].
Qed.

(** beta *)
Lemma beta_facts lg p q G0 : 0 < p -> 0 < q -> is_lbeta lg p q -> prim (beta_kernel p q) 0 1 G0 ->
  let H (x : R) := (G0 x - G0 0) / exp (lg p + lg q - lg (p + q)) in
  (forall x : R, RbarIn 0 1 x -> 0 <= beta_f lg p q x) /\
  (forall x : R, RbarIn 0 1 x -> is_derive H x (beta_f lg p q x)) /\
  (forall x : R, RbarIn 0 1 x -> continuous (beta_f lg p q) x) /\
  filterlim H (at_r 0) (locally 0) /\ filterlim H (at_l 1) (locally 1) /\
  (forall x : R, beta_cdf p q x = within 0 1 H x).
Proof.
  intros P0 Q0 LB P H. set (w := exp (lg p + lg q - lg (p + q))) in *. assert (W : 0 < w) by apply exp_pos.
  assert (WB : w = G0 1 - G0 0) by (rewrite <- (Beta_prim p q G0 P); exact LB).
  assert (E : forall x : R, RbarIn 0 1 x -> / w * beta_kernel p q x = beta_f lg p q x).
  { intros x (X1 & X2). simpl in X1, X2. unfold beta_f. destruct (rltP x 0); [lra|]. destruct (rltP 1 x); [lra|]. cbn [orb].
    unfold w, beta_kernel, Rpower. rewrite <- exp_Ropp, <- !exp_plus. f_equal. ring. }
  splits.
  - intros x X. rewrite <- E by auto. apply Rlt_le, Rmult_lt_0_compat; [apply Rinv_0_lt_compat; auto|apply beta_kernel_pos].
  - intros x X. rewrite <- E by auto.
    assert (EE : forall t : R, / w * G0 t + - (G0 0 / w) = H t) by (intros; unfold H; field; lra).
    apply (is_derive_ext _ _ _ _ EE).
    replace (/ w * beta_kernel p q x) with (plus (/ w * beta_kernel p q x) 0) by (unfold plus; simpl; ring).
    apply (is_derive_plus (fun t : R => / w * G0 t) (fun _ => - (G0 0 / w))); [|apply (is_derive_const (V := R_NormedModule))].
    apply (is_derive_scal (fun t : R => G0 t)). apply (prim_der _ 0 1); auto. destruct X. apply beta_kernel_cont; auto.
  - intros x X. apply (loc_cont _ _ 0 1 x X E). destruct X as (X1 & X2). simpl in X1, X2. apply der_cont. unfold beta_kernel, Rpower. auto_derive. lra.
  - apply (lim_der (at_r 0) (fun y => (y - G0 0) / w) (fun t : R => G0 t) (G0 0)); [auto_derive; lra|field; lra|]. apply (prim_lim_r _ _ _ _ P).
  - apply (lim_der (at_l 1) (fun y => (y - G0 0) / w) (fun t : R => G0 t) (G0 1)); [auto_derive; lra|rewrite <- WB; field; lra|]. apply (prim_lim_l _ _ _ _ P).
  - intros x. unfold beta_cdf. apply within_ext. intros y (Y1 & Y2). simpl in Y1, Y2. unfold H. rewrite <- LB. f_equal.
    apply (prim_Q _ 0 1 _ _ _ P); simpl; lra.
Qed.

Lemma beta_law lg eps mpe p q : 0 < p -> 0 < q -> is_lbeta lg p q -> law (beta_init lg eps mpe p q) 0 1 (beta_cdf p q).
Proof.
  intros P0 Q0 LB. unfold beta_init. cbv zeta. destruct (beta_prim p q P0 Q0) as (G0 & P).
  destruct (beta_facts lg p q G0 P0 Q0 LB P) as (F1 & F2 & F3 & F4 & F5 & F6).
  assert (CR : carries (beta_f lg p q) (PoleSeg (1 / 2) 1 (beta_f lg p q) false)).
  { repeat split; simpl; auto; try lra. intros _ c (C1 & C2). simpl in C1, C2.
    apply (ex_RInt_continuous (V := R_CompleteNormedModule)). intros z Z. rewrite Rmin_left, Rmax_right in Z by lra. apply F3. split; simpl; lra. }
  destruct (rlt p 2 && rlt mpe (Rabs (p - 1)))%bool; destruct (rlt q 2 && rlt mpe (Rabs (q - 1)))%bool; cbn [andb];
    (eapply (law_add eps _ (beta_f lg p q)); eauto; [discriminate|carr; auto; lra|simpl; auto|simpl; lra]).
Qed.

(** F *)
Lemma fdist_law lg eps d1 d2 : 0 < d1 -> 0 < d2 -> is_lbeta lg (d1 / 2) (d2 / 2) -> law (fdist_init lg eps d1 d2) 0 p_infty (fdist_cdf d1 d2).
Proof.
  intros D1 D2 LB. unfold fdist_init. cbv zeta. destruct (beta_prim (d1 / 2) (d2 / 2) ltac:(lra) ltac:(lra)) as (G0 & P).
  destruct (beta_facts lg (d1 / 2) (d2 / 2) G0 ltac:(lra) ltac:(lra) LB P) as (F1 & F2 & F3 & F4 & F5 & F6).
  set (w := exp (lg (d1 / 2) + lg (d2 / 2) - lg (d1 / 2 + d2 / 2))) in *. set (B := fun x : R => (G0 x - G0 0) / w) in *.
  set (z := fun x => d1 * x / (d1 * x + d2)).
  assert (DP : forall x, 0 < x -> 0 < d1 * x) by (intros; apply Rmult_lt_0_compat; auto).
  assert (ZI : forall x, 0 < x -> 0 < z x < 1).
  { intros x X. specialize (DP x X). unfold z. split; [apply Rdiv_lt_0_compat; lra|apply Rlt_div_l; lra]. }
  assert (E : forall x : R, RbarIn 0 p_infty x -> d1 * d2 / ((d1 * x + d2) * (d1 * x + d2)) * beta_f lg (d1 / 2) (d2 / 2) (z x) = fdist_f lg d1 d2 x).
  { intros x (X & _). simpl in X. unfold fdist_f, fdist_pdf. destruct (rltP x 0); [lra|]. destruct (reqP x 0); [lra|].
    destruct (ZI x X) as (Z1 & Z2). unfold beta_f. destruct (rltP (z x) 0); [lra|]. destruct (rltP 1 (z x)); [lra|]. cbn [orb real].
    specialize (DP x X).
    assert (N1 : ln (z x) = ln (d1 * x) - ln (d1 * x + d2)).
    { unfold z, Rdiv. rewrite ln_mult, ln_Rinv by (try apply Rinv_0_lt_compat; lra). ring. }
    assert (N2 : ln (1 - z x) = ln d2 - ln (d1 * x + d2)).
    { replace (1 - z x) with (d2 * / (d1 * x + d2)) by (unfold z; field; lra). rewrite ln_mult, ln_Rinv by (try apply Rinv_0_lt_compat; lra). ring. }
    rewrite N1, N2.
    assert (N3 : d1 * d2 / ((d1 * x + d2) * (d1 * x + d2)) = exp (ln (d1 * x) - ln x + ln d2 - ln (d1 * x + d2) - ln (d1 * x + d2))).
    { unfold Rminus. rewrite !exp_plus, !exp_Ropp, !exp_ln by lra. field. lra. }
    rewrite N3, <- exp_plus. f_equal. replace 0.5 with (/ 2) by lra.
    replace (d1 / 2 + d2 / 2) with ((d1 + d2) / 2) by field. field. }
  assert (GG : (forall x : R, RbarIn 0 p_infty x -> 0 <= fdist_f lg d1 d2 x) /\
    (forall x : R, RbarIn 0 p_infty x -> is_derive (fun x => B (z x)) x (fdist_f lg d1 d2 x)) /\
    (forall x : R, RbarIn 0 p_infty x -> continuous (fdist_f lg d1 d2) x) /\
    filterlim (fun x => B (z x)) (at_r 0) (locally 0) /\ filterlim (fun x => B (z x)) (at_l p_infty) (locally 1) /\
    (forall x : R, fdist_cdf d1 d2 x = within 0 p_infty (fun x => B (z x)) x)).
  { splits.
    - intros x X. rewrite <- E by auto. destruct X as (X & _). simpl in X. specialize (DP x X). apply Rmult_le_pos; [|apply F1; destruct (ZI x X); split; auto].
      apply Rlt_le, Rdiv_lt_0_compat; apply Rmult_lt_0_compat; lra.
    - intros x X. rewrite <- E by auto. destruct X as (X & _). simpl in X. specialize (DP x X).
      apply (is_derive_comp B z x (beta_f lg (d1 / 2) (d2 / 2) (z x))); [apply F2; destruct (ZI x X); split; auto|].
      unfold z. auto_derive; [lra|]. field. lra.
    - intros x X. apply (loc_cont _ _ 0 p_infty x X E). destruct X as (X & _). simpl in X. specialize (DP x X).
      apply (continuous_mult (fun x => d1 * d2 / ((d1 * x + d2) * (d1 * x + d2))) (fun x => beta_f lg (d1 / 2) (d2 / 2) (z x))).
      + apply der_cont. auto_derive. apply Rgt_not_eq, Rmult_lt_0_compat; lra.
      + apply (continuous_comp z (beta_f lg (d1 / 2) (d2 / 2))); [|apply F3; destruct (ZI x X); split; auto].
        apply der_cont. unfold z. auto_derive. lra.
    - simpl. eapply (filterlim_comp _ _ _ z B _ (at_right 0)); [|exact F4].
      assert (LZ : filterlim z (locally 0) (locally 0)).
      { assert (C : continuous z 0) by (apply der_cont; unfold z; auto_derive; lra). unfold continuous in C.
        assert (Z0 : z 0 = 0) by (unfold z; field; lra). rewrite Z0 in C. exact C. }
      intros S (e & He). destruct (proj1 (filterlim_locally (F := locally 0) z 0) LZ e) as (d & Hd).
      exists d. intros y By Hy. apply He; [apply Hd; auto|]. apply ZI; auto.
    - simpl. eapply (filterlim_comp _ _ _ z B _ (at_left 1)); [|exact F5].
      assert (LZ : filterlim z (Rbar_locally p_infty) (locally 1)).
      { apply (filterlim_ext_loc (fun x => / (1 + d2 / d1 * / x))).
        - exists 0. intros x X. specialize (DP x X). unfold z. field. repeat split; lra.
        - apply (lim_der (Rbar_locally p_infty) (fun y => / (1 + d2 / d1 * y)) (fun x => / x) 0); [auto_derive; lra|rewrite Rmult_0_r, Rplus_0_r; apply Rinv_1|].
          apply (filterlim_Rbar_inv p_infty). discriminate. }
      intros S (e & He). destruct (proj1 (filterlim_locally (F := Rbar_locally p_infty) z 1) LZ e) as (d & Hd).
      exists (Rmax d 0). intros y Hy. apply He; [apply Hd; pose proof (Rmax_l d 0); lra|]. apply ZI. pose proof (Rmax_r d 0); lra.
    - intros x. unfold fdist_cdf. apply within_ext. intros y (Y & _). simpl in Y. rewrite F6. unfold within.
      destruct (ZI y Y) as (Z1 & Z2). unfold z in *.
      destruct (Rbar_le_dec _ _) as [A|A]; [simpl in A; lra|]. destruct (Rbar_le_dec _ _) as [A'|A']; [simpl in A'; lra|]. auto. }
  destruct GG as (G1 & G2 & G3 & G4 & G5 & G6).
  destruct (rltP d1 2) as [K1|K1]; [|destruct (reqP d1 2) as [K2|K2]].
  - eapply (law_add eps _ (fdist_f lg d1 d2)); eauto; [discriminate|carr; lra|simpl; auto|simpl; auto].
  - eapply (law_add eps _ (fdist_f lg d1 d2)); eauto; [discriminate|carr; lra|simpl; auto|simpl; auto].
  - assert (M : 0 < (d1 - 2) / d1 * d2 / (d2 + 2)) by (apply Rdiv_lt_0_compat; [apply Rmult_lt_0_compat; [apply Rdiv_lt_0_compat|]|]; lra).
    eapply (law_add eps _ (fdist_f lg d1 d2)); eauto; [discriminate|carr; lra|simpl; auto|simpl; auto].
Qed.

(** Student *)
Lemma student_law lg eps df : 0 < df -> is_lstudent lg df -> law (student_init lg eps df) m_infty p_infty (student_cdf df).
Proof.
  intros D LS. unfold student_init. rewrite (proj2 (rlt_true _ _) D). cbv zeta. destruct (student_prim df D) as (G0 & P).
  pose proof (student_int_pos df D) as W. set (w := student_integral df) in *.
  assert (WB : w = G0 p_infty - G0 m_infty) by (apply (student_int_prim df G0 P)).
  assert (I0 : 0 < sqrt (df / (df + 2))) by (apply sqrt_lt_R0, Rdiv_lt_0_compat; lra).
  assert (E : forall x : R, RbarIn m_infty p_infty x -> / w * student_kernel df x = student_pdf lg df x).
  { intros x _. unfold student_pdf, w. rewrite <- LS. unfold student_kernel, Rpower. pose proof PI_RGT_0 as HP.
    replace (sqrt (df * PI)) with (exp (0.5 * (ln df + ln PI))).
    - rewrite <- exp_plus, <- exp_Ropp, <- exp_plus. f_equal. ring.
    - rewrite <- ln_mult by auto. rewrite <- (Rpower_sqrt (df * PI)) by (apply Rmult_lt_0_compat; auto). unfold Rpower. f_equal. f_equal. lra. }
  set (H := fun x : R => (G0 x - G0 m_infty) / w).
  apply (law_add eps _ (student_pdf lg df) H).
  - discriminate.
  - carr; lra.
  - simpl; auto.
  - simpl; auto.
  - intros x _. apply Rlt_le, exp_pos.
  - intros x X. rewrite <- E by auto.
    assert (EE : forall t : R, / w * G0 t + - (G0 m_infty / w) = H t) by (intros; unfold H; field; lra).
    apply (is_derive_ext _ _ _ _ EE).
    replace (/ w * student_kernel df x) with (plus (/ w * student_kernel df x) 0) by (unfold plus; simpl; ring).
    apply (is_derive_plus (fun t : R => / w * G0 t) (fun _ => - (G0 m_infty / w))); [|apply (is_derive_const (V := R_NormedModule))].
    apply (is_derive_scal (fun t : R => G0 t)). apply (prim_der _ m_infty p_infty); auto. apply student_kernel_cont; auto.
  - intros x X. apply (loc_cont _ _ _ _ x X E). pose proof (student_base df x D) as SB. simpl in SB.
    apply der_cont. unfold student_kernel, Rpower. auto_derive. auto.
  - apply (lim_der (at_r m_infty) (fun y => (y - G0 m_infty) / w) (fun t : R => G0 t) (G0 m_infty)); [auto_derive; lra|field; lra|]. apply (prim_lim_r _ _ _ _ P).
  - apply (lim_der (at_l p_infty) (fun y => (y - G0 m_infty) / w) (fun t : R => G0 t) (G0 p_infty)); [auto_derive; lra|rewrite <- WB; field; lra|]. apply (prim_lim_l _ _ _ _ P).
  - intros x. rewrite within_line. unfold student_cdf, H. fold w. f_equal. apply (prim_Q _ m_infty p_infty _ _ _ P); simpl; auto.
Qed.
