(** Textbook distribution functions of the named distributions, part 5: Gumbel, normal, Levy. *)
From Coq Require Import Reals Lra List Bool Sorted Arith Lia.
From Coquelicot Require Import Coquelicot.
From Verif Require Import Base Seg Piecewise PiecewiseSpec PiecewiseFacts2 Integral IntegralFacts SegIntSpec CumintFacts CumintFacts2 Std StdSpec StdFacts StdFacts2 StdFacts3 StdFacts4 StdFacts5 StdFacts6.
Import List ListNotations.
Open Scope R_scope.

(** Gumbel *)
Section Gumbel.
Variables mu sigma M : R.
Hypothesis SG : 0 < sigma.
Let x0 := mu - sigma * M.
Let e0 := exp (- exp M).
Let H (x : R) := exp (- exp (- (x - mu) / sigma)).
Let T (x : R) := if Rle_dec x x0 then 0 else H x - e0.
Let h (x : R) := 1 / sigma * exp (1 / sigma * (mu - x) - exp (1 / sigma * (mu - x))).

Lemma gumbel_above x : x0 <= x -> gumbel_pdf M mu sigma x = h x.
Proof.
  intros X. unfold gumbel_pdf, h. destruct (rltP M (1 / sigma * (mu - x))) as [L|]; auto. exfalso. unfold x0 in X.
  apply (Rmult_lt_compat_l sigma) in L; auto. replace (sigma * (1 / sigma * (mu - x))) with (mu - x) in L by (field; lra). lra.
Qed.
Lemma gumbel_below x : x < x0 -> gumbel_pdf M mu sigma x = 0.
Proof.
  intros X. unfold gumbel_pdf. destruct (rltP M (1 / sigma * (mu - x))) as [|L]; auto. exfalso. unfold x0 in X. apply L.
  apply (Rmult_lt_reg_l sigma); auto. replace (sigma * (1 / sigma * (mu - x))) with (mu - x) by (field; lra). lra.
Qed.
Lemma gumbel_nonneg x : 0 <= gumbel_pdf M mu sigma x.
Proof.
  destruct (Rlt_le_dec x x0) as [L|L]; [rewrite gumbel_below by auto; lra|]. rewrite gumbel_above by auto.
  apply Rlt_le, Rmult_lt_0_compat; [apply Rdiv_lt_0_compat; lra|apply exp_pos].
Qed.
Lemma gumbel_der x : is_derive H x (h x).
Proof.
  unfold H, h. auto_derive; auto. unfold Rminus. rewrite exp_plus.
  replace (- (x + - mu) * / sigma) with (1 / sigma * (mu + - x)) by (field; lra). field. lra.
Qed.
Lemma gumbel_hcont x : continuous h x.
Proof. apply der_cont. unfold h. auto_derive. auto. Qed.
Lemma gumbel_x0 : H x0 = e0.
Proof. unfold H, e0, x0. f_equal. f_equal. f_equal. field. lra. Qed.
Lemma gumbel_T x : x0 <= x -> T x = H x - e0.
Proof. intros X. unfold T. destruct (Rle_dec x x0); auto. replace x with x0 by lra. rewrite gumbel_x0. lra. Qed.
Lemma gumbel_Tm x : T x = Rmax 0 (gumbel_cdf mu sigma x - exp (- exp M)).
Proof.
  change (gumbel_cdf mu sigma x) with (H x). fold e0. unfold T. destruct (Rle_dec x x0) as [L|L].
  - rewrite Rmax_left; auto. destruct L as [L| ->]; [|rewrite gumbel_x0; lra].
    assert (H x < H x0); [|rewrite gumbel_x0 in *; lra].
    unfold H. apply exp_increasing, Ropp_lt_contravar, exp_increasing. apply Rmult_lt_compat_r; [apply Rinv_0_lt_compat; auto|lra].
  - rewrite Rmax_right; auto. assert (H x0 < H x); [|rewrite gumbel_x0 in *; lra].
    unfold H. apply exp_increasing, Ropp_lt_contravar, exp_increasing. apply Rmult_lt_compat_r; [apply Rinv_0_lt_compat; auto|lra].
Qed.

Lemma gumbel_right (a b : Rbar) : Rbar_lt a b -> Rbar_le x0 a -> prim (gumbel_pdf M mu sigma) a b (on_ends 0 T (1 - e0)).
Proof.
  intros L A.
  assert (IN : forall x : R, RbarIn a b x -> x0 < x).
  { intros x (X & _). apply (Rbar_le_lt_trans x0 a x); auto. }
  assert (E : forall x : R, RbarIn a b x -> h x = gumbel_pdf M mu sigma x).
  { intros x X. apply IN in X. rewrite gumbel_above by lra. auto. }
  assert (DH : forall x, is_derive (fun x => H x - e0) x (h x)).
  { intros x. replace (h x) with (minus (h x) 0) by (unfold minus, plus, opp; simpl; ring).
    apply (is_derive_minus H (fun _ => e0)); [apply gumbel_der|apply (is_derive_const (V := R_NormedModule))]. }
  apply (prim_piece _ (fun x => H x - e0)); auto.
  - intros x X. rewrite <- E by auto. apply DH.
  - intros x X. apply (loc_cont _ _ a b x X E). apply gumbel_hcont.
  - destruct a as [a| |]; [|destruct b; contradiction|contradiction].
    cbn [on_ends]. rewrite gumbel_T by (simpl in A; lra). apply lim_r_cont; auto. eexists. apply DH.
  - destruct b as [b| |]; [| |destruct a; contradiction].
    + cbn [on_ends]. rewrite gumbel_T.
      * apply lim_l_cont; auto. eexists. apply DH.
      * apply Rlt_le. apply (Rbar_le_lt_trans x0 a b); auto.
    + cbn [on_ends at_l]. apply (lim_der (Rbar_locally p_infty) (fun y => y - e0) H 1); [auto_derive; auto|auto|].
      unfold H. apply (lim_exp_0 (Rbar_locally p_infty)). apply (lim_exp_m (Rbar_locally p_infty)).
      apply (lim_aff_pm _ (fun x => x) _ (mu / sigma) (- / sigma)); [intros; field; lra| |apply lim_id_p].
      apply Ropp_lt_gt_0_contravar, Rinv_0_lt_compat; auto.
  - intros x X. cbn [on_ends]. apply gumbel_T. apply IN in X. lra.
Qed.

Lemma gumbel_left : prim (gumbel_pdf M mu sigma) m_infty x0 (on_ends 0 T (1 - e0)).
Proof.
  assert (IN : forall x : R, RbarIn m_infty x0 x -> x < x0) by (intros x (_ & X); auto).
  assert (E : forall x : R, RbarIn m_infty x0 x -> 0 = gumbel_pdf M mu sigma x).
  { intros x X. apply IN in X. rewrite gumbel_below; auto. }
  apply (prim_piece _ (fun x => 0)).
  - simpl; auto.
  - intros x X. rewrite <- E by auto. apply (is_derive_const (V := R_NormedModule)).
  - intros x X. apply (loc_cont _ _ m_infty x0 x X E). apply continuous_const.
  - cbn [on_ends]. apply filterlim_const.
  - cbn [on_ends]. rewrite gumbel_T by lra. rewrite gumbel_x0. replace (e0 - e0) with 0 by ring. apply filterlim_const.
  - intros x X. apply IN in X. cbn [on_ends]. unfold T. destruct (Rle_dec x x0); lra.
Qed.

Lemma gumbel_prim : prim (gumbel_pdf M mu sigma) m_infty p_infty (on_ends 0 T (1 - e0)).
Proof.
  apply (prim_glue _ m_infty x0 p_infty).
  - apply gumbel_left.
  - apply gumbel_right; simpl; auto; lra.
  - intros u (_ & U). simpl in U. cbn [on_ends]. rewrite (gumbel_T x0) by lra. rewrite gumbel_x0.
    unfold T. destruct (Rle_dec u x0); [|lra]. replace (e0 - e0 - 0) with (scal (x0 - u) 0) by (unfold scal; simpl; unfold mult; simpl; ring).
    apply (is_RInt_ext (fun _ => 0)); [|apply (is_RInt_const (V := R_NormedModule))].
    intros x X. rewrite Rmin_left, Rmax_right in X by lra. rewrite gumbel_below; lra.
  - intros v (V & _). simpl in V. cbn [on_ends]. rewrite !gumbel_T by lra.
    replace (H v - e0 - (H x0 - e0)) with (minus (H v) (H x0)) by (unfold minus, plus, opp; simpl; ring).
    apply (is_RInt_ext h); [|apply (is_RInt_derive H h)].
    + intros x X. rewrite Rmin_left, Rmax_right in X by lra. rewrite gumbel_above; lra.
    + intros x _. apply gumbel_der.
    + intros x _. apply gumbel_hcont.
Qed.
End Gumbel.

Lemma gumbel_law eps M mu sigma : 0 < sigma ->
  law_mass (gumbel_init eps M mu sigma) m_infty p_infty (1 - exp (- exp M))
    (fun x => Rmax 0 (gumbel_cdf mu sigma x - exp (- exp M))).
Proof.
  intros SG. unfold gumbel_init. rewrite (proj2 (rlt_true _ _) SG). cbv zeta.
  pose proof (gumbel_prim mu sigma M SG) as P. set (G := on_ends _ _ _) in P.
  assert (S5 : 2 < sqrt 5).
  { replace 2 with (sqrt (2 * 2)) by (apply sqrt_square; lra). apply sqrt_lt_1; lra. }
  assert (L1 : 0 < ln ((3 + sqrt 5) / 2)) by (rewrite <- ln_1; apply ln_increasing; lra).
  assert (L2 : 0 < sigma * ln ((3 + sqrt 5) / 2)) by (apply Rmult_lt_0_compat; auto).
  apply (law_mass_add eps _ m_infty p_infty _ G); try reflexivity.
  - discriminate.
  - simpl; auto.
  - repeat apply Forall_cons; try apply Forall_nil; one_piece; try lra; try (intros; apply gumbel_nonneg; auto);
      apply (prim_sub _ m_infty p_infty); simpl; auto; lra.
  - intros x. rewrite clamp_line. unfold G. cbn [on_ends]. rewrite gumbel_Tm; auto.
Qed.

(** The Gaussian integral *)
Definition gker (t : R) : R := exp (- (t * t) / 2).
Definition gint (x : R) : R := RInt gker 0 x.
Definition gaux_f (x t : R) : R := exp (- (x * x * (1 + t * t)) / 2) / (1 + t * t).
Definition gaux (x : R) : R := RInt (gaux_f x) 0 1.

Lemma gker_cont t : continuous gker t.
Proof. apply der_cont. unfold gker. auto_derive. auto. Qed.
Lemma gker_ex a b : ex_RInt gker a b.
Proof. apply (ex_RInt_continuous (V := R_CompleteNormedModule)). intros; apply gker_cont. Qed.
Lemma gint_der x : is_derive gint x (gker x).
Proof.
  apply (is_derive_RInt (V := R_CompleteNormedModule) gker gint 0 x).
  - exists (mkposreal 1 Rlt_0_1). intros y _. apply (RInt_correct (V := R_CompleteNormedModule)), gker_ex.
  - apply gker_cont.
Qed.
Lemma one_plus_sq t : 0 < 1 + t * t.
Proof. pose proof (Rle_0_sqr t) as H. unfold Rsqr in H. lra. Qed.
Lemma gaux_cont x t : continuous (gaux_f x) t.
Proof. apply der_cont. unfold gaux_f. pose proof (one_plus_sq t). auto_derive. lra. Qed.
Lemma gaux_der_f x t : is_derive (fun u => gaux_f u t) x (- x * exp (- (x * x * (1 + t * t)) / 2)).
Proof. unfold gaux_f. pose proof (one_plus_sq t). auto_derive; auto. unfold Rdiv. field. lra. Qed.

Lemma gaux_der x : is_derive gaux x (- gker x * gint x).
Proof.
  assert (D : is_derive (fun x => RInt (fun t => gaux_f x t) 0 1) x (RInt (fun t => Derive (fun u => gaux_f u t) x) 0 1)).
  { apply is_derive_RInt_param.
    - exists (mkposreal 1 Rlt_0_1). intros y _ t _. eexists. apply gaux_der_f.
    - intros t _. apply (continuity_2d_pt_ext (fun u v => - u * exp (- (u * u * (1 + v * v)) / 2))).
      + intros u v. symmetry. apply is_derive_unique. apply gaux_der_f.
      + apply (continuity_2d_pt_mult (fun u v => - u) (fun u v => exp (- (u * u * (1 + v * v)) / 2))).
        * apply (continuity_2d_pt_opp (fun u v => u)). apply continuity_2d_pt_id1.
        * apply (continuity_1d_2d_pt_comp exp (fun u v => - (u * u * (1 + v * v)) / 2)).
          -- apply derivable_continuous_pt, derivable_pt_exp.
          -- unfold Rdiv. apply (continuity_2d_pt_mult (fun u v => - (u * u * (1 + v * v))) (fun _ _ => / 2)); [|apply continuity_2d_pt_const].
             apply (continuity_2d_pt_opp (fun u v => u * u * (1 + v * v))).
             apply (continuity_2d_pt_mult (fun u v => u * u) (fun u v => 1 + v * v)).
             ++ apply (continuity_2d_pt_mult (fun u v => u) (fun u v => u)); apply continuity_2d_pt_id1.
             ++ apply (continuity_2d_pt_plus (fun _ _ => 1) (fun u v => v * v)); [apply continuity_2d_pt_const|].
                apply (continuity_2d_pt_mult (fun u v => v) (fun u v => v)); apply continuity_2d_pt_id2.
    - exists (mkposreal 1 Rlt_0_1). intros y _. apply (ex_RInt_continuous (V := R_CompleteNormedModule)). intros; apply gaux_cont. }
  replace (- gker x * gint x) with (RInt (fun t => Derive (fun u => gaux_f u t) x) 0 1); auto.
  rewrite (RInt_ext _ (fun t => scal (- gker x) (scal x (gker (x * t + 0))))).
  - rewrite (RInt_scal (V := R_CompleteNormedModule) (fun t => scal x (gker (x * t + 0)))).
    + assert (E1 : RInt (fun t => scal x (gker (x * t + 0))) 0 1 = gint x).
      { generalize (RInt_comp_lin (V := R_CompleteNormedModule) gker x 0 0 1 (gker_ex _ _)).
        rewrite Rmult_0_r, Rmult_1_r, !Rplus_0_r. auto. }
      exact (f_equal (fun z => - gker x * z) E1).
    + apply (ex_RInt_continuous (V := R_CompleteNormedModule)). intros z _. apply der_cont. unfold scal; simpl; unfold mult; simpl. unfold gker. auto_derive. auto.
  - intros t _. apply (eq_trans (is_derive_unique _ _ _ (gaux_der_f x t))). unfold scal; simpl; unfold mult; simpl. unfold gker.
    replace (- (x * x * (1 + t * t)) / 2) with (- (x * x) / 2 + - ((x * t + 0) * (x * t + 0)) / 2) by field. rewrite exp_plus. ring.
Qed.

Lemma gauss_const x : gint x * gint x + 2 * gaux x = PI / 2.
Proof.
  set (K := fun x => gint x * gint x + 2 * gaux x).
  assert (D : forall x, is_derive K x 0).
  { intros y. unfold K.
    replace 0 with (plus (plus (gker y * gint y) (gint y * gker y)) (2 * (- gker y * gint y))) by (unfold plus; simpl; ring).
    apply (is_derive_plus (fun x => gint x * gint x) (fun x => 2 * gaux x)).
    - apply (is_derive_mult gint gint); try apply gint_der. intros; apply Rmult_comm.
    - apply (is_derive_scal gaux y 2). apply gaux_der. }
  assert (C : K x = K 0).
  { destruct (MVT_gen K 0 x (fun _ => 0)) as (c & _ & E).
    - intros; apply D.
    - intros y _. apply continuity_pt_filterlim. apply der_cont. eexists; apply D.
    - lra. }
  change (K x = PI / 2). rewrite C. unfold K, gint. rewrite (RInt_point (V := R_CompleteNormedModule)).
  unfold gaux. change (@zero _) with 0.
  assert (E : RInt (gaux_f 0) 0 1 = PI / 4).
  { apply is_RInt_unique. rewrite <- atan_1. replace (atan 1) with (minus (atan 1) (atan 0)) by (unfold minus, plus, opp; simpl; rewrite atan_0; ring).
    apply (is_RInt_derive atan (gaux_f 0)).
    - intros t _. unfold gaux_f. replace (exp (- (0 * 0 * (1 + t * t)) / 2)) with 1 by (rewrite !Rmult_0_l, Ropp_0; unfold Rdiv; rewrite Rmult_0_l, exp_0; auto).
      pose proof (one_plus_sq t). auto_derive; auto. unfold Rsqr. field. lra.
    - intros; apply gaux_cont. }
  rewrite E. unfold zero; simpl. lra.
Qed.

Lemma gaux_bound x : 0 <= gaux x <= exp (- (x * x) / 2).
Proof.
  assert (EX : ex_RInt (gaux_f x) 0 1) by (apply (ex_RInt_continuous (V := R_CompleteNormedModule)); intros; apply gaux_cont).
  assert (B : forall t, 0 <= gaux_f x t <= exp (- (x * x) / 2)).
  { intros t. unfold gaux_f. pose proof (one_plus_sq t) as O. split; [apply Rlt_le, Rdiv_lt_0_compat; auto; apply exp_pos|].
    apply Rle_div_l; auto. apply (Rle_trans _ (exp (- (x * x) / 2) * 1)).
    - rewrite Rmult_1_r. destruct (Rle_lt_or_eq_dec 0 (x * x * (t * t))) as [L|L].
      + apply Rmult_le_pos; apply Rle_0_sqr.
      + left. apply exp_increasing. lra.
      + right. f_equal. lra.
    - apply Rmult_le_compat_l; [apply Rlt_le, exp_pos|]. pose proof (Rle_0_sqr t) as H. unfold Rsqr in H. lra. }
  split.
  - apply RInt_ge_0; auto; [lra|]. intros; apply B.
  - unfold gaux. apply (Rle_trans _ (RInt (fun _ => exp (- (x * x) / 2)) 0 1)).
    + apply RInt_le; auto; [lra|apply ex_RInt_const|]. intros; apply B.
    + rewrite RInt_const. unfold scal; simpl; unfold mult; simpl. lra.
Qed.

Lemma gint_nonneg x : 0 <= x -> 0 <= gint x.
Proof. intros X. apply RInt_ge_0; auto; [apply gker_ex|]. intros. apply Rlt_le, exp_pos. Qed.

Lemma gint_lim : filterlim gint (Rbar_locally p_infty) (locally (sqrt (2 * PI) / 2)).
Proof.
  pose proof PI_RGT_0 as HP.
  replace (sqrt (2 * PI) / 2) with (sqrt (PI / 2 - 2 * 0)).
  2:{ rewrite Rmult_0_r, Rminus_0_r. replace (2 * PI) with ((2 * 2) * (PI / 2)) by field. rewrite sqrt_mult by lra. rewrite sqrt_square by lra. field. }
  apply (filterlim_ext_loc (fun x => sqrt (PI / 2 - 2 * gaux x))).
  { exists 0. intros x X. rewrite <- (sqrt_square (gint x)) by (apply gint_nonneg; lra). f_equal. rewrite <- (gauss_const x). ring. }
  apply (lim_cont (Rbar_locally p_infty) (fun y => sqrt (PI / 2 - 2 * y)) gaux 0).
  - apply der_cont. auto_derive. lra.
  - apply (filterlim_le_le (fun _ => 0) gaux (fun x => exp (- (x * x) / 2)) 0).
    + apply filter_forall. intros x. apply gaux_bound.
    + apply filterlim_const.
    + apply (lim_exp_m (Rbar_locally p_infty)). apply (lim_m (Rbar_locally p_infty)). intros W.
      exists (1 + 2 * Rabs W). intros x X. pose proof (Rabs_pos W). pose proof (Rle_abs (- W)) as A. rewrite Rabs_Ropp in A.
      assert (x * 1 < x * x) by (apply Rmult_lt_compat_l; lra). lra.
Qed.

Lemma gint_odd x : gint (- x) = - gint x.
Proof.
  unfold gint. replace (- x) with (-1 * x + 0) by ring. replace 0 with (-1 * 0 + 0) at 1 by ring.
  rewrite <- (RInt_comp_lin (V := R_CompleteNormedModule) gker (-1) 0 0 x) by apply gker_ex.
  rewrite (RInt_ext _ (fun t => opp (gker t))).
  - rewrite (RInt_opp (V := R_CompleteNormedModule)) by apply gker_ex. reflexivity.
  - intros t _. unfold scal, opp; simpl; unfold mult; simpl. unfold gker. replace ((-1 * t + 0) * (-1 * t + 0)) with (t * t) by ring. ring.
Qed.

Lemma Phi_der x : is_derive Phi x (gker x / sqrt (2 * PI)).
Proof.
  unfold Phi. change (fun x => / 2 + RInt (fun t => exp (- (t * t) / 2)) 0 x / sqrt (2 * PI)) with (fun x => / 2 + gint x / sqrt (2 * PI)).
  assert (S0 : sqrt (2 * PI) <> 0) by (apply Rgt_not_eq, sqrt_lt_R0; pose proof PI_RGT_0; lra).
  assert (EE : forall t : R, / sqrt (2 * PI) * gint t + / 2 = / 2 + gint t / sqrt (2 * PI)) by (intros; field; auto).
  apply (is_derive_ext (fun x => / sqrt (2 * PI) * gint x + / 2)); [exact EE|].
  replace (gker x / sqrt (2 * PI)) with (plus (/ sqrt (2 * PI) * gker x) 0) by (unfold plus; simpl; field; auto).
  apply (is_derive_plus (fun x => / sqrt (2 * PI) * gint x) (fun _ => / 2)); [|apply (is_derive_const (V := R_NormedModule))].
  apply (is_derive_scal gint). apply gint_der.
Qed.
Lemma Phi_p : filterlim Phi (Rbar_locally p_infty) (locally 1).
Proof.
  assert (S0 : sqrt (2 * PI) <> 0) by (apply Rgt_not_eq, sqrt_lt_R0; pose proof PI_RGT_0; lra).
  apply (lim_der (Rbar_locally p_infty) (fun y => / 2 + y / sqrt (2 * PI)) gint (sqrt (2 * PI) / 2)); [auto_derive; auto|field; auto|apply gint_lim].
Qed.
Lemma Phi_opp x : Phi (- x) = 1 - Phi x.
Proof.
  unfold Phi. change (RInt (fun t => exp (- (t * t) / 2)) 0) with gint. rewrite gint_odd. unfold Rdiv. ring_simplify. field.
  apply Rgt_not_eq, sqrt_lt_R0; pose proof PI_RGT_0; lra.
Qed.
Lemma Phi_0 : Phi 0 = / 2.
Proof. unfold Phi. rewrite (RInt_point (V := R_CompleteNormedModule)). unfold zero; simpl. unfold Rdiv. ring. Qed.
Lemma Phi_m : filterlim Phi (Rbar_locally m_infty) (locally 0).
Proof.
  apply (filterlim_ext (fun x => 1 - Phi (- x))); [intros x; rewrite Phi_opp; ring|].
  apply (lim_one_minus _ _ 1); [ring|]. eapply filterlim_comp; [|apply Phi_p].
  apply (lim_aff_mp _ (fun x => x) _ 0 (-1)); [intros; ring|lra|apply lim_id_m].
Qed.
