(** Moments of the named distributions: beta, F, log-logistic. *)
From Coq Require Import Reals Lra Lia List Bool Sorted.
From Coquelicot Require Import Coquelicot.
From Verif Require Import Base Seg Piecewise PiecewiseSpec PiecewiseFacts2 Integral IntegralFacts SegIntSpec CumintFacts CumintFacts2 Std StdSpec StdFacts StdFacts2 StdFacts3 StdFacts4 StdFacts5 StdFacts6 StdFacts7 StdFacts8 StdFacts9.
From Verif Require Import MomSpec Mom MomFacts3 MStdSpec MStdFacts MStdFacts2 MStdFacts3 MStdFacts4.
Import List ListNotations.
Open Scope R_scope.

Lemma beta_int p q : 0 < p -> 0 < q -> has_val (beta_kernel p q) 0 1 (Beta p q).
Proof. intros P0 Q0. destruct (beta_prim p q P0 Q0) as (G & P). rewrite (Beta_prim p q G P). apply ii_prim; auto. Qed.

Lemma exp_le_1 y : y <= 0 -> exp y <= 1.
Proof. intros H. rewrite <- exp_0. apply exp_mono. auto. Qed.

(** p B(p,q+1) = q B(p+1,q), and B(p,q+1) = B(p,q) - B(p+1,q) *)
Lemma Beta_parts p q : 0 < p -> 0 < q -> p * Beta p (q + 1) = q * Beta (p + 1) q.
Proof.
  intros P0 Q0.
  assert (E : has_val (fun t => p * beta_kernel p (q + 1) t + - q * beta_kernel (p + 1) q t) 0 1 0).
  { apply (ii_ftc _ (fun t => Rpower t p * Rpower (1 - t) q) 0 1 0 0); simpl; auto; [lra| | | | |ring].
    - intros x (X1 & X2). simpl in X1, X2. unfold beta_kernel, Rpower. auto_derive; [lra|].
      replace (q + 1 - 1) with q by ring. replace (p + 1 - 1) with p by ring.
      replace ((p - 1) * ln x) with (p * ln x + - ln x) by ring. replace ((q - 1) * ln (1 - x)) with (q * ln (1 - x) + - ln (1 - x)) by ring.
      replace (1 + - x) with (1 - x) by ring.
      rewrite !exp_plus, (exp_Ropp (ln x)), (exp_Ropp (ln (1 - x))), !exp_ln by lra. field. lra.
    - intros x (X1 & X2). simpl in X1, X2. apply der_cont. unfold beta_kernel, Rpower. auto_derive. lra.
    - apply (lim_squeeze (at_right 0) _ (fun t => Rpower t p)); [|apply lim_pow_0; auto].
      exists (mkposreal 1 Rlt_0_1). intros t B T. change (Rabs (t - 0) < 1) in B || change (Rabs (t - 1) < 1) in B. apply Rabs_lt_between in B.
      pose proof (exp_pos (p * ln t)) as U1. pose proof (exp_pos (q * ln (1 - t))) as U2.
      assert (exp (q * ln (1 - t)) <= 1).
      { apply exp_le_1. assert (ln (1 - t) < 0) by (rewrite <- ln_1; apply ln_increasing; lra). nra. }
      unfold Rpower. split; nra.
    - apply (lim_squeeze (at_left 1) _ (fun t => Rpower (1 - t) q)).
      + exists (mkposreal 1 Rlt_0_1). intros t B T. change (Rabs (t - 0) < 1) in B || change (Rabs (t - 1) < 1) in B. apply Rabs_lt_between in B.
        pose proof (exp_pos (p * ln t)) as U1. pose proof (exp_pos (q * ln (1 - t))) as U2.
        assert (exp (p * ln t) <= 1).
        { apply exp_le_1. assert (ln t < 0) by (rewrite <- ln_1; apply ln_increasing; lra). nra. }
        unfold Rpower. split; nra.
      + apply (filterlim_comp _ _ _ (fun t => 1 - t) (fun y => Rpower y q) _ (at_right 0)); [|apply lim_pow_0; auto].
        apply (lim_at_right_0 (at_left 1)).
        * exists (mkposreal 1 Rlt_0_1). intros t _ T. lra.
        * apply (lim_l_cont (fun t => 1 - t) 1 0); [auto_derive; auto|ring]. }
  assert (E' : has_val (fun t => p * beta_kernel p (q + 1) t + - q * beta_kernel (p + 1) q t) 0 1 (p * Beta p (q + 1) + - q * Beta (p + 1) q)).
  { apply (ii_plus (fun t => p * beta_kernel p (q + 1) t) (fun t => - q * beta_kernel (p + 1) q t)); apply (ii_scal _ (beta_kernel _ _)); apply beta_int; lra. }
  pose proof (ii_unique _ _ _ _ _ E E'). lra.
Qed.
Lemma Beta_split p q : 0 < p -> 0 < q -> Beta p (q + 1) + Beta (p + 1) q = Beta p q.
Proof.
  intros P0 Q0. apply (ii_unique (beta_kernel p q) 0 1); [|apply beta_int; auto].
  eapply ii_ext; [|apply (ii_plus _ _ _ _ _ _ (beta_int p (q + 1) P0 ltac:(lra)) (beta_int (p + 1) q ltac:(lra) Q0))].
  intros x (X1 & X2). simpl in X1, X2. unfold beta_kernel.
  replace (q + 1 - 1) with (q - 1 + 1) by ring. replace (p + 1 - 1) with (p - 1 + 1) by ring.
  rewrite !Rpower_plus, !Rpower_1 by lra. ring.
Qed.
Lemma Beta_succ p q : 0 < p -> 0 < q -> Beta (p + 1) q = p / (p + q) * Beta p q.
Proof.
  intros P0 Q0. pose proof (Beta_parts p q P0 Q0) as A. pose proof (Beta_split p q P0 Q0) as B.
  assert (C : (p + q) * Beta (p + 1) q = p * Beta p q) by (rewrite <- B; lra).
  apply (Rmult_eq_reg_l (p + q)); [|lra]. rewrite C. field. lra.
Qed.

(** beta *)
Lemma beta_carried lg p q (x : R) : is_lbeta lg p q -> RbarIn 0 1 x -> / Beta p q * beta_kernel p q x = beta_f lg p q x.
Proof.
  intros LB (X1 & X2). simpl in X1, X2. rewrite <- LB. unfold beta_f. destruct (rltP x 0); [lra|]. destruct (rltP 1 x); [lra|]. cbn [orb].
  unfold beta_kernel, Rpower. rewrite <- exp_Ropp, <- !exp_plus. f_equal. ring.
Qed.
Lemma beta_power lg p q (j : nat) : 0 < p -> 0 < q -> is_lbeta lg p q ->
  has_val (fun x => x ^ j * beta_f lg p q x) 0 1 (Beta (p + INR j) q / Beta p q).
Proof.
  intros P0 Q0 LB. pose proof (pos_INR j) as J.
  eapply ii_val; [eapply ii_ext; [|exact (ii_scal (/ Beta p q) _ _ _ _ (beta_int (p + INR j) q ltac:(lra) Q0))]|unfold Rdiv; ring].
  intros x X. rewrite <- (beta_carried lg p q x LB X). destruct X as (X1 & X2). simpl in X1, X2. unfold beta_kernel.
  replace (p + INR j - 1) with (p - 1 + INR j) by ring. rewrite Rpower_plus, Rpower_pow by auto. ring.
Qed.
Lemma beta_moments lg eps mpe p q : 0 < p -> 0 < q -> is_lbeta lg p q ->
  has_moments (beta_init lg eps mpe p q) (p / (p + q)) (p * q / ((p + q) ^ 2 * (p + q + 1))).
Proof.
  intros P0 Q0 LB. pose proof (Beta_pos p q P0 Q0) as BP.
  apply (moments_raw _ (beta_f lg p q) 0 1 _ _ (p * (p + 1) / ((p + q) * (p + q + 1)))).
  - unfold beta_init. cbv zeta.
    assert (CR : carries (beta_f lg p q) (PoleSeg (1 / 2) 1 (beta_f lg p q) false)).
    { repeat split; simpl; auto; try lra. intros _ c (C1 & C2). simpl in C1, C2.
      destruct (beta_prim p q P0 Q0) as (G0 & P).
      destruct (beta_facts lg p q G0 P0 Q0 LB P) as (_ & _ & F3 & _).
      apply (ex_RInt_continuous (V := R_CompleteNormedModule)). intros z Z. rewrite Rmin_left, Rmax_right in Z by lra. apply F3. split; simpl; lra. }
    destruct (rlt p 2 && rlt mpe (Rabs (p - 1)))%bool; destruct (rlt q 2 && rlt mpe (Rabs (q - 1)))%bool; cbn [andb];
      (apply pieces_add; [carr; auto; lra|simpl; auto]).
  - eapply ii_val; [eapply ii_ext; [|apply (beta_power lg p q 0); auto]|].
    + intros x X. simpl. ring.
    + simpl. rewrite Rplus_0_r. field. lra.
  - eapply ii_val; [eapply ii_ext; [|apply (beta_power lg p q 1); auto]|].
    + intros x X. simpl. ring.
    + simpl. rewrite Beta_succ by auto. field. lra.
  - eapply ii_val; [apply (beta_power lg p q 2); auto|].
    replace (p + INR 2) with (p + 1 + 1) by (simpl; ring). rewrite !Beta_succ by lra. field. splits; lra.
  - field. lra.
Qed.

(** F *)
Lemma fdist_carried lg d1 d2 (x : R) : 0 < d1 -> 0 < d2 -> RbarIn 0 p_infty x ->
  d1 * d2 / ((d1 * x + d2) * (d1 * x + d2)) * beta_f lg (d1 / 2) (d2 / 2) (d1 * x / (d1 * x + d2)) = fdist_f lg d1 d2 x.
Proof.
  intros D1 D2 (X & _). simpl in X. assert (DP : 0 < d1 * x) by (apply Rmult_lt_0_compat; auto).
  set (z := d1 * x / (d1 * x + d2)).
  assert (ZI : 0 < z < 1) by (unfold z; split; [apply Rdiv_lt_0_compat; lra|apply Rlt_div_l; lra]).
  unfold fdist_f, fdist_pdf. destruct (rltP x 0); [lra|]. destruct (reqP x 0); [lra|].
  unfold beta_f. destruct (rltP z 0); [lra|]. destruct (rltP 1 z); [lra|]. cbn [orb real].
  assert (N1 : ln z = ln (d1 * x) - ln (d1 * x + d2)).
  { unfold z, Rdiv. rewrite ln_mult, ln_Rinv by (try apply Rinv_0_lt_compat; lra). ring. }
  assert (N2 : ln (1 - z) = ln d2 - ln (d1 * x + d2)).
  { replace (1 - z) with (d2 * / (d1 * x + d2)) by (unfold z; field; lra). rewrite ln_mult, ln_Rinv by (try apply Rinv_0_lt_compat; lra). ring. }
  rewrite N1, N2.
  assert (N3 : d1 * d2 / ((d1 * x + d2) * (d1 * x + d2)) = exp (ln (d1 * x) - ln x + ln d2 - ln (d1 * x + d2) - ln (d1 * x + d2))).
  { unfold Rminus. rewrite !exp_plus, !exp_Ropp, !exp_ln by lra. field. lra. }
  rewrite N3, <- exp_plus. f_equal. replace 0.5 with (/ 2) by lra.
  replace (d1 / 2 + d2 / 2) with ((d1 + d2) / 2) by field. field.
Qed.
(** monotone maps into open intervals *)
Lemma lim_into_right {T} (F : (T -> Prop) -> Prop) {FF : Filter F} (g : T -> R) (l : R) :
  F (fun x => l < g x) -> filterlim g F (locally l) -> filterlim g F (at_right l).
Proof.
  intros P L A HA. unfold at_right, within in HA. specialize (L _ HA). unfold filtermap in *.
  generalize (filter_and _ _ P L). apply filter_imp. intros x (H1 & H2). auto.
Qed.
Lemma lim_into_left {T} (F : (T -> Prop) -> Prop) {FF : Filter F} (g : T -> R) (l : R) :
  F (fun x => g x < l) -> filterlim g F (locally l) -> filterlim g F (at_left l).
Proof.
  intros P L A HA. unfold at_left, within in HA. specialize (L _ HA). unfold filtermap in *.
  generalize (filter_and _ _ P L). apply filter_imp. intros x (H1 & H2). auto.
Qed.
Lemma fdist_power lg d1 d2 (j : nat) : 0 < d1 -> 2 * INR j < d2 -> is_lbeta lg (d1 / 2) (d2 / 2) ->
  has_val (fun x => x ^ j * fdist_f lg d1 d2 x) 0 p_infty ((d2 / d1) ^ j * Beta (d1 / 2 + INR j) (d2 / 2 - INR j) / Beta (d1 / 2) (d2 / 2)).
Proof.
  intros D1 D2J LB. pose proof (pos_INR j) as J. assert (D2 : 0 < d2) by lra.
  pose proof (Beta_pos (d1 / 2) (d2 / 2) ltac:(lra) ltac:(lra)) as BP.
  set (z := fun x => d1 * x / (d1 * x + d2)).
  assert (DP : forall x, 0 < x -> 0 < d1 * x) by (intros; apply Rmult_lt_0_compat; auto).
  assert (ZI : forall x, 0 < x -> 0 < z x < 1).
  { intros x X. specialize (DP x X). unfold z. split; [apply Rdiv_lt_0_compat; lra|apply Rlt_div_l; lra]. }
  pose proof (beta_int (d1 / 2 + INR j) (d2 / 2 - INR j) ltac:(lra) ltac:(lra)) as I0.
  apply (ii_up _ _ _ z (fun x => d1 * d2 / ((d1 * x + d2) * (d1 * x + d2))) 0 p_infty) in I0.
  - eapply ii_val; [eapply ii_ext; [|exact (ii_scal ((d2 / d1) ^ j / Beta (d1 / 2) (d2 / 2)) _ _ _ _ I0)]|field; lra].
    intros x X. rewrite <- (fdist_carried lg d1 d2 x D1 D2 X). destruct X as (X & _). simpl in X. destruct (ZI x X) as (Z1 & Z2).
    change (d1 * x / (d1 * x + d2)) with (z x). rewrite <- (beta_carried lg (d1 / 2) (d2 / 2) (z x) LB) by (split; auto).
    unfold beta_kernel.
    replace (d1 / 2 + INR j - 1) with (d1 / 2 - 1 + INR j) by ring. replace (d2 / 2 - INR j - 1) with (d2 / 2 - 1 + - INR j) by ring.
    rewrite !Rpower_plus, Rpower_Ropp, !Rpower_pow by lra.
    specialize (DP x X).
    assert (XJ : x ^ j = (d2 / d1) ^ j * (z x) ^ j / (1 - z x) ^ j).
    { transitivity ((d2 / d1 * (z x * / (1 - z x))) ^ j).
      - f_equal. unfold z. field. splits; lra.
      - rewrite !Rpow_mult_distr, pow_inv. unfold Rdiv. ring. }
    rewrite XJ. assert (0 < (1 - z x) ^ j) by (apply pow_lt; lra). field. splits; lra.
  - simpl. auto.
  - intros x (X & _). simpl in X. destruct (ZI x X) as (Z1 & Z2). specialize (DP x X). splits.
    + split; simpl; auto.
    + unfold z. auto_derive; [lra|]. field. lra.
    + apply der_cont. auto_derive. apply Rgt_not_eq, Rmult_lt_0_compat; lra.
    + apply beta_kernel_cont; auto.
  - simpl. apply (lim_into_right (at_right 0)).
    + exists (mkposreal 1 Rlt_0_1). intros t _ T. apply ZI; auto.
    + apply (lim_r_cont z 0 0); [unfold z; auto_derive; lra|unfold z; field; lra].
  - simpl. apply (lim_into_left (Rbar_locally p_infty)).
    + exists 0. intros t T. apply ZI; auto.
    + apply (filterlim_ext_loc (fun x => / (1 + d2 / d1 * / x))).
      * exists 0. intros x X. specialize (DP x X). unfold z. field. repeat split; lra.
      * apply (lim_der (Rbar_locally p_infty) (fun y => / (1 + d2 / d1 * y)) (fun x => / x) 0); [auto_derive; lra|rewrite Rmult_0_r, Rplus_0_r; apply Rinv_1|].
        apply (filterlim_Rbar_inv p_infty). discriminate.
Qed.
Lemma fdist_pieces lg eps d1 d2 : 0 < d1 -> 0 < d2 -> pieces (fdist_init lg eps d1 d2) (fdist_f lg d1 d2) 0 p_infty.
Proof.
  intros D1 D2. unfold fdist_init. cbv zeta. destruct (rltP d1 2) as [K1|K1]; [|destruct (reqP d1 2) as [K2|K2]].
  - apply pieces_add; [carr; lra|simpl; auto].
  - apply pieces_add; [carr; lra|simpl; auto].
  - assert (M : 0 < (d1 - 2) / d1 * d2 / (d2 + 2)) by (apply Rdiv_lt_0_compat; [apply Rmult_lt_0_compat; [apply Rdiv_lt_0_compat|]|]; lra).
    apply pieces_add; [carr; lra|simpl; auto].
Qed.
Lemma Beta_shift p q : 0 < p -> 1 < q -> Beta (p + 1) (q - 1) = p / (q - 1) * Beta p q.
Proof.
  intros P0 Q0. pose proof (Beta_parts p (q - 1) P0 ltac:(lra)) as A. replace (q - 1 + 1) with q in A by ring.
  apply (Rmult_eq_reg_l (q - 1)); [|lra]. rewrite <- A. field. lra.
Qed.
Lemma fdist_mean lg eps d1 d2 : 0 < d1 -> 2 < d2 -> is_lbeta lg (d1 / 2) (d2 / 2) -> has_mean (fdist_init lg eps d1 d2) (d2 / (d2 - 2)).
Proof.
  intros D1 D2 LB. pose proof (Beta_pos (d1 / 2) (d2 / 2) ltac:(lra) ltac:(lra)) as BP.
  apply (mean_of _ (fdist_f lg d1 d2) 0 p_infty); [apply fdist_pieces; lra|].
  eapply ii_val; [eapply ii_ext; [|apply (fdist_power lg d1 d2 1); auto; simpl; lra]|].
  - intros x X. simpl. ring.
  - simpl. rewrite Beta_shift by lra. field. splits; lra.
Qed.
Lemma fdist_moments lg eps d1 d2 : 0 < d1 -> 4 < d2 -> is_lbeta lg (d1 / 2) (d2 / 2) ->
  has_moments (fdist_init lg eps d1 d2) (d2 / (d2 - 2)) (2 * d2 ^ 2 * (d1 + d2 - 2) / (d1 * (d2 - 2) ^ 2 * (d2 - 4))).
Proof.
  intros D1 D2 LB. pose proof (Beta_pos (d1 / 2) (d2 / 2) ltac:(lra) ltac:(lra)) as BP.
  apply (moments_raw _ (fdist_f lg d1 d2) 0 p_infty _ _ (d2 ^ 2 * (d1 + 2) / (d1 * (d2 - 2) * (d2 - 4)))); [apply fdist_pieces; lra| | | |].
  - eapply ii_val; [eapply ii_ext; [|apply (fdist_power lg d1 d2 0); auto; simpl; lra]|].
    + intros x X. simpl. ring.
    + simpl. rewrite Rplus_0_r, Rminus_0_r. field. lra.
  - eapply ii_val; [eapply ii_ext; [|apply (fdist_power lg d1 d2 1); auto; simpl; lra]|].
    + intros x X. simpl. ring.
    + simpl. rewrite Beta_shift by lra. field. splits; lra.
  - eapply ii_val; [apply (fdist_power lg d1 d2 2); auto; simpl; lra|].
    replace (d1 / 2 + INR 2) with (d1 / 2 + 1 + 1) by (simpl; ring). replace (d2 / 2 - INR 2) with (d2 / 2 - 1 - 1) by (simpl; ring).
    rewrite !Beta_shift by lra. field. splits; lra.
  - field. splits; lra.
Qed.

(** log-logistic *)
Lemma loglog_power k s (j : nat) : INR j < k -> 0 < s ->
  has_val (fun x => x ^ j * loglog_pdf k s x) 0 p_infty (s ^ j * Beta (1 + INR j / k) (1 - INR j / k)).
Proof.
  intros JK S0. pose proof (pos_INR j) as J. assert (K : 0 < k) by lra.
  assert (J0 : 0 <= INR j / k) by (apply Rmult_le_pos; auto; apply Rlt_le, Rinv_0_lt_compat; auto).
  assert (J1 : INR j / k < 1) by (apply Rmult_lt_reg_r with k; auto; unfold Rdiv; rewrite Rmult_assoc, Rinv_l; lra).
  destruct (loglog_facts k s K S0) as (F1 & F2 & F3 & F4 & F5).
  set (z := fun x => Rpower x k / (Rpower s k + Rpower x k)) in *.
  assert (ZI : forall x, 0 < z x < 1).
  { intros x. unfold z. pose proof (exp_pos (k * ln x)) as P1. pose proof (exp_pos (k * ln s)) as P2. unfold Rpower.
    split; [apply Rdiv_lt_0_compat; lra|apply Rlt_div_l; lra]. }
  pose proof (beta_int (1 + INR j / k) (1 - INR j / k) ltac:(lra) ltac:(lra)) as I0.
  apply (ii_up _ _ _ z (loglog_pdf k s) 0 p_infty) in I0.
  - eapply ii_ext; [|exact (ii_scal (s ^ j) _ _ _ _ I0)].
    intros x (X & _). simpl in X. destruct (ZI x) as (Z1 & Z2). unfold beta_kernel.
    replace (1 + INR j / k - 1) with (INR j / k) by ring. replace (1 - INR j / k - 1) with (- (INR j / k)) by ring.
    assert (XJ : x ^ j = s ^ j * (Rpower (z x) (INR j / k) * Rpower (1 - z x) (- (INR j / k)))).
    { pose proof (exp_pos (k * ln x)) as P1. pose proof (exp_pos (k * ln s)) as P2.
      unfold Rpower at 1 2.
      assert (L1 : ln (z x) = k * ln x - ln (Rpower s k + Rpower x k)).
      { unfold z, Rpower, Rdiv. rewrite ln_mult, ln_Rinv, ln_exp by (try apply Rinv_0_lt_compat; lra). ring. }
      assert (L2 : ln (1 - z x) = k * ln s - ln (Rpower s k + Rpower x k)).
      { replace (1 - z x) with (Rpower s k * / (Rpower s k + Rpower x k)) by (unfold z, Rpower; field; lra).
        unfold Rpower. rewrite ln_mult, ln_Rinv, ln_exp by (try apply Rinv_0_lt_compat; lra). ring. }
      rewrite L1, L2, <- !Rpower_pow by auto. unfold Rpower at 1 2. rewrite <- !exp_plus. f_equal. field. lra. }
    rewrite XJ. ring.
  - simpl. auto.
  - intros x X. destruct (ZI x) as (Z1 & Z2). splits; auto.
    + split; simpl; auto.
    + apply beta_kernel_cont; auto.
  - simpl. apply (lim_into_right (at_right 0)); [|exact F4]. apply filter_forall. intros x. apply ZI.
  - simpl. apply (lim_into_left (Rbar_locally p_infty)); [|exact F5]. apply filter_forall. intros x. apply ZI.
Qed.
Lemma loglog_pieces eps k s : 0 < k -> 0 < s -> pieces (loglog_init eps k s) (loglog_pdf k s) 0 p_infty.
Proof.
  intros K S0. unfold loglog_init. destruct (rleP k 0); [lra|]. destruct (rleP s 0); [lra|]. cbv zeta.
  pose proof (loglog_breaks_sorted k s K S0) as SS.
  assert (E0 : nth 0 (loglog_breaks k s) m_infty = 0) by reflexivity.
  assert (E1 : nth (length (loglog_breaks k s) - 1) (loglog_breaks k s) m_infty = p_infty).
  { unfold loglog_breaks. cbv zeta. destruct (rlt 1 k); [destruct (rlt 2 k)|]; reflexivity. }
  assert (L3 : (3 <= length (loglog_breaks k s))%nat).
  { unfold loglog_breaks. cbv zeta. destruct (rlt 1 k); [destruct (rlt 2 k)|]; simpl; lia. }
  rewrite <- E0 at 1. rewrite <- E1. apply pieces_make; auto.
  unfold loglog_breaks. cbn [tl length]. rewrite map_length. auto.
Qed.
Lemma Beta_1_1 : Beta 1 1 = 1.
Proof.
  apply (ii_unique (beta_kernel 1 1) 0 1); [apply beta_int; lra|].
  apply (ii_ext (fun _ => 1)).
  - intros x (X1 & X2). simpl in X1, X2. unfold beta_kernel. rewrite Rminus_eq_0, !Rpower_O by lra. ring.
  - split; [apply integrable_const; lra|]. rewrite Q_const. ring.
Qed.
Lemma loglog_mean eps k s : 1 < k -> 0 < s -> has_mean (loglog_init eps k s) (s * Beta (1 + 1 / k) (1 - 1 / k)).
Proof.
  intros K S0. apply (mean_of _ (loglog_pdf k s) 0 p_infty); [apply loglog_pieces; lra|].
  eapply ii_val; [eapply ii_ext; [|apply (loglog_power k s 1); auto; simpl; lra]|].
  - intros x X. simpl. ring.
  - simpl. ring.
Qed.
Lemma loglog_moments eps k s : 2 < k -> 0 < s ->
  has_moments (loglog_init eps k s) (s * Beta (1 + 1 / k) (1 - 1 / k)) (s ^ 2 * (Beta (1 + 2 / k) (1 - 2 / k) - Beta (1 + 1 / k) (1 - 1 / k) ^ 2)).
Proof.
  intros K S0. apply (moments_raw _ (loglog_pdf k s) 0 p_infty _ _ (s ^ 2 * Beta (1 + 2 / k) (1 - 2 / k))); [apply loglog_pieces; lra| | | |ring].
  - eapply ii_val; [eapply ii_ext; [|apply (loglog_power k s 0); auto; simpl; lra]|].
    + intros x X. simpl. ring.
    + simpl. replace (1 + 0 / k) with 1 by (field; lra). replace (1 - 0 / k) with 1 by (field; lra). rewrite Beta_1_1. ring.
  - eapply ii_val; [eapply ii_ext; [|apply (loglog_power k s 1); auto; simpl; lra]|].
    + intros x X. simpl. ring.
    + simpl. ring.
  - apply (loglog_power k s 2); auto.
Qed.
