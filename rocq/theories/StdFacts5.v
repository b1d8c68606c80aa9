(** Textbook distribution functions of the named distributions, part 3. *)
From Coq Require Import Reals Lra List Bool Sorted Arith Lia.
From Coquelicot Require Import Coquelicot.
From Verif Require Import Base Seg Piecewise PiecewiseSpec PiecewiseFacts2 Integral IntegralFacts SegIntSpec CumintFacts CumintFacts2 Std StdSpec StdFacts StdFacts2 StdFacts3 StdFacts4.
Import List ListNotations.
Open Scope R_scope.

Lemma prim_piece f H a b G : Rbar_lt a b ->
  (forall x : R, RbarIn a b x -> is_derive H x (f x)) ->
  (forall x : R, RbarIn a b x -> continuous f x) ->
  filterlim H (at_r a) (locally (G a)) -> filterlim H (at_l b) (locally (G b)) ->
  (forall x : R, RbarIn a b x -> G x = H x) -> prim f a b G.
Proof.
  intros L D C La Lb E. apply (prim_ext f a b (ext_prim H a b (G a) (G b))); [apply prim_ftc; auto|].
  intros x X1 X2. unfold ext_prim.
  destruct (Rbar_le_dec x a) as [A|A]; [f_equal; apply Rbar_le_antisym; auto|].
  destruct (Rbar_le_dec b x) as [B|B]; [f_equal; apply Rbar_le_antisym; auto|].
  apply Rbar_not_le_lt in A. apply Rbar_not_le_lt in B.
  destruct x as [x| |]; [|destruct b; contradiction|destruct a; contradiction].
  symmetry. apply E. split; auto.
Qed.

(** the pieces of a list that adds up, each with its own antiderivative *)
Lemma law_mass_add eps l a b w G F : l <> [] -> path a l b ->
  Forall (fun s => isDirac s = false /\ wf_seg s /\ prim (sf s) (sa s) (sb s) G /\
                   (forall x : R, RbarIn (sa s) (sb s) x -> 0 <= sf s x) /\
                   (hasRightPole s = true -> forall c : R, RbarIn (sa s) (sb s) c -> ex_RInt (sf s) (real (sa s)) c)) l ->
  G a = 0 -> G b = w ->
  (forall x : R, F x = G (clamp a b x)) -> law_mass (addAll eps empty_pwf l) a b w F.
Proof.
  intros N P C G0 G1 HF. destruct (init_ok eps l a b) as (q & E1 & E2); auto.
  - eapply Forall_impl; [|exact C]; intros s H; apply H.
  - eapply Forall_impl; [|exact C]; intros s H; apply H.
  - eapply law_mass_prims; eauto.
Qed.

(** a function of the extended line from one of the line *)
Definition on_ends (la : R) (H : R -> R) (lb : R) (x : Rbar) : R :=
  match x with Finite x => H x | m_infty => la | p_infty => lb end.

Lemma clamp_line (x : R) : clamp m_infty p_infty x = Finite x.
Proof. unfold clamp. destruct (Rbar_le_dec x m_infty); [contradiction|]. destruct (Rbar_le_dec p_infty x); [contradiction|auto]. Qed.

Ltac one_piece := splits; [reflexivity|simpl; auto|simpl sa; simpl sb; simpl sf|simpl sa; simpl sb; simpl sf|simpl; discriminate].

(** Laplace *)
Lemma laplace_law eps lmbda mu : 0 < lmbda -> law (laplace_init eps lmbda mu) m_infty p_infty (laplace_cdf lmbda mu).
Proof.
  intros L. unfold laplace_init. rewrite (proj2 (rlt_true _ _) L). cbv zeta.
  assert (NN : forall x, 0 <= laplace_pdf lmbda mu x).
  { intros x. unfold laplace_pdf. apply Rlt_le, Rmult_lt_0_compat; [apply Rdiv_lt_0_compat; lra|apply exp_pos]. }
  assert (PL : forall a b : Rbar, Rbar_lt a b -> Rbar_lt a mu -> Rbar_le b mu ->
     prim (laplace_pdf lmbda mu) a b (on_ends 0 (laplace_cdf lmbda mu) 1)).
  { intros a b Lab A B.
    assert (IN : forall x : R, RbarIn a b x -> x < mu).
    { intros x (_ & X). apply (Rbar_lt_le_trans x b mu); auto. }
    assert (E : forall x : R, RbarIn a b x -> 0.5 / lmbda * exp ((x - mu) / lmbda) = laplace_pdf lmbda mu x).
    { intros x X. apply IN in X. unfold laplace_pdf. rewrite Rabs_left by lra. f_equal. f_equal. field. lra. }
    assert (FV : forall x : R, x <= mu -> laplace_cdf lmbda mu x = / 2 * exp ((x - mu) / lmbda)).
    { intros x X. unfold laplace_cdf. destruct (Rle_dec x mu); [auto|lra]. }
    apply (prim_piece _ (fun x => / 2 * exp ((x - mu) / lmbda))); auto.
    - intros x X. rewrite <- E by auto. auto_derive; auto. replace 0.5 with (/ 2) by lra. unfold Rdiv, Rminus. field. lra.
    - intros x X. apply (loc_cont _ _ a b x X E). apply der_cont. auto_derive. auto.
    - destruct a as [a| |]; [|contradiction|].
      + cbn [on_ends]. rewrite FV by (simpl in A; lra). apply lim_r_cont; auto. auto_derive. auto.
      + simpl. apply (lim_der _ (fun y => / 2 * y) _ 0); [auto_derive; auto|ring|]. apply (lim_exp_m (Rbar_locally m_infty)).
        apply (lim_aff_mm _ (fun x => x) _ (- mu / lmbda) (/ lmbda)); [intros; field; lra|apply Rinv_0_lt_compat; auto|apply lim_id_m].
    - destruct b as [b| |]; [|contradiction|destruct a; contradiction].
      cbn [on_ends]. rewrite FV by (simpl in B; lra). apply lim_l_cont; auto. auto_derive. auto.
    - intros x X. simpl. apply FV. apply IN in X. lra. }
  assert (PR : forall a b : Rbar, Rbar_lt a b -> Rbar_lt mu b -> Rbar_le mu a ->
     prim (laplace_pdf lmbda mu) a b (on_ends 0 (laplace_cdf lmbda mu) 1)).
  { intros a b Lab A B.
    assert (IN : forall x : R, RbarIn a b x -> mu < x).
    { intros x (X & _). apply (Rbar_le_lt_trans mu a x); auto. }
    assert (E : forall x : R, RbarIn a b x -> 0.5 / lmbda * exp (- (x - mu) / lmbda) = laplace_pdf lmbda mu x).
    { intros x X. apply IN in X. unfold laplace_pdf. rewrite Rabs_right by lra. auto. }
    assert (FV : forall x : R, mu <= x -> laplace_cdf lmbda mu x = 1 - / 2 * exp (- (x - mu) / lmbda)).
    { intros x X. unfold laplace_cdf. destruct (Rle_dec x mu) as [X'|]; auto. replace x with mu by lra.
      unfold Rminus, Rdiv. rewrite Rplus_opp_r, Ropp_0, Rmult_0_l, exp_0. field. }
    apply (prim_piece _ (fun x => 1 - / 2 * exp (- (x - mu) / lmbda))); auto.
    - intros x X. rewrite <- E by auto. auto_derive; auto. replace 0.5 with (/ 2) by lra. unfold Rdiv, Rminus. field. lra.
    - intros x X. apply (loc_cont _ _ a b x X E). apply der_cont. auto_derive. auto.
    - destruct a as [a| |]; [|destruct b; contradiction|contradiction].
      cbn [on_ends]. rewrite FV by (simpl in B; lra). apply lim_r_cont; auto. auto_derive. auto.
    - destruct b as [b| |]; [| |contradiction].
      + cbn [on_ends]. rewrite FV by (simpl in A; lra). apply lim_l_cont; auto. auto_derive. auto.
      + simpl. apply (lim_der _ (fun y => 1 - / 2 * y) _ 0); [auto_derive; auto|ring|]. apply (lim_exp_m (Rbar_locally p_infty)).
        apply (lim_aff_pm _ (fun x => x) _ (mu / lmbda) (- / lmbda)); [intros; field; lra| |apply lim_id_p].
        apply Ropp_lt_gt_0_contravar, Rinv_0_lt_compat; auto.
    - intros x X. simpl. apply FV. apply IN in X. lra. }
  apply (law_mass_add eps _ m_infty p_infty 1 (on_ends 0 (laplace_cdf lmbda mu) 1)); auto.
  - discriminate.
  - simpl. auto.
  - apply Forall_cons; [|apply Forall_cons; [|apply Forall_cons; [|apply Forall_cons; [|apply Forall_nil]]]]; one_piece; auto; try lra;
      first [apply PL; simpl; auto; lra|apply PR; simpl; auto; lra].
  - intros x. rewrite clamp_line. reflexivity.
Qed.

(** Frechet *)
Lemma frechet_facts (alpha s m : R) : 0 < alpha -> 0 < s ->
  (forall x : R, RbarIn m p_infty x -> 0 <= frechet_pdf alpha s m x) /\
  (forall x : R, RbarIn m p_infty x -> is_derive (fun x => exp (- Rpower ((x - m) / s) (- alpha))) x (frechet_pdf alpha s m x)) /\
  (forall x : R, RbarIn m p_infty x -> continuous (frechet_pdf alpha s m) x) /\
  filterlim (fun x => exp (- Rpower ((x - m) / s) (- alpha))) (at_r m) (locally 0) /\
  filterlim (fun x => exp (- Rpower ((x - m) / s) (- alpha))) (at_l p_infty) (locally 1).
Proof.
  intros A S.
  assert (T : forall x : R, RbarIn m p_infty x -> 0 < (x - m) / s).
  { intros x (X & _). simpl in X. apply Rdiv_lt_0_compat; lra. }
  assert (E : forall x : R, RbarIn m p_infty x ->
    alpha / s * exp (- (alpha + 1) * ln ((x - m) / s) - exp (- alpha * ln ((x - m) / s))) = frechet_pdf alpha s m x).
  { intros x X. apply T in X. unfold frechet_pdf. destruct (rleP ((x - m) / s) 0); [lra|]. auto. }
  splits.
  - intros x X. rewrite <- E by auto. apply Rlt_le, Rmult_lt_0_compat; [apply Rdiv_lt_0_compat; auto|apply exp_pos].
  - intros x X. rewrite <- E by auto. pose proof (T x X) as Y. unfold Rpower. destruct X as (X & _). simpl in X.
    auto_derive; [exact Y|].
    replace (- (alpha + 1) * ln ((x - m) / s) - exp (- alpha * ln ((x - m) / s)))
      with ((- alpha * ln ((x - m) / s) + - ln ((x - m) / s)) + - exp (- alpha * ln ((x - m) / s))) by ring.
    rewrite !exp_plus, (exp_Ropp (ln ((x - m) / s))), exp_ln by auto. unfold Rdiv, Rminus. field. split; lra.
  - intros x X. apply (loc_cont _ _ m p_infty x X E). pose proof (T x X) as Y.
    apply der_cont. auto_derive. splits; auto.
  - simpl. apply (lim_exp_m (at_right m)).
    apply (lim_aff_pm _ (fun x => Rpower ((x - m) / s) (- alpha)) _ 0 (-1)); [intros; ring|lra|].
    unfold Rpower. apply (lim_exp_p (at_right m)).
    apply (lim_aff_mp _ (fun x => ln ((x - m) / s)) _ 0 (- alpha)); [intros; ring|lra|apply lim_ln_shift; auto].
  - simpl. apply (lim_exp_0 (Rbar_locally p_infty)).
    unfold Rpower. apply (lim_exp_m (Rbar_locally p_infty)).
    apply (lim_aff_pm _ (fun x => ln ((x - m) / s)) _ 0 (- alpha)); [intros; ring|lra|apply lim_ln_shift_p; auto].
Qed.

Lemma frechet_infl_order alpha : 0 < alpha -> 0 < frechet_infl alpha (-1) < frechet_infl alpha 1.
Proof.
  intros A. unfold frechet_infl.
  assert (Q : 0 < 1 + 6 * alpha + 5 * alpha ^ 2) by nra.
  set (q := sqrt (1 + 6 * alpha + 5 * alpha ^ 2)).
  assert (Q1 : 0 < q) by (apply sqrt_lt_R0; auto).
  assert (Q2 : q * q = 1 + 6 * alpha + 5 * alpha ^ 2) by (apply sqrt_sqrt; lra).
  assert (Q3 : q < 3 * (alpha + 1)) by nra.
  set (k := alpha / (alpha + 1) / (alpha + 2) / 2).
  assert (K : 0 < k) by (unfold k; repeat apply Rdiv_lt_0_compat; lra).
  replace (alpha * (3 * (alpha + 1) + -1 * q) / (alpha + 1) / (alpha + 2) / 2) with (k * (3 * (alpha + 1) - q)) by (unfold k; field; lra).
  replace (alpha * (3 * (alpha + 1) + 1 * q) / (alpha + 1) / (alpha + 2) / 2) with (k * (3 * (alpha + 1) + q)) by (unfold k; field; lra).
  split; [apply Rmult_lt_0_compat; lra|apply Rmult_lt_compat_l; lra].
Qed.

Lemma Rpower_lt_base x y k : 0 < k -> 0 < x -> x < y -> Rpower x k < Rpower y k.
Proof. intros K X XY. unfold Rpower. apply exp_increasing, Rmult_lt_compat_l; auto. apply ln_increasing; auto. Qed.

Lemma frechet_law eps (alpha s m : R) : 0 < alpha -> 0 < s -> law (frechet_init eps alpha s m) m p_infty (frechet_cdf alpha s m).
Proof.
  intros A S. unfold frechet_init. rewrite (proj2 (rlt_true _ _) A), (proj2 (rlt_true _ _) S). cbv zeta. cbn [andb].
  destruct (frechet_facts alpha s m A S) as (F1 & F2 & F3 & F4 & F5).
  destruct (frechet_infl_order alpha A) as (I1 & I2).
  assert (J0 : 0 < 1 / alpha) by (apply Rdiv_lt_0_compat; lra).
  pose proof (Rpower_lt_base _ _ _ J0 I1 I2) as J. pose proof (Rpower_pos (frechet_infl alpha (-1)) (1 / alpha)) as J1.
  assert (K1 : 0 < Rpower (frechet_infl alpha (-1)) (1 / alpha) * s) by (apply Rmult_lt_0_compat; auto).
  assert (K2 : Rpower (frechet_infl alpha (-1)) (1 / alpha) * s < Rpower (frechet_infl alpha 1) (1 / alpha) * s) by (apply Rmult_lt_compat_r; auto).
  apply (law_add eps _ (frechet_pdf alpha s m) (fun x => exp (- Rpower ((x - m) / s) (- alpha)))); auto.
  - discriminate.
  - carr; lra.
  - simpl; auto.
  - simpl; auto.
Qed.
