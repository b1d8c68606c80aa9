(** Moments of the named distributions: semicircle; distributions without a mean. *)
From Coq Require Import Reals Lra Lia List Bool Sorted.
From Coquelicot Require Import Coquelicot.
From Verif Require Import Base Seg Piecewise PiecewiseSpec PiecewiseFacts2 Integral IntegralFacts SegIntSpec CumintFacts CumintFacts2 Std StdSpec StdFacts StdFacts2 StdFacts3 StdFacts4 StdFacts5 StdFacts6 StdFacts7 StdFacts8 StdFacts9.
From Verif Require Import MomSpec Mom MomFacts3 MStdSpec MStdFacts MStdFacts2 MStdFacts3 MStdFacts4 MStdFacts5.
Import List ListNotations.
Open Scope R_scope.

(** semicircle *)
Lemma semi_cont_edge (p : R -> R) (r x : R) : x * x = r * r -> continuous p x -> continuous (fun x => p x * sqrt (r * r - x * x)) x.
Proof.
  intros X P. apply (continuous_mult p (fun x => sqrt (r * r - x * x))); auto.
  apply continuity_pt_filterlim. apply (continuity_pt_comp (fun x => r * r - x * x) sqrt).
  - apply continuity_pt_filterlim. apply (der_cont (fun x => r * r - x * x)). auto_derive. auto.
  - apply continuity_pt_sqrt. lra.
Qed.
Section Semi.
Variable r : R.
Hypothesis R0 : 0 < r.
Lemma semi_in (x : R) : RbarIn (- r) r x -> - r < x < r /\ 0 < r * r - x * x.
Proof. intros (X1 & X2). simpl in X1, X2. split; [lra|nra]. Qed.
Lemma semi_E (x : R) : RbarIn (- r) r x -> 2 / (PI * r * r) * sqrt (r * r - x * x) = semi_pdf r x.
Proof.
  intros X. destruct (semi_in x X) as (Y & _). unfold semi_pdf, in_semi. destruct (rleP (- r) x); [|lra]. destruct (rleP x r); [|lra]. reflexivity.
Qed.
Lemma semi_first : has_val (fun x => x * semi_pdf r x) (- r) r 0.
Proof.
  pose proof PI_RGT_0 as HP.
  set (H := fun x => - (2 / (3 * PI * r * r)) * (r * r - x * x) * sqrt (r * r - x * x)).
  assert (V : forall x, x * x = r * r -> H x = 0) by (intros x X; unfold H; rewrite X; ring).
  assert (C : forall x, x * x = r * r -> continuous H x).
  { intros x X. unfold H. apply (semi_cont_edge (fun x => - (2 / (3 * PI * r * r)) * (r * r - x * x))); auto. apply der_cont. auto_derive. auto. }
  apply (ii_ftc _ H (- r) r 0 0).
  - simpl. lra.
  - intros x X. rewrite <- semi_E by auto. destruct (semi_in x X) as (Y & Z). unfold H. pose proof (sqrt_lt_R0 _ Z) as W.
    assert (SQ : sqrt (r * r - x * x) * sqrt (r * r - x * x) = r * r - x * x) by (apply sqrt_sqrt; lra).
    auto_derive; [exact Z|]. replace (r * r + - (x * x)) with (r * r - x * x) by ring. 
    remember (sqrt (r * r - x * x)) as q eqn:EQ. clear EQ. rewrite <- SQ. field. splits; lra.
  - intros x X. apply (loc_cont _ (fun x => x * (2 / (PI * r * r) * sqrt (r * r - x * x))) (- r) r x X).
    + intros y Y. rewrite semi_E; auto.
    + destruct (semi_in x X) as (Y & Z). apply der_cont. auto_derive. exact Z.
  - apply (cont_r H (- r) 0); [apply C; ring|apply V; ring].
  - apply (cont_l H r 0); [apply C; ring|apply V; ring].
  - ring.
Qed.
Lemma semi_second : has_val (fun x => x ^ 2 * semi_pdf r x) (- r) r (r ^ 2 / 4).
Proof.
  pose proof PI_RGT_0 as HP.
  set (A := fun x => 2 / (PI * r * r) * (x * (2 * (x * x) - r * r) / 8) * sqrt (r * r - x * x)).
  set (H := fun x => A x + r * r / (4 * PI) * asin (x / r)).
  assert (EH : forall x : R, RbarIn (- r) r x -> A x + r * r / (4 * PI) * atan (x / sqrt (r * r - x * x)) = H x).
  { intros x X. destruct (semi_in x X) as (Y & Z). unfold H. f_equal. f_equal. rewrite asin_atan.
    - f_equal.
      replace (1 - (x / r)²) with ((r * r - x * x) / (r * r)) by (unfold Rsqr; field; lra).
      rewrite sqrt_div by nra. rewrite (sqrt_square r) by lra. field. pose proof (sqrt_lt_R0 _ Z). splits; lra.
    - split; [apply Rlt_div_r|apply Rlt_div_l]; lra. }
  assert (V : forall x, x * x = r * r -> A x = 0).
  { intros x X. unfold A. rewrite X. replace (r * r - r * r) with 0 by ring. rewrite sqrt_0. ring. }
  assert (C : forall x, x * x = r * r -> continuous A x).
  { intros x X. unfold A. apply (semi_cont_edge (fun x => 2 / (PI * r * r) * (x * (2 * (x * x) - r * r) / 8))); auto. apply der_cont. auto_derive. auto. }
  apply (ii_ftc _ H (- r) r (- (r * r / 8)) (r * r / 8)).
  - simpl. lra.
  - intros x X. apply (loc_ext _ _ _ _ x _ X EH). rewrite <- semi_E by auto. destruct (semi_in x X) as (Y & Z).
    pose proof (sqrt_lt_R0 _ Z) as W. assert (SQ : sqrt (r * r - x * x) * sqrt (r * r - x * x) = r * r - x * x) by (apply sqrt_sqrt; lra).
    unfold A. auto_derive; [unfold Rminus in Z, W; splits; auto; apply Rgt_not_eq; exact W|].
    replace (r * r + - (x * x)) with (r * r - x * x) by ring.
    set (q := sqrt (r * r - x * x)) in *.
    assert (RR : r * r = q * q + x * x) by lra.
    unfold Rsqr.
    assert (D2 : q * q + x * x <> 0) by (rewrite <- RR; apply Rgt_not_eq, Rmult_lt_0_compat; auto).
    field_simplify_eq; [|splits; auto; try lra].
    assert (R2 : r ^ 2 = q * q + x * x) by (rewrite <- RR; ring). assert (R4 : r ^ 4 = (q * q + x * x) ^ 2) by (rewrite <- R2; ring).
    rewrite ?R4, ?R2. ring.
  - intros x X. apply (loc_cont _ (fun x => x ^ 2 * (2 / (PI * r * r) * sqrt (r * r - x * x))) (- r) r x X).
    + intros y Y. rewrite semi_E; auto.
    + destruct (semi_in x X) as (Y & Z). apply der_cont. auto_derive. exact Z.
  - simpl. apply (lim_plus (at_right (- r)) A (fun x => r * r / (4 * PI) * asin (x / r)) 0 (- (r * r / 8))); [ring| |].
    + apply (cont_r A (- r) 0); [apply C; ring|apply V; ring].
    + apply (lim_der (at_right (- r)) (fun y => r * r / (4 * PI) * y) (fun x => asin (x / r)) (- (PI / 2))); [auto_derive; auto|field; lra|].
      eapply filterlim_comp; [apply scale_right; auto|apply lim_asin_m1].
  - simpl. apply (lim_plus (at_left r) A (fun x => r * r / (4 * PI) * asin (x / r)) 0 (r * r / 8)); [ring| |].
    + apply (cont_l A r 0); [apply C; ring|apply V; ring].
    + apply (lim_der (at_left r) (fun y => r * r / (4 * PI) * y) (fun x => asin (x / r)) (PI / 2)); [auto_derive; auto|field; lra|].
      eapply filterlim_comp; [apply scale_left; auto|apply lim_asin_1].
  - field.
Qed.
End Semi.
Lemma semi_moments eps r : 0 < r -> has_moments (semi_init eps r) 0 (r ^ 2 / 4).
Proof.
  intros R0. destruct (semi_facts r R0) as (_ & _ & F3 & _).
  apply (moments_of _ (semi_pdf r) (- r) r).
  - unfold semi_init. rewrite (proj2 (rlt_true _ _) R0). cbv zeta. apply pieces_add; [|simpl; auto].
    carr; try lra.
    repeat split; simpl; auto; try lra. intros _ c (C1 & C2). simpl in C1, C2.
    apply (ex_RInt_continuous (V := R_CompleteNormedModule)). intros z Z. rewrite Rmin_left, Rmax_right in Z by lra. apply F3. split; simpl; lra.
  - apply semi_first; auto.
  - eapply ii_ext; [|apply semi_second; auto]. intros x _. cbv beta. rewrite Rminus_0_r. auto.
Qed.

(** no mean: Cauchy, Levy, Pareto with alpha <= 1 *)
Lemma in_add eps l f a b s : Forall (carries f) l -> path a l b -> In s l -> forall q, addAll eps empty_pwf l = Ok q -> In s (segs q).
Proof.
  intros C P I0 q E. destruct (carries_split f l C) as (DD & WW).
  destruct (init_ok eps l a b DD WW P) as (q' & E1 & E2). rewrite E1 in E. injection E as <-. rewrite E2. auto.
Qed.
Lemma cauchy_no_mean eps gamma center : 0 < gamma -> no_mean (cauchy_init eps gamma center).
Proof.
  intros G. pose proof PI_RGT_0 as HP. unfold cauchy_init. cbv zeta. set (f := cauchy_pdf gamma center).
  assert (C : Forall (carries f) [MInfSeg (center - gamma) f; Seg (center - gamma) (center + gamma) f; PInfSeg (center + gamma) f]) by (carr; lra).
  assert (SQ : forall x, 0 < gamma * gamma + (x - center) * (x - center)) by (intros x; pose proof (Rle_0_sqr (x - center)); unfold Rsqr in *; nra).
  set (H := fun x => gamma / (2 * PI) * ln (gamma * gamma + (x - center) * (x - center)) + center / PI * atan ((x - center) / gamma)).
  apply (no_mean_tail _ f m_infty p_infty (center + gamma) (center + gamma + 1) (fun x => x * f x) H).
  - apply pieces_add; auto. simpl; auto.
  - apply (in_add eps _ f m_infty p_infty); auto; simpl; auto.
  - lra.
  - intros; lra.
  - intros x _. specialize (SQ x). unfold H, f, cauchy_pdf. auto_derive; [splits; lra|]. unfold Rsqr. field. splits; lra.
  - intros x _. specialize (SQ x). apply der_cont. unfold f, cauchy_pdf. auto_derive. apply Rgt_not_eq, Rmult_lt_0_compat; auto.
  - intros P (M & HM). unfold filtermap.
    assert (L1 : filterlim (fun x => ln (x - center)) (Rbar_locally p_infty) (Rbar_locally p_infty)).
    { apply (filterlim_comp _ _ _ (fun x => x - center) ln _ (Rbar_locally p_infty)); [|apply lim_ln_p].
      apply (lim_aff_pp _ (fun x => x) _ (- center) 1); [intros; ring|lra|apply lim_id_p]. }
    assert (U : Rbar_locally p_infty (fun x => PI / gamma * (M + Rabs center) < ln (x - center))).
    { apply (L1 (fun y => _ < y)). exists (PI / gamma * (M + Rabs center)). auto. }
    assert (U2 : Rbar_locally p_infty (fun x => center < x)) by (exists center; auto).
    generalize (filter_and _ _ U U2). apply filter_imp. intros x (X1 & X2). apply HM. unfold H.
    assert (A : 2 * ln (x - center) <= ln (gamma * gamma + (x - center) * (x - center))).
    { replace (2 * ln (x - center)) with (ln ((x - center) * (x - center))) by (rewrite ln_mult by lra; ring).
      apply Rlt_le, ln_increasing; [apply Rmult_lt_0_compat; lra|]. assert (0 < gamma * gamma) by (apply Rmult_lt_0_compat; auto). lra. }
    assert (B : - Rabs center <= center / PI * atan ((x - center) / gamma)).
    { pose proof (atan_bound ((x - center) / gamma)) as (B1 & B2).
      assert (Rabs (center / PI * atan ((x - center) / gamma)) <= Rabs center).
      { replace (center / PI * atan ((x - center) / gamma)) with (center * (atan ((x - center) / gamma) / PI)) by (field; lra).
        rewrite Rabs_mult. rewrite <- (Rmult_1_r (Rabs center)) at 2. apply Rmult_le_compat_l; [apply Rabs_pos|].
        apply Rabs_le. split; [apply Rle_div_r|apply Rle_div_l]; lra. }
      pose proof (Rle_abs (- (center / PI * atan ((x - center) / gamma)))). rewrite Rabs_Ropp in *. lra. }
    assert (K : gamma / PI * (PI / gamma * (M + Rabs center)) < gamma / PI * ln (x - center)).
    { apply Rmult_lt_compat_l; auto. apply Rdiv_lt_0_compat; auto. }
    replace (gamma / PI * (PI / gamma * (M + Rabs center))) with (M + Rabs center) in K by (field; lra).
    assert (K2 : gamma / (2 * PI) * (2 * ln (x - center)) <= gamma / (2 * PI) * ln (gamma * gamma + (x - center) * (x - center))).
    { apply Rmult_le_compat_l; auto. apply Rlt_le, Rdiv_lt_0_compat; lra. }
    replace (gamma / (2 * PI) * (2 * ln (x - center))) with (gamma / PI * ln (x - center)) in K2 by (field; lra). lra.
Qed.
Lemma pareto_no_mean eps alpha xmin : 0 < alpha <= 1 -> 0 < xmin -> no_mean (pareto_init eps alpha xmin).
Proof.
  intros (A & A1) X0. pose proof (pareto_pieces eps alpha xmin A X0) as PC. unfold pareto_init in *.
  rewrite (proj2 (rlt_true _ _) A), (proj2 (rlt_true _ _) X0) in *. cbv zeta in *. cbn [andb] in *.
  set (f := pareto_pdf alpha xmin) in *.
  set (K := alpha * Rpower xmin alpha).
  assert (KP : 0 < K) by (apply Rmult_lt_0_compat; auto; apply exp_pos).
  apply (no_mean_tail _ f xmin p_infty (xmin + 1) (xmin + 2) (fun x => K / x) (fun x => K * ln x)).
  - auto.
  - apply (in_add eps _ f xmin p_infty); [unfold f; carr; lra|simpl; auto|simpl; auto].
  - lra.
  - intros x X. unfold f, pareto_pdf. destruct (rltP x xmin); [lra|]. fold K. rewrite Rpower_plus, Rpower_1 by lra.
    assert (P1 : 0 < Rpower x alpha) by apply exp_pos.
    replace (x * (K / (Rpower x alpha * x))) with (K / Rpower x alpha) by (field; lra).
    apply Rmult_le_compat_l; [lra|]. apply Rinv_le_contravar; auto.
    rewrite <- (Rpower_1 x) at 2 by lra. apply Rle_Rpower; lra.
  - intros x X. auto_derive; [lra|]. field. lra.
  - intros x X. apply der_cont. auto_derive. lra.
  - apply (lim_aff_pp _ ln _ 0 K); [intros; ring|auto|apply lim_ln_p].
Qed.
Lemma levy_no_mean eps c xmin : 0 < c -> no_mean (levy_init eps c xmin).
Proof.
  intros C0. pose proof PI_RGT_0 as HP. unfold levy_init. rewrite (proj2 (rlt_true _ _) C0). cbv zeta. set (f := levy_pdf c xmin).
  assert (C : Forall (carries f) [Seg xmin (xmin + c) f; PInfSeg (xmin + c) f]) by (carr; lra).
  set (n := sqrt (c / (2 * PI))). assert (N : 0 < n) by (apply sqrt_lt_R0, Rdiv_lt_0_compat; lra).
  set (K := n * exp (- / 2) / 2). assert (KP : 0 < K) by (unfold K; pose proof (exp_pos (- / 2)); apply Rdiv_lt_0_compat; [apply Rmult_lt_0_compat; auto|lra]).
  set (u := Rmax (xmin + c + 1) (Rmax 0 (- xmin))).
  assert (U1 : xmin + c + 1 <= u) by apply Rmax_l.
  assert (U2 : 0 <= u) by (apply Rle_trans with (Rmax 0 (- xmin)); [apply Rmax_l|apply Rmax_r]).
  assert (U3 : - xmin <= u) by (apply Rle_trans with (Rmax 0 (- xmin)); [apply Rmax_r|apply Rmax_r]).
  apply (no_mean_tail _ f xmin p_infty (xmin + c) u (fun x => K * exp (- / 2 * ln (x - xmin))) (fun x => 2 * K * exp (/ 2 * ln (x - xmin)))).
  - apply pieces_add; auto. simpl; auto.
  - apply (in_add eps _ f xmin p_infty); auto; simpl; auto.
  - lra.
  - intros x X. unfold f, levy_pdf. destruct (rleP x xmin); [lra|]. fold n.
    replace (ln (x - xmin) * -1.5 - 0.5 * c / (x - xmin)) with (- / 2 * ln (x - xmin) + - ln (x - xmin) + - (/ 2 * (c / (x - xmin)))).
    2:{ replace (-1.5) with (- / 2 + - 1) by lra. replace 0.5 with (/ 2) by lra. field. lra. }
    rewrite !exp_plus, (exp_Ropp (ln (x - xmin))), exp_ln by lra.
    assert (E1 : exp (- / 2) <= exp (- (/ 2 * (c / (x - xmin))))).
    { apply exp_mono. assert (c / (x - xmin) <= 1) by (apply Rle_div_l; lra). lra. }
    assert (E2 : / 2 <= x * / (x - xmin)) by (change (x * / (x - xmin)) with (x / (x - xmin)); apply Rle_div_r; lra).
    pose proof (exp_pos (- / 2 * ln (x - xmin))) as E3. pose proof (exp_pos (- / 2)) as E4.
    replace (K * exp (- / 2 * ln (x - xmin))) with (n * exp (- / 2 * ln (x - xmin)) * (/ 2 * exp (- / 2))) by (unfold K; field).
    replace (x * (n * (exp (- / 2 * ln (x - xmin)) * / (x - xmin) * exp (- (/ 2 * (c / (x - xmin)))))))
      with (n * exp (- / 2 * ln (x - xmin)) * (x * / (x - xmin) * exp (- (/ 2 * (c / (x - xmin)))))) by ring.
    apply Rmult_le_compat_l; [apply Rlt_le, Rmult_lt_0_compat; auto|]. apply Rmult_le_compat; lra.
  - intros x X. auto_derive; [lra|]. replace (x + - xmin) with (x - xmin) by ring.
    replace (/ 2 * ln (x - xmin)) with (- / 2 * ln (x - xmin) + ln (x - xmin)) by field. rewrite exp_plus, exp_ln by lra. field. lra.
  - intros x X. apply der_cont. auto_derive. lra.
  - apply (lim_aff_pp _ (fun x => exp (/ 2 * ln (x - xmin))) _ 0 (2 * K)); [intros; ring|lra|].
    apply (lim_exp_p (Rbar_locally p_infty)). apply (lim_aff_pp _ (fun x => ln ((x - xmin) / 1)) _ 0 (/ 2)); [intros x; rewrite Rdiv_1; ring|lra|apply lim_ln_shift_p; lra].
Qed.
