(** Main statements about measures of dependence (C74). *)
From Coq Require Import Reals Lra Lia List Bool Arith FunctionalExtensionality.
From Coquelicot Require Import Coquelicot.
From Verif Require Import Base Integral IntegralFacts SegIntFacts StdFacts2 StdFacts3 MStdFacts MStdFacts2 Copula CopulaSpec CopulaFacts CopulaFacts2 CopulaFacts3 CopulaMain Depm DepmSpec DepmFacts.
Import List ListNotations.
Open Scope R_scope.

(** C74: Spearman's rho of a pair of variables lies between -1 and 1, whatever the copula and the marginals; it is -1 for the lower
    bound copula, 1 for the upper bound, 0 under independence. *)
Lemma rho_s_bounds_main :
  (forall a (C : R -> R -> R) c f g i j, is_copula2 C -> (i, j) = (0, 1)%nat \/ (i, j) = (1, 0)%nat ->
   exists r, cop_rho_s (Cop a (as_list C) c [f; g]) i j = Ok r /\ -1 <= r <= 1) /\
  (forall a c f g, cop_rho_s (Cop a (as_list lower2) c [f; g]) 0 1 = Ok (-1) /\ cop_rho_s (Cop a (as_list upper2) c [f; g]) 0 1 = Ok 1 /\
   cop_rho_s (Cop a (as_list Rmult) c [f; g]) 0 1 = Ok 0).
Proof.
  split.
  - intros a C c f g i j HC IJ. destruct (two_vars (Cop a (as_list C) c [f; g]) f g i j eq_refl IJ) as (E & _ & N).
    unfold cop_rho_s. rewrite E, N. cbn [rmap]. eexists. split; [reflexivity|]. cbn [c_ccdf]. unfold as_list; cbn [nth].
    pose proof (copula_slow C HC) as S.
    assert (L : integrate_iter lower2 0 1 0 1 <= integrate_iter C 0 1 0 1).
    { apply slow_le; auto; [apply copula_slow, lower_copula|]. intros x y X Y. apply (frechet C x y HC X Y). }
    assert (U : integrate_iter C 0 1 0 1 <= integrate_iter upper2 0 1 0 1).
    { apply slow_le; auto; [apply copula_slow, upper_copula|]. intros x y X Y. apply (frechet C x y HC X Y). }
    rewrite lower_iter in L. rewrite upper_iter in U. change (fun x y => C x y) with C. lra.
  - intros a c f g. unfold cop_rho_s, as_list. cbn [c_margs length]. unfold other_vars. cbn [seq filter Nat.eqb orb negb cop_eliminate rmap c_ccdf nth].
    change (fun x y => lower2 x y) with lower2. change (fun x y => upper2 x y) with upper2. rewrite lower_iter, upper_iter, pi_iter. splits; f_equal; lra.
Qed.

(** C74: every variable is fully dependent on itself: rho and tau are 1, and the covariance is the variance, for both variables of an
    Archimedean copula. *)
Lemma dependence_self_main :
  (forall C c ms i, cop_rho_s (Cop true C c ms) i i = Ok 1 /\ cop_ctau (Cop true C c ms) i i = Ok 1) /\
  (forall C c f g i m, nth_error [f; g] i = Some m -> cop_tau (Cop true C c [f; g]) i i = Ok 1 /\
     cop_cov (Cop true C c [f; g]) i i = Ok (Q (fun x => (x - m_mean m) * (x - m_mean m) * m_pdf m x) (m_lo m) (m_hi m))).
Proof.
  split.
  - intros C c ms i. unfold cop_rho_s, cop_ctau. rewrite Nat.eqb_refl.
    assert (E : forall var, exists d, cop_eliminate (Cop true C c ms) var = Ok d) by (intros [|k v]; eexists; reflexivity).
    destruct (E (other_vars (length (c_margs (Cop true C c ms))) i i)) as (d & ->). split; reflexivity.
  - assert (P : forall x, x ^ 2 = x * x) by (intros; ring).
    intros C c f g [|[|i]] m E; cbn in E; [| |destruct i; discriminate]; injection E as <-; unfold cop_tau, cop_cov, dep_vars, other_vars; cbn -[pow];
    (split; [reflexivity|f_equal; f_equal]); apply functional_extensionality; intros x; rewrite P; reflexivity.
Qed.

(** C74: a copula that lies above another one everywhere has the larger rho and the larger beta. *)
Lemma rho_s_order_main :
  forall a (C D : R -> R -> R) c c' f g, is_copula2 C -> is_copula2 D -> (forall u v, in01 u -> in01 v -> C u v <= D u v) ->
  exists r r', cop_rho_s (Cop a (as_list C) c [f; g]) 0 1 = Ok r /\ cop_rho_s (Cop a (as_list D) c' [f; g]) 0 1 = Ok r' /\ r <= r' /\
    blomqvist (as_list C) <= blomqvist (as_list D).
Proof.
  intros a C D c c' f g HC HD L. unfold cop_rho_s, as_list. cbn [c_margs length]. unfold other_vars. cbn [seq filter Nat.eqb orb negb cop_eliminate rmap c_ccdf nth].
  eexists. eexists. split; [reflexivity|]. split; [reflexivity|]. split.
  - pose proof (slow_le C D (copula_slow C HC) (copula_slow D HD) L) as K. change (fun x y => C x y) with C. change (fun x y => D x y) with D. lra.
  - unfold blomqvist. cbn [nth]. pose proof (L (/ 2) (/ 2) ltac:(unfold in01; lra) ltac:(unfold in01; lra)). lra.
Qed.

Lemma Q_le f g a b : integrable f a b -> integrable g a b -> (forall x : R, RbarIn a b x -> f x <= g x) -> Q f a b <= Q g a b.
Proof.
  intros F G L. assert (H : 0 <= Q (fun x => g x + (-1) * f x) a b).
  { apply Q_nonneg; [apply integrable_plus; auto; apply integrable_scal; auto|]. intros x X. specialize (L x X). lra. }
  rewrite Q_plus, Q_scal in H; auto; [lra|]. apply integrable_scal; auto.
Qed.
Lemma int_id : has_val (fun y => y) 0 1 (1 / 2).
Proof.
  apply (ii_ftc _ (fun y => y ^ 2 / 2) 0 1 0 (1 / 2)); simpl; try lra.
  - intros x _. auto_derive; auto. field.
  - intros x _. apply continuous_id.
  - apply lim_r_cont; [auto_derive; auto|field].
  - apply lim_l_cont; [auto_derive; auto|field].
Qed.

(** C74: Kendall's tau from the density of a copula lies between -1 and 1; under independence it is 0. *)
Lemma ctau_bounds_main :
  (forall a (C c : R -> R -> R) f g i j, is_copula2 C -> copula_density c -> (i, j) = (0, 1)%nat \/ (i, j) = (1, 0)%nat ->
   (forall y, 0 < y < 1 -> integrable (fun x => C x y * c x y) 0 1) -> integrable (fun y => Q (fun x => C x y * c x y) 0 1) 0 1 ->
   exists r, cop_ctau (Cop a (as_list C) (as_list c) [f; g]) i j = Ok r /\ -1 <= r <= 1) /\
  (forall a f g, cop_ctau (Cop a (as_list Rmult) (as_list (fun _ _ => 1)) [f; g]) 0 1 = Ok 0).
Proof.
  split.
  - intros a C c f g i j HC (CP & CM) IJ I1 I2. destruct (two_vars (Cop a (as_list C) (as_list c) [f; g]) f g i j eq_refl IJ) as (E & _ & N).
    unfold cop_ctau. rewrite E, N. cbn [rmap]. eexists. split; [reflexivity|]. cbn [c_ccdf c_cpdf]. unfold as_list; cbn [nth]. unfold integrate_iter.
    assert (B : forall y, 0 < y < 1 -> 0 <= Q (fun x => C x y * c x y) 0 1 <= y).
    { intros y Y. destruct (CM y Y) as (J1 & J2).
      assert (F : forall x, 0 < x < 1 -> 0 <= C x y <= y).
      { intros x X. pose proof (frechet C x y HC ltac:(unfold in01; lra) ltac:(unfold in01; lra)) as K. pose proof (Rmax_r (x + y - 1) 0). pose proof (Rmin_r x y). lra. }
      split.
      - apply Q_nonneg; auto. intros x (X1 & X2). simpl in X1, X2. apply Rmult_le_pos; [apply F; lra|apply CP; lra].
      - apply Rle_trans with (Q (fun x => y * c x y) 0 1); [|rewrite Q_scal, J2 by auto; lra].
        apply Q_le; auto; [apply integrable_scal; auto|]. intros x (X1 & X2). simpl in X1, X2. apply Rmult_le_compat_r; [apply CP; lra|apply F; lra]. }
    assert (L : 0 <= Q (fun y => Q (fun x => C x y * c x y) 0 1) 0 1).
    { apply Q_nonneg; auto. intros y (Y1 & Y2). simpl in Y1, Y2. apply B. lra. }
    assert (U : Q (fun y => Q (fun x => C x y * c x y) 0 1) 0 1 <= 1 / 2).
    { destruct int_id as (J & <-). apply Q_le; auto. intros y (Y1 & Y2). simpl in Y1, Y2. apply B. lra. }
    lra.
  - intros a f g. unfold cop_ctau, as_list. cbn [c_margs length]. unfold other_vars. cbn [seq filter Nat.eqb orb negb cop_eliminate rmap c_ccdf c_cpdf nth].
    f_equal. replace (integrate_iter (fun x y => x * y * 1) 0 1 0 1) with (1 / 4); [lra|]. rewrite <- pi_iter. unfold integrate_iter. symmetry.
    apply Q_ext; [simpl; lra|]. intros y _. apply Q_ext; [simpl; lra|]. intros x _. ring.
Qed.

(** C74: Kendall's tau computed through the marginals is that of the copula: it does not depend on smooth marginals. *)
Lemma tau_margins_main :
  forall a (C c : list R -> R) f g (k : R -> R -> R), smooth_marg f -> smooth_marg g ->
  (forall u v, in01 u -> in01 v -> C [u; v] * c [u; v] = k u v) ->
  (forall v u, in01 u -> continuous (fun u => k u v) u) -> (forall v, in01 v -> continuous (fun v => RInt (fun u => k u v) 0 1) v) ->
  cop_tau (Cop a C c [f; g]) 0 1 = cop_ctau (Cop a C c [f; g]) 0 1.
Proof.
  intros a C c f g k (Lf & F0 & F1 & FB & Fe & fe & HF) (Lg & G0 & G1 & GB & Ge & ge & HG) HK KC KK.
  unfold cop_tau, cop_ctau, dep_vars. cbn [c_margs length]. unfold other_vars. cbn [seq filter Nat.eqb orb negb cop_eliminate rmap rbind get_marg nth_error c_margs c_ccdf c_cpdf].
  f_equal. f_equal. f_equal. set (K := fun v => RInt (fun u => k u v) 0 1).
  assert (EK : forall v, ex_RInt (fun u => k u v) 0 1).
  { intros v. apply (ex_RInt_continuous (V := R_CompleteNormedModule)). intros z Z. rewrite Rmin_left, Rmax_right in Z by lra. apply KC. unfold in01; lra. }
  assert (EKK : ex_RInt K 0 1).
  { apply (ex_RInt_continuous (V := R_CompleteNormedModule)). intros z Z. rewrite Rmin_left, Rmax_right in Z by lra. apply KK. unfold in01; lra. }
  assert (R2 : integrate_iter (fun x y => C [x; y] * c [x; y]) 0 1 0 1 = RInt K 0 1).
  { unfold integrate_iter. rewrite <- unit_Q by auto. apply Q_ext; [simpl; lra|]. intros y (Y1 & Y2). simpl in Y1, Y2. unfold K. rewrite <- unit_Q by auto.
    apply Q_ext; [simpl; lra|]. intros x (X1 & X2). simpl in X1, X2. apply HK; unfold in01; lra. }
  rewrite R2. unfold integrate_iter.
  assert (S : forall (m : dmarg) (Fm fm h : R -> R), m_lo m < m_hi m -> m_cdf m (m_lo m) = 0 -> m_cdf m (m_hi m) = 1 -> (forall x, m_lo m <= x <= m_hi m -> in01 (m_cdf m x)) ->
    (forall x, m_lo m <= x <= m_hi m -> m_cdf m x = Fm x /\ m_pdf m x = fm x /\ is_derive Fm x (fm x) /\ continuous fm x) -> (forall u, in01 u -> continuous h u) ->
    Q (fun x => m_pdf m x * h (m_cdf m x)) (m_lo m) (m_hi m) = RInt h 0 1).
  { intros m Fm fm h L H0 H1 HB HD HC.
    assert (I : is_RInt (fun x => scal (fm x) (h (Fm x))) (m_lo m) (m_hi m) (RInt h 0 1)).
    { rewrite <- H0, <- H1. rewrite (proj1 (HD (m_lo m) ltac:(lra))), (proj1 (HD (m_hi m) ltac:(lra))).
      apply (is_RInt_comp (V := R_CompleteNormedModule) h Fm fm).
      - intros x X. rewrite Rmin_left, Rmax_right in X by lra. rewrite <- (proj1 (HD x X)). apply HC, HB; auto.
      - intros x X. rewrite Rmin_left, Rmax_right in X by lra. destruct (HD x X) as (_ & _ & D1 & D2). auto. }
    assert (I2 : is_RInt (fun x => m_pdf m x * h (m_cdf m x)) (m_lo m) (m_hi m) (RInt h 0 1)).
    { eapply is_RInt_ext; [|exact I]. intros x X. rewrite Rmin_left, Rmax_right in X by lra. destruct (HD x ltac:(lra)) as (-> & -> & _). reflexivity. }
    destruct (proper_int (fun x => m_pdf m x * h (m_cdf m x)) (m_lo m) (m_hi m) L) as (_ & ->); [eexists; exact I2|]. apply is_RInt_unique; auto. }
  rewrite <- (S g Ge ge K Lg G0 G1 GB HG KK). apply Q_ext; [simpl; lra|]. intros y (Y1 & Y2). simpl in Y1, Y2.
  assert (GY : in01 (m_cdf g y)) by (apply GB; lra).
  unfold K. rewrite <- (S f Fe fe (fun u => k u (m_cdf g y)) Lf F0 F1 FB HF (KC (m_cdf g y))).
  assert (IF : integrable (fun x => m_pdf f x * k (m_cdf f x) (m_cdf g y)) (m_lo f) (m_hi f)).
  { apply (proper_int (fun x => m_pdf f x * k (m_cdf f x) (m_cdf g y)) (m_lo f) (m_hi f)); auto.
    apply (ex_RInt_ext (fun x => scal (fe x) (k (Fe x) (m_cdf g y)))).
    - intros x X. rewrite Rmin_left, Rmax_right in X by lra. destruct (HF x ltac:(lra)) as (-> & -> & _). reflexivity.
    - eexists. apply (is_RInt_comp (V := R_CompleteNormedModule) (fun u => k u (m_cdf g y)) Fe fe).
      + intros x X. rewrite Rmin_left, Rmax_right in X by lra. rewrite <- (proj1 (HF x X)). apply KC, FB; auto.
      + intros x X. rewrite Rmin_left, Rmax_right in X by lra. destruct (HF x X) as (_ & _ & D1 & D2). auto. }
  rewrite <- Q_scal by auto. apply Q_ext; [simpl; lra|]. intros x (X1 & X2). simpl in X1, X2.
  unfold c_cdf, c_pdf, joint_cdf, joint_pdf, pairs_of. cbn [c_margs c_ccdf c_cpdf map combine fold_left fst snd].
  rewrite <- HK by (auto; apply FB; lra). ring.
Qed.

(** C74: independent variables have covariance and correlation 0, when the marginals report their mean. *)
Lemma cov_independent_main :
  forall a f g C i j, has_mean f -> has_mean g -> (i, j) = (0, 1)%nat \/ (i, j) = (1, 0)%nat ->
  cop_cov (Cop a C (as_list (fun _ _ => 1)) [f; g]) i j = Ok 0 /\ cop_corrcoef (Cop a C (as_list (fun _ _ => 1)) [f; g]) i j = Ok 0.
Proof.
  intros a f g C i j (Lf & F1 & F2 & F3 & F4) (Lg & _) IJ.
  destruct (two_vars (Cop a C (as_list (fun _ _ => 1)) [f; g]) f g i j eq_refl IJ) as (_ & E & N).
  assert (H : cop_cov (Cop a C (as_list (fun _ _ => 1)) [f; g]) i j = Ok 0).
  { unfold cop_cov. rewrite E. cbn [rmap]. rewrite N. f_equal. unfold integrate_iter.
    apply Q_zero; [simpl; lra|]. intros y _.
    assert (IM : integrable (fun x => x * m_pdf f x + - m_mean f * m_pdf f x) (m_lo f) (m_hi f)) by (apply integrable_plus; auto; apply integrable_scal; auto).
    transitivity (Q (fun x => (y - m_mean g) * m_pdf g y * (x * m_pdf f x + - m_mean f * m_pdf f x)) (m_lo f) (m_hi f)).
    - apply Q_ext; [simpl; lra|]. intros x _. unfold c_pdf, joint_pdf, pairs_of, as_list. cbn [c_margs c_cpdf map combine fold_left fst snd]. ring.
    - rewrite Q_scal, Q_plus, Q_scal, F2, F4; auto; [ring|]. apply integrable_scal; auto. }
  split; auto. unfold cop_corrcoef. rewrite E. cbn [rbind]. rewrite H. cbn [rmap]. f_equal. unfold Rdiv. ring.
Qed.

(** C74: the diagonal of the correlation matrix of an Archimedean copula is not 1: corrcoef(0,0) is the ratio of the standard
    deviations of the first and the second variable. *)
Lemma corrcoef_diag_refuted_main :
  (forall C c f g, 0 < m_std f -> 0 < m_std g -> Q (fun x => (x - m_mean f) ^ 2 * m_pdf f x) (m_lo f) (m_hi f) = m_std f ^ 2 ->
   cop_corrcoef (Cop true C c [f; g]) 0 0 = Ok (m_std f / m_std g)) /\
  exists f g, (forall m, m = f \/ m = g -> has_mean m /\ 0 < m_std m /\ Q (fun x => (x - m_mean m) ^ 2 * m_pdf m x) (m_lo m) (m_hi m) = m_std m ^ 2) /\
    forall C c, exists r, cop_corrcoef (Cop true C c [f; g]) 0 0 = Ok r /\ 1 < r.
Proof.
  assert (G : forall C c f g, 0 < m_std f -> 0 < m_std g -> Q (fun x => (x - m_mean f) ^ 2 * m_pdf f x) (m_lo f) (m_hi f) = m_std f ^ 2 ->
   cop_corrcoef (Cop true C c [f; g]) 0 0 = Ok (m_std f / m_std g)).
  { intros C c f g S S' V. unfold cop_corrcoef, cop_cov, dep_vars. cbn. f_equal. cbn in V. rewrite V. field. lra. }
  split; auto.
  assert (U : forall s, 0 < s -> let m := DM (fun x => x / (sqrt 12 * s)) (fun _ => / (sqrt 12 * s)) (- (sqrt 12 * s / 2)) (sqrt 12 * s / 2) 0 s in
    has_mean m /\ 0 < m_std m /\ Q (fun x => (x - m_mean m) ^ 2 * m_pdf m x) (m_lo m) (m_hi m) = m_std m ^ 2).
  { intros s S. cbn. assert (S12 : 0 < sqrt 12) by (apply sqrt_lt_R0; lra). assert (Q12 : sqrt 12 * sqrt 12 = 12) by (apply sqrt_sqrt; lra).
    assert (W : 0 < sqrt 12 * s) by (apply Rmult_lt_0_compat; auto). set (w := sqrt 12 * s) in *.
    assert (P : forall p q r, has_val (fun x => p + q * x + r * x ^ 2) (- (w / 2)) (w / 2) (p * (w / 2 - - (w / 2)) + q * ((w / 2) ^ 2 - (- (w / 2)) ^ 2) / 2 + r * ((w / 2) ^ 3 - (- (w / 2)) ^ 3) / 3)).
    { intros p q r. pose proof (int_quad (- (w / 2)) (w / 2) p q r) as I.
      destruct (proper_int (fun x => p + q * x + r * x ^ 2) (- (w / 2)) (w / 2)) as (A & B); [lra|eexists; exact I|]. split; auto. rewrite B. apply is_RInt_unique; auto. }
    split; [|split; auto].
    - unfold has_mean. cbn. split; [lra|]. 
      assert (A : has_val (fun _ => / w) (- (w / 2)) (w / 2) 1).
      { eapply ii_val; [apply (fun E => ii_ext _ _ _ _ _ E (P (/ w) 0 0)); intros x _; ring|]. field. lra. }
      assert (B : has_val (fun x => x * / w) (- (w / 2)) (w / 2) 0).
      { eapply ii_val; [apply (fun E => ii_ext _ _ _ _ _ E (P 0 (/ w) 0)); intros x _; ring|]. field. lra. }
      destruct A, B. auto.
    - assert (B : has_val (fun x => (x - 0) * ((x - 0) * 1) * / w) (- (w / 2)) (w / 2) (w * w / 12)).
      { eapply ii_val; [apply (fun E => ii_ext _ _ _ _ _ E (P 0 0 (/ w))); intros x _; ring|]. field. lra. }
      rewrite (proj2 B). unfold w. replace (sqrt 12 * s * (sqrt 12 * s)) with (sqrt 12 * sqrt 12 * (s * s)) by ring. rewrite Q12. field. }
  eexists. eexists. split.
  - intros m [-> | ->]; [apply (U 2); lra|apply (U 1); lra].
  - intros C c. eexists. split; [apply G; [cbn; lra|cbn; lra|apply (U 2); lra]|]. cbn. lra.
Qed.

(** C74: with three variables, cov(0,2) integrates over the range of variable 1: if the third density vanishes there, the result
    is 0, whatever the copula. *)
Lemma cov_third_lost_main :
  forall C c f g h, m_lo f < m_hi f -> m_lo g < m_hi g -> (forall y, m_lo g < y < m_hi g -> m_pdf h y = 0) ->
  cop_cov (Cop true C c [f; g; h]) 0 2 = Ok 0.
Proof.
  intros C c f g h Lf Lg H. unfold cop_cov, dep_vars. cbn [c_margs length]. unfold other_vars.
  cbn [seq filter Nat.eqb orb negb cop_eliminate c_arch c_margs length map existsb select rbind get_marg nth_error rmap]. f_equal.
  unfold integrate_iter. apply Q_zero; [simpl; lra|]. intros y (Y1 & Y2). simpl in Y1, Y2. apply Q_zero; [simpl; lra|]. intros x _.
  unfold c_pdf, joint_pdf, pairs_of. cbn [c_margs c_cpdf map combine fold_left fst snd]. rewrite H by lra. ring.
Qed.

Lemma tau_ratio (fi fi' p p' : R -> R) : (forall t, 0 < t < 1 -> fi t = p t /\ is_derive fi t (fi' t) /\ is_derive p t (p' t)) ->
  forall t, 0 < t < 1 -> fi t / fi' t = p t / p' t.
Proof.
  intros H t T. destruct (H t T) as (E & D1 & D2). rewrite E. f_equal.
  assert (D3 : is_derive fi t (p' t)).
  { eapply (is_derive_ext_loc p); [|exact D2]. exists (mkposreal (Rmin t (1 - t)) ltac:(apply Rmin_pos; lra)). intros s B. symmetry. apply H.
    unfold ball in B; simpl in B; unfold AbsRing_ball, abs, minus, plus, opp in B; simpl in B. apply Rabs_def2 in B.
    pose proof (Rmin_l t (1 - t)). pose proof (Rmin_r t (1 - t)). lra. }
  apply is_derive_unique in D1. apply is_derive_unique in D3. congruence.
Qed.
Lemma ln_neg t : 0 < t < 1 -> ln t < 0.
Proof. intros T. rewrite <- ln_1. apply ln_increasing; lra. Qed.
Lemma ln_lt_id x : 0 < x -> ln x < x.
Proof. intros X. apply exp_lt_inv. rewrite exp_ln by auto. pose proof (exp_ineq1 x ltac:(lra)). lra. Qed.
Lemma lim_mult (F : (R -> Prop) -> Prop) (k l : R) (f : R -> R) : filterlim f F (locally l) -> filterlim (fun t => k * f t) F (locally (k * l)).
Proof. intros H. apply (filterlim_comp _ _ _ f (fun z => k * z) F (locally l)); auto. apply (filterlim_scal_r (V := R_NormedModule) k l). Qed.
Lemma lim_r_lin (q : R) : filterlim (fun t => q * t ^ 2) (at_right 0) (locally 0).
Proof.
  apply lim_r_cont; [auto_derive; auto|ring].
Qed.

Lemma lim_sq_ln : filterlim (fun t => t ^ 2 * ln t) (at_right 0) (locally 0).
Proof.
  apply filterlim_locally. intros e. exists (mkposreal (Rmin e 1) ltac:(apply Rmin_pos; [apply cond_pos|lra])). intros t B T1.
  unfold ball in *; simpl in *; unfold AbsRing_ball, abs, minus, plus, opp in *; simpl in *.
  rewrite Ropp_0, Rplus_0_r in *. rewrite (Rabs_pos_eq t) in B by lra. pose proof (Rmin_l e 1). pose proof (Rmin_r e 1).
  pose proof (ln_neg t ltac:(lra)) as LN. pose proof (ln_lt_id (/ t) ltac:(apply Rinv_0_lt_compat; auto)) as L2. rewrite ln_Rinv in L2 by auto.
  rewrite Rabs_left1; [|nra].
  assert (K : t * (t * 1) * (- ln t) <= t * (t * 1) * / t) by (apply Rmult_le_compat_l; nra).
  replace (t * (t * 1) * / t) with t in K by (field; lra). lra.
Qed.

(** C74: Kendall's tau from the generator is theta/(theta+2) for the Clayton copula and 1 - 1/theta for the Gumbel copula. *)
Lemma tau_c_values_main :
  forall (th : R) (fi fi' : R -> R),
  (0 < th -> (forall t, 0 < t < 1 -> clayton_fi th t = Some (Finite (fi t)) /\ is_derive fi t (fi' t)) -> tau_c fi fi' = th / (th + 2)) /\
  (1 <= th -> (forall t, 0 < t < 1 -> gumbel_fi th t = Some (Finite (fi t)) /\ is_derive fi t (fi' t)) -> tau_c fi fi' = 1 - 1 / th).
Proof.
  intros th fi fi'. split; intros T H0.
  - assert (H : forall t, 0 < t < 1 -> fi t = 1 / th * (Rpower t (- th) - 1) /\ is_derive fi t (fi' t)).
    { intros t B. destruct (H0 t B) as (E & D). split; auto. unfold clayton_fi, npow in E. rewrite (proj2 (rlt_true 0 t)) in E by lra.
      cbn in E. injection E as E. rewrite <- E. ring. }
    assert (V : has_val (fun t => fi t / fi' t) 0 1 (- / (2 * (th + 2)))).
    { apply (ii_ext (fun t => / th * (Rpower t (th + 1) - t))).
      { intros t (T1 & T2). simpl in T1, T2. symmetry.
        rewrite (tau_ratio fi fi' (fun t => 1 / th * (Rpower t (- th) - 1)) (fun t => - (Rpower t (- th) * / t))); [| |lra].
        - rewrite Rpower_plus, Rpower_1 by auto. rewrite Rpower_Ropp. field. split; [|split]; try lra. apply Rgt_not_eq, exp_pos.
        - intros s S. destruct (H s S) as (H1 & H2). split; auto. split; auto. unfold Rpower. auto_derive; [lra|]. field. lra. }
      apply (ii_ftc _ (fun t => / th * (Rpower t (th + 2) / (th + 2) - t ^ 2 / 2)) 0 1 0 (/ th * (1 / (th + 2) - 1 / 2))); simpl; try lra.
      - intros t (T1 & _). simpl in T1. replace (Rpower t (th + 1)) with (Rpower t (th + 2) * / t).
        + unfold Rpower. auto_derive; [lra|]. field. lra.
        + replace (th + 2) with ((th + 1) + 1) by ring. rewrite (Rpower_plus (th + 1)), Rpower_1 by auto. field. lra.
      - intros t (T1 & _). simpl in T1. apply (ex_derive_continuous (V := R_NormedModule)). unfold Rpower. auto_derive. lra.
      - replace 0 with (/ th * (/ (th + 2) * 0 + 0)) at 2 by ring. 
        apply (filterlim_ext (fun t => / th * (/ (th + 2) * Rpower t (th + 2) + (- / 2) * t ^ 2))); [intros t; field; lra|].
        apply lim_mult. apply (filterlim_comp_2 (fun t => / (th + 2) * Rpower t (th + 2)) (fun t => (- / 2) * t ^ 2) Rplus (G := locally (/ (th + 2) * 0)) (H := locally 0)).
        + apply lim_mult, lim_pow_0. lra.
        + apply lim_r_lin.
        + apply (filterlim_plus (V := R_NormedModule)).
      - apply lim_l_cont; [unfold Rpower; auto_derive; lra|]. rewrite rpow_1l. field. lra.
      - field. lra. }
    unfold tau_c. rewrite (proj2 V). field. lra.
  - assert (H : forall t, 0 < t < 1 -> fi t = Rpower (- ln t) th /\ is_derive fi t (fi' t)).
    { intros t B. destruct (H0 t B) as (E & D). split; auto. unfold gumbel_fi, nlog, npow in E. rewrite (proj2 (rlt_true 0 t)) in E by lra.
      pose proof (ln_neg t B). cbn in E. rewrite (proj2 (rlt_true 0 (- ln t))) in E by lra. cbn in E. injection E as E. auto. }
    assert (V : has_val (fun t => fi t / fi' t) 0 1 (- / (4 * th))).
    { apply (ii_ext (fun t => / th * (t * ln t))).
      { intros t (T1 & T2). simpl in T1, T2. symmetry. assert (LT : forall s, 0 < s < 1 -> 0 < - ln s) by (intros s S; pose proof (ln_neg s S); lra).
        rewrite (tau_ratio fi fi' (fun t => Rpower (- ln t) th) (fun t => - (th * (Rpower (- ln t) th * / (- ln t)) * / t))); [| |lra].
        - specialize (LT t ltac:(lra)). field. repeat split; try lra. apply Rgt_not_eq, exp_pos.
        - intros s S. destruct (H s S) as (H1 & H2). split; auto. split; auto. specialize (LT s S). unfold Rpower. auto_derive; [lra|]. field. lra. }
      apply (ii_ftc _ (fun t => / th * (t ^ 2 * ln t / 2 - t ^ 2 / 4)) 0 1 0 (- / (4 * th))); simpl; try lra.
      - intros t (T1 & _). simpl in T1. auto_derive; [lra|]. field. lra.
      - intros t (T1 & _). simpl in T1. apply (ex_derive_continuous (V := R_NormedModule)). auto_derive. lra.
      - replace 0 with (/ th * (/ 2 * 0 + 0)) at 2 by ring.
        apply (filterlim_ext (fun t => / th * (/ 2 * (t ^ 2 * ln t) + (- / 4) * t ^ 2))); [intros t; field; lra|].
        apply lim_mult. apply (filterlim_comp_2 (fun t => / 2 * (t ^ 2 * ln t)) (fun t => (- / 4) * t ^ 2) Rplus (G := locally (/ 2 * 0)) (H := locally 0)).
        + apply lim_mult, lim_sq_ln.
        + apply lim_r_lin.
        + apply (filterlim_plus (V := R_NormedModule)).
      - apply lim_l_cont; [auto_derive; lra|]. rewrite ln_1. field. lra.
    }
    unfold tau_c. rewrite (proj2 V). field. lra.
Qed.

(** C74: the covariance matrix of a joint density has 1 on its diagonal and E(XY) beside it: for two independent variables,
    uniform on [0,1], it says 1 and 1/4 where the covariances are 1/12 and 0. *)
Lemma nd_cov_refuted_main :
  (forall h f0 f1 g0 g1 i, nd_cov h f0 f1 g0 g1 i i = 1) /\ nd_cov (fun _ _ => 1) 0 1 0 1 0 1 = 1 / 4 /\
  integrate_iter (fun x y => (x - / 2) * (y - / 2)) 0 1 0 1 = 0 /\ Q (fun x => (x - / 2) ^ 2) 0 1 = 1 / 12.
Proof.
  assert (P : forall p q r, has_val (fun x => p + q * x + r * x ^ 2) 0 1 (p + q / 2 + r / 3)).
  { intros p q r. pose proof (int_quad 0 1 p q r) as I. destruct (proper_int (fun x => p + q * x + r * x ^ 2) 0 1) as (A & B); [lra|eexists; exact I|].
    split; auto. rewrite B. apply is_RInt_unique. evar_last; [exact I|]. field. }
  split; [intros; unfold nd_cov; rewrite Nat.eqb_refl; auto|]. split; [|split].
  - unfold nd_cov. cbn [Nat.eqb]. rewrite <- pi_iter. unfold integrate_iter. apply Q_ext; [simpl; lra|]. intros y _. apply Q_ext; [simpl; lra|]. intros x _. ring.
  - unfold integrate_iter. apply Q_zero; [simpl; lra|]. intros y _.
    assert (K : has_val (fun x => (x - / 2) * (y - / 2)) 0 1 0); [|apply K].
    eapply ii_val; [apply (fun E => ii_ext _ _ _ _ _ E (P (- / 2 * (y - / 2)) (y - / 2) 0)); intros x _; simpl; ring|]. field.
  - assert (K : has_val (fun x => (x - / 2) ^ 2) 0 1 (1 / 12)); [|apply K].
    eapply ii_val; [apply (fun E => ii_ext _ _ _ _ _ E (P (/ 4) (- 1) 1)); intros x _; simpl; field|]. field.
Qed.
