(** Moments of the named distributions: Laplace, Pareto, Student, beta, F, log-logistic. *)
From Coq Require Import Reals Lra Lia List Bool Sorted.
From Coquelicot Require Import Coquelicot.
From Verif Require Import Base Seg Piecewise PiecewiseSpec PiecewiseFacts2 Integral IntegralFacts SegIntSpec CumintFacts CumintFacts2 Std StdSpec StdFacts StdFacts2 StdFacts3 StdFacts4 StdFacts5 StdFacts6 StdFacts7 StdFacts8 StdFacts9.
From Verif Require Import MomSpec Mom MomFacts3 MStdSpec MStdFacts MStdFacts2 MStdFacts3.
Import List ListNotations.
Open Scope R_scope.

(** Laplace *)
Lemma laplace_cont lmbda mu (j : nat) (x : R) : continuous (fun x => (x - mu) ^ j * laplace_pdf lmbda mu x) x.
Proof.
  apply (continuous_mult (fun x => (x - mu) ^ j) (laplace_pdf lmbda mu)).
  - apply der_cont. auto_derive. auto.
  - unfold laplace_pdf.
    apply (continuous_comp (fun x => Rabs (x - mu)) (fun y => 0.5 / lmbda * exp (- y / lmbda))).
    + apply (continuous_comp (fun x => x - mu) Rabs); [apply der_cont; auto_derive; auto|apply continuous_Rabs].
    + apply der_cont. auto_derive. auto.
Qed.
Lemma laplace_power lmbda mu (j : nat) : 0 < lmbda ->
  has_val (fun x => (x - mu) ^ j * laplace_pdf lmbda mu x) m_infty p_infty ((lmbda ^ j + (- lmbda) ^ j) / 2 * Gamma (1 + INR j)).
Proof.
  intros L. pose proof (pos_INR j) as J. pose proof (gamma_int (1 + INR j) ltac:(lra)) as I0.
  eapply ii_val; [apply (ii_glue _ m_infty mu p_infty ((- lmbda) ^ j / 2 * Gamma (1 + INR j)) (lmbda ^ j / 2 * Gamma (1 + INR j)))|field].
  - pose proof I0 as I1.
    apply (ii_down _ _ _ (fun x => (mu - x) / lmbda) (fun _ => - / lmbda) m_infty mu) in I1.
    + eapply ii_ext; [|exact (ii_scal ((- lmbda) ^ j / 2) _ _ _ _ I1)].
      intros x (_ & X). simpl in X. cbv beta. unfold laplace_pdf, gamma_kernel. rewrite Rabs_left by lra.
      replace (1 + INR j - 1) with (INR j) by ring.
      assert (D : 0 < (mu - x) / lmbda) by (apply Rdiv_lt_0_compat; lra). rewrite Rpower_pow by auto.
      replace (- - (x - mu) / lmbda) with (- ((mu - x) / lmbda)) by (field; lra).
      replace ((x - mu) ^ j) with ((- lmbda) ^ j * ((mu - x) / lmbda) ^ j) by (rewrite <- Rpow_mult_distr; f_equal; field; lra).
      replace 0.5 with (/ 2) by lra. field. lra.
    + simpl. auto.
    + intros x (_ & X). simpl in X. assert (D : 0 < (mu - x) / lmbda) by (apply Rdiv_lt_0_compat; lra). splits.
      * split; simpl; auto.
      * auto_derive; auto. field. lra.
      * apply continuous_const.
      * apply gamma_kernel_cont; auto.
    + simpl. apply (lim_aff_mp _ (fun x => x) _ (mu / lmbda) (- / lmbda)); [intros; field; lra| |apply lim_id_m].
      apply Ropp_lt_gt_0_contravar, Rinv_0_lt_compat; auto.
    + simpl. apply (lim_at_right_0 (at_left mu)).
      * exists (mkposreal 1 Rlt_0_1). intros x _ X. apply Rdiv_lt_0_compat; lra.
      * apply (lim_l_cont (fun x => (mu - x) / lmbda) mu 0); [auto_derive; auto|field; lra].
  - pose proof I0 as I1.
    apply (ii_up _ _ _ (fun x => (x - mu) / lmbda) (fun _ => / lmbda) mu p_infty) in I1.
    + eapply ii_ext; [|exact (ii_scal (lmbda ^ j / 2) _ _ _ _ I1)].
      intros x (X & _). simpl in X. cbv beta. unfold laplace_pdf, gamma_kernel. rewrite Rabs_pos_eq by lra.
      replace (1 + INR j - 1) with (INR j) by ring.
      assert (D : 0 < (x - mu) / lmbda) by (apply Rdiv_lt_0_compat; lra). rewrite Rpower_pow by auto.
      replace (- (x - mu) / lmbda) with (- ((x - mu) / lmbda)) by (field; lra).
      replace ((x - mu) ^ j) with (lmbda ^ j * ((x - mu) / lmbda) ^ j) by (rewrite <- Rpow_mult_distr; f_equal; field; lra).
      replace 0.5 with (/ 2) by lra. field. lra.
    + simpl. auto.
    + intros x (X & _). simpl in X. assert (D : 0 < (x - mu) / lmbda) by (apply Rdiv_lt_0_compat; lra). splits.
      * split; simpl; auto.
      * auto_derive; auto. field. lra.
      * apply continuous_const.
      * apply gamma_kernel_cont; auto.
    + simpl. apply lim_shift; auto.
    + simpl. apply (lim_aff_pp _ (fun x => x) _ (- mu / lmbda) (/ lmbda)); [intros; field; lra|apply Rinv_0_lt_compat; auto|apply lim_id_p].
  - intros x _. apply laplace_cont.
Qed.
Lemma laplace_moments eps lmbda mu : 0 < lmbda -> has_moments (laplace_init eps lmbda mu) mu (2 * lmbda ^ 2).
Proof.
  intros L. apply (moments_of _ (laplace_pdf lmbda mu) m_infty p_infty).
  - unfold laplace_init. rewrite (proj2 (rlt_true _ _) L). cbv zeta. apply pieces_add; [carr; lra|simpl; auto].
  - pose proof (ii_plus _ _ _ _ _ _ (ii_scal mu _ _ _ _ (laplace_power lmbda mu 0 L)) (laplace_power lmbda mu 1 L)) as K.
    eapply ii_val; [eapply ii_ext; [|exact K]|].
    + intros x X. simpl. ring.
    + simpl. rewrite Rplus_0_r, Gamma_1. field.
  - eapply ii_val; [apply (laplace_power lmbda mu 2 L)|].
    replace (1 + INR 2) with (1 + 1 + 1) by (simpl; ring). rewrite !Gamma_succ, Gamma_1 by lra. simpl. field.
Qed.

(** Pareto *)
Lemma pareto_power alpha xmin (j : nat) : INR j < alpha -> 0 < xmin ->
  has_val (fun x => x ^ j * pareto_pdf alpha xmin x) xmin p_infty (alpha * xmin ^ j / (alpha - INR j)).
Proof.
  intros A X0. pose proof (pos_INR j) as J. set (n := INR j) in *.
  set (H := fun x => - (alpha * Rpower xmin alpha / (alpha - n)) * exp (- (alpha - n) * ln x)).
  apply (ii_ftc _ H xmin p_infty (H xmin) 0); simpl; auto.
  - intros x (X & _). simpl in X. unfold H. auto_derive; [lra|].
    unfold pareto_pdf. destruct (rltP x xmin); [lra|]. rewrite <- (Rpower_pow j x) by lra. fold n. unfold Rpower.
    replace (- (alpha - n) * ln x) with (n * ln x + - ((alpha + 1) * ln x) + ln x) by ring.
    rewrite !exp_plus, exp_Ropp, (exp_ln x) by lra. field. pose proof (exp_pos ((alpha + 1) * ln x)). splits; lra.
  - intros x X. apply (loc_cont _ (fun x => x ^ j * (alpha * Rpower xmin alpha / Rpower x (alpha + 1))) xmin p_infty x X).
    + intros y (Y & _). simpl in Y. unfold pareto_pdf. destruct (rltP y xmin); [lra|auto].
    + destruct X as (X & _). simpl in X. apply der_cont. unfold Rpower. auto_derive. splits; try lra. apply Rgt_not_eq, exp_pos.
  - apply lim_r_cont; [|auto]. unfold H. auto_derive. lra.
  - unfold H. apply (lim_der (Rbar_locally p_infty) (fun y => - (alpha * Rpower xmin alpha / (alpha - n)) * y) (fun x => exp (- (alpha - n) * ln x)) 0); [auto_derive; auto|ring|].
    apply (lim_exp_m (Rbar_locally p_infty)). apply (lim_aff_pm _ ln _ 0 (- (alpha - n))); [intros; ring|lra|apply lim_ln_p].
  - unfold H. rewrite <- (Rpower_pow j xmin) by auto. fold n. unfold Rpower.
    replace (- (alpha - n) * ln xmin) with (n * ln xmin + - (alpha * ln xmin)) by ring. rewrite exp_plus, exp_Ropp. field.
    pose proof (exp_pos (alpha * ln xmin)). splits; lra.
Qed.
Lemma pareto_pieces eps alpha xmin : 0 < alpha -> 0 < xmin -> pieces (pareto_init eps alpha xmin) (pareto_pdf alpha xmin) xmin p_infty.
Proof.
  intros A X0. unfold pareto_init. rewrite (proj2 (rlt_true _ _) A), (proj2 (rlt_true _ _) X0). cbv zeta. cbn [andb].
  apply pieces_add; [carr; lra|simpl; auto].
Qed.
Lemma pareto_mean eps alpha xmin : 1 < alpha -> 0 < xmin -> has_mean (pareto_init eps alpha xmin) (alpha * xmin / (alpha - 1)).
Proof.
  intros A X0. apply (mean_of _ (pareto_pdf alpha xmin) xmin p_infty); [apply pareto_pieces; lra|].
  eapply ii_val; [eapply ii_ext; [|apply (pareto_power alpha xmin 1); simpl; lra]|].
  - intros x X. simpl. ring.
  - simpl. f_equal. ring.
Qed.
Lemma pareto_moments eps alpha xmin : 2 < alpha -> 0 < xmin ->
  has_moments (pareto_init eps alpha xmin) (alpha * xmin / (alpha - 1)) (alpha * xmin ^ 2 / ((alpha - 1) ^ 2 * (alpha - 2))).
Proof.
  intros A X0. apply (moments_raw _ (pareto_pdf alpha xmin) xmin p_infty _ _ (alpha * xmin ^ 2 / (alpha - 2))); [apply pareto_pieces; lra| | | |field; lra].
  - eapply ii_val; [eapply ii_ext; [|apply (pareto_power alpha xmin 0); simpl; lra]|].
    + intros x X. simpl. ring.
    + simpl. field. lra.
  - eapply ii_val; [eapply ii_ext; [|apply (pareto_power alpha xmin 1); simpl; lra]|].
    + intros x X. simpl. ring.
    + simpl. f_equal. ring.
  - eapply ii_val; [apply (pareto_power alpha xmin 2); simpl; lra|]. simpl. replace (1 + 1) with 2 by ring. auto.
Qed.

(** Student *)
Lemma lim_student df (e : R) (F : (R -> Prop) -> Prop) {FF : Filter F} : 0 < df -> 0 < e ->
  filterlim Rabs F (Rbar_locally p_infty) -> filterlim (fun x => Rpower (1 + x ^ 2 / df) (- e)) F (locally 0).
Proof.
  intros D E0 L. unfold Rpower. apply (lim_exp_m F).
  apply (lim_aff_pm _ (fun x => ln (1 + x ^ 2 / df)) _ 0 (- e)); [intros; ring|lra|].
  apply (filterlim_comp _ _ _ (fun x => 1 + x ^ 2 / df) ln _ (Rbar_locally p_infty)); [|apply lim_ln_p].
  intros P (M & HM). assert (U : F (fun x => Rmax 1 (Rabs M * df) < Rabs x)) by (apply (L (fun y => _ < y)); exists (Rmax 1 (Rabs M * df)); auto).
  unfold filtermap. revert U. apply filter_imp. intros x X. apply HM.
  pose proof (Rmax_l 1 (Rabs M * df)). pose proof (Rmax_r 1 (Rabs M * df)).
  assert (x ^ 2 = Rabs x * Rabs x) by (rewrite <- Rabs_mult, Rabs_pos_eq; [ring|apply Rle_0_sqr]).
  assert (Rabs x <= x ^ 2) by nra.
  assert (Rabs M * df / df <= x ^ 2 / df) by (apply Rmult_le_compat_r; [apply Rlt_le, Rinv_0_lt_compat; auto|lra]).
  replace (Rabs M * df / df) with (Rabs M) in H3 by (field; lra). pose proof (Rle_abs M). lra.
Qed.
Lemma lim_student_x df (e : R) (F : (R -> Prop) -> Prop) {FF : Filter F} : 0 < df -> / 2 < e ->
  filterlim Rabs F (Rbar_locally p_infty) -> filterlim (fun x => x * Rpower (1 + x ^ 2 / df) (- e)) F (locally 0).
Proof.
  intros D E0 L. apply (filterlim_norm_zero (U := R) (V := R_NormedModule)).
  assert (B : filterlim (fun x => sqrt df * Rpower (1 + x ^ 2 / df) (- (e - / 2))) F (locally 0)).
  { apply (lim_der F (fun y => sqrt df * y) (fun x => Rpower (1 + x ^ 2 / df) (- (e - / 2))) 0); [auto_derive; auto|ring|apply lim_student; auto; lra]. }
  apply (lim_squeeze F _ _) with (2 := B). apply filter_forall. intros x. unfold norm; simpl; unfold abs; simpl.
  split; [apply Rabs_pos|]. rewrite Rabs_mult. rewrite (Rabs_pos_eq (Rpower _ _)) by (apply Rlt_le, exp_pos).
  pose proof (student_base df x D) as SB. simpl in SB. set (b := 1 + x * (x * 1) / df) in *.
  replace (- (e - / 2)) with (- e + / 2) by ring. rewrite Rpower_plus, Rpower_sqrt by auto.
  assert (A : Rabs x <= sqrt df * sqrt b).
  { rewrite <- sqrt_mult by lra. rewrite <- sqrt_Rsqr_abs. apply sqrt_le_1_alt. unfold Rsqr, b. 
    replace (df * (1 + x * (x * 1) / df)) with (df + x * x) by (field; lra). lra. }
  pose proof (exp_pos (- e * ln b)) as P0. fold (Rpower b (- e)) in P0. nra.
Qed.
Lemma filterlim_abs_p : filterlim Rabs (Rbar_locally p_infty) (Rbar_locally p_infty).
Proof. apply (filterlim_Rabs p_infty). Qed.
Lemma filterlim_abs_m : filterlim Rabs (Rbar_locally m_infty) (Rbar_locally p_infty).
Proof. apply (filterlim_Rabs m_infty). Qed.

Lemma student_val df : 0 < df -> has_val (student_kernel df) m_infty p_infty (student_integral df).
Proof. intros D. destruct (student_prim df D) as (G & P). rewrite (student_int_prim df G P). apply ii_prim; auto. Qed.
Lemma student_mean_val df : 1 < df -> has_val (fun x => x * student_kernel df x) m_infty p_infty 0.
Proof.
  intros D.
  set (H := fun x => - (df / (df - 1)) * Rpower (1 + x ^ 2 / df) (- ((df - 1) / 2))).
  apply (ii_ftc _ H m_infty p_infty 0 0); simpl at_r; simpl at_l; auto; [simpl; auto| | | | |ring].
  - intros x _. pose proof (student_base df x ltac:(lra)) as SB. unfold H, student_kernel, Rpower.
    auto_derive; [simpl in *; lra|]. simpl in SB.
    replace (1 + x * (x * 1) / df) with (1 + x * (x * 1) * / df) by (unfold Rdiv; ring).
    change (1 + x * (x * 1) / df) with (1 + x * (x * 1) * / df) in SB. simpl.
    replace (1 + x * (x * 1) / df) with (1 + x * (x * 1) * / df) by (unfold Rdiv; ring). set (b := 1 + x * (x * 1) * / df) in *.
    replace (- ((df + 1) / 2) * ln b) with (- ((df - 1) / 2) * ln b + - ln b) by field. 
    rewrite exp_plus, (exp_Ropp (ln b)), exp_ln by auto. field. splits; lra.
  - intros x _. pose proof (student_base df x ltac:(lra)) as SB. apply der_cont. unfold student_kernel, Rpower. auto_derive. simpl in *; lra.
  - apply (lim_der (Rbar_locally m_infty) (fun y => - (df / (df - 1)) * y) (fun x => Rpower (1 + x ^ 2 / df) (- ((df - 1) / 2))) 0); [auto_derive; auto|ring|].
    apply (lim_student df ((df - 1) / 2) (Rbar_locally m_infty)); [lra|lra|apply filterlim_abs_m].
  - apply (lim_der (Rbar_locally p_infty) (fun y => - (df / (df - 1)) * y) (fun x => Rpower (1 + x ^ 2 / df) (- ((df - 1) / 2))) 0); [auto_derive; auto|ring|].
    apply (lim_student df ((df - 1) / 2) (Rbar_locally p_infty)); [lra|lra|apply filterlim_abs_p].
Qed.
Lemma student_var_val df : 2 < df -> has_val (fun x => x ^ 2 * student_kernel df x) m_infty p_infty (df / (df - 2) * student_integral df).
Proof.
  intros D.
  set (H := fun x => x * Rpower (1 + x ^ 2 / df) (- ((df - 1) / 2))).
  assert (K : has_val (fun x => student_kernel df x + - ((df - 2) / df) * (x ^ 2 * student_kernel df x)) m_infty p_infty 0).
  { apply (ii_ftc _ H m_infty p_infty 0 0); simpl at_r; simpl at_l; auto; [simpl; auto| | | | |ring].
    - intros x _. pose proof (student_base df x ltac:(lra)) as SB. unfold H, student_kernel, Rpower.
      auto_derive; [simpl in *; lra|]. simpl in SB.
      replace (1 + x * (x * 1) / df) with (1 + x * (x * 1) * / df) by (unfold Rdiv; ring).
      change (1 + x * (x * 1) / df) with (1 + x * (x * 1) * / df) in SB. simpl. 
      replace (1 + x * (x * 1) / df) with (1 + x * (x * 1) * / df) by (unfold Rdiv; ring). set (b := 1 + x * (x * 1) * / df) in *.
      assert (BX : x * x = df * (b - 1)) by (unfold b; field; lra).
      replace (- ((df + 1) / 2) * ln b) with (- ((df - 1) / 2) * ln b + - ln b) by field. 
      rewrite exp_plus, (exp_Ropp (ln b)), exp_ln by auto. set (e := exp (- ((df - 1) / 2) * ln b)).
      replace (x * (x * 1)) with (x * x) by ring. rewrite BX.
      field_simplify_eq; [|splits; lra]. replace (x ^ 2) with (x * x) by ring. rewrite BX. ring.
    - intros x _. pose proof (student_base df x ltac:(lra)) as SB. apply der_cont. unfold student_kernel, Rpower. auto_derive. simpl in *; lra.
    - apply (lim_student_x df ((df - 1) / 2) (Rbar_locally m_infty)); [lra|lra|apply filterlim_abs_m].
    - apply (lim_student_x df ((df - 1) / 2) (Rbar_locally p_infty)); [lra|lra|apply filterlim_abs_p]. }
  pose proof (ii_plus _ _ _ _ _ _ (ii_scal (df / (df - 2)) _ _ _ _ (student_val df ltac:(lra))) (ii_scal (- (df / (df - 2))) _ _ _ _ K)) as Z.
  eapply ii_val; [eapply ii_ext; [|exact Z]|ring]. intros x _. cbv beta. field. lra.
Qed.
Lemma student_carried lg df x : 0 < df -> is_lstudent lg df -> / student_integral df * student_kernel df x = student_pdf lg df x.
Proof.
  intros D LS. unfold student_pdf. rewrite <- LS. unfold student_kernel, Rpower. pose proof PI_RGT_0 as HP.
  replace (sqrt (df * PI)) with (exp (0.5 * (ln df + ln PI))).
  - rewrite <- exp_plus, <- exp_Ropp, <- exp_plus. f_equal. ring.
  - rewrite <- ln_mult by auto. rewrite <- (Rpower_sqrt (df * PI)) by (apply Rmult_lt_0_compat; auto). unfold Rpower. f_equal. f_equal. lra.
Qed.
Lemma student_pieces lg eps df : 0 < df -> pieces (student_init lg eps df) (student_pdf lg df) m_infty p_infty.
Proof.
  intros D. unfold student_init. rewrite (proj2 (rlt_true _ _) D). cbv zeta.
  assert (I0 : 0 < sqrt (df / (df + 2))) by (apply sqrt_lt_R0, Rdiv_lt_0_compat; lra).
  apply pieces_add; [carr; lra|simpl; auto].
Qed.
Lemma student_mean lg eps df : 1 < df -> is_lstudent lg df -> has_mean (student_init lg eps df) 0.
Proof.
  intros D LS. apply (mean_of _ (student_pdf lg df) m_infty p_infty); [apply student_pieces; lra|].
  eapply ii_val; [eapply ii_ext; [|exact (ii_scal (/ student_integral df) _ _ _ _ (student_mean_val df D))]|ring].
  intros x _. cbv beta. rewrite <- (student_carried lg df x) by (auto; lra). ring.
Qed.
Lemma student_moments lg eps df : 2 < df -> is_lstudent lg df -> has_moments (student_init lg eps df) 0 (df / (df - 2)).
Proof.
  intros D LS. apply (moments_of _ (student_pdf lg df) m_infty p_infty); [apply student_pieces; lra| |].
  - eapply ii_val; [eapply ii_ext; [|exact (ii_scal (/ student_integral df) _ _ _ _ (student_mean_val df ltac:(lra)))]|ring].
    intros x _. cbv beta. rewrite <- (student_carried lg df x) by (auto; lra). ring.
  - pose proof (student_int_pos df ltac:(lra)) as W.
    eapply ii_val; [eapply ii_ext; [|exact (ii_scal (/ student_integral df) _ _ _ _ (student_var_val df D))]|field; lra].
    intros x _. cbv beta. rewrite <- (student_carried lg df x) by (auto; lra). ring.
Qed.
