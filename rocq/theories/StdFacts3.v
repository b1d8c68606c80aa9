(** Textbook distribution functions of the named distributions, part 1. *)
From Coq Require Import Reals Lra List Bool Sorted.
From Coquelicot Require Import Coquelicot.
From Verif Require CdfDerive.
From Verif Require Import Base Seg Piecewise PiecewiseSpec PiecewiseFacts2 Integral IntegralFacts SegIntSpec CumintFacts CumintFacts2 Std StdSpec StdFacts2.
Import List ListNotations.
Open Scope R_scope.

Lemma init_ok eps l a b : Forall (fun s => isDirac s = false) l -> Forall wf_seg l -> path a l b ->
  exists q, addAll eps empty_pwf l = Ok q /\ segs q = l.
Proof.
  intros D W P. destruct (addAll_ordered eps l) as (q & H1 & H2 & _); eauto.
  - eapply path_ordered; eauto.
  - apply cont_sep. apply Forall_forall. intros s Hs. rewrite Forall_forall in D, W. split; auto.
Qed.

Lemma carries_split f l : Forall (carries f) l -> Forall (fun s => isDirac s = false) l /\ Forall wf_seg l.
Proof. intros C; split; (eapply Forall_impl; [|exact C]); intros s H; apply H. Qed.

Lemma law_add eps l f H a b F : l <> [] -> Forall (carries f) l -> path a l b ->
  Rbar_lt a b -> (forall x : R, RbarIn a b x -> 0 <= f x) ->
  (forall x : R, RbarIn a b x -> is_derive H x (f x)) ->
  (forall x : R, RbarIn a b x -> continuous f x) ->
  filterlim H (at_r a) (locally 0) -> filterlim H (at_l b) (locally 1) ->
  (forall x : R, F x = within a b H x) -> law (addAll eps empty_pwf l) a b F.
Proof.
  intros N C P L NN D CF La Lb HF. destruct (carries_split f l C) as (DD & WW).
  destruct (init_ok eps l a b DD WW P) as (q & E1 & E2).
  eapply (law_ftc _ l q f H a b F); eauto.
Qed.

(** plain pieces *)
Lemma carries_seg f (a b : R) : a < b -> carries f (Seg a b f).
Proof. intros H. repeat split; simpl; auto. discriminate. Qed.
Lemma carries_minf f (b : R) : carries f (MInfSeg b f).
Proof. repeat split; simpl; auto. discriminate. Qed.
Lemma carries_pinf f (a : R) : carries f (PInfSeg a f).
Proof. repeat split; simpl; auto. discriminate. Qed.
Lemma carries_lpole f (a b : R) : a < b -> carries f (PoleSeg a b f true).
Proof. intros H. repeat split; simpl; auto. discriminate. Qed.
Ltac carr := repeat match goal with
  | |- Forall _ (_ :: _) => apply Forall_cons
  | |- Forall _ [] => apply Forall_nil
  | |- carries _ (Seg _ _ _) => apply carries_seg
  | |- carries _ (MInfSeg _ _) => apply carries_minf
  | |- carries _ (PInfSeg _ _) => apply carries_pinf
  | |- carries _ (PoleSeg _ _ _ true) => apply carries_lpole
  end.

(** limits *)
Lemma lim_exp_m {T} (F : (T -> Prop) -> Prop) {FF : Filter F} (g : T -> R) :
  filterlim g F (Rbar_locally m_infty) -> filterlim (fun x => exp (g x)) F (locally 0).
Proof. intros H. eapply filterlim_comp; [exact H|]. apply is_lim_exp_m. Qed.
Lemma lim_exp_p {T} (F : (T -> Prop) -> Prop) {FF : Filter F} (g : T -> R) :
  filterlim g F (Rbar_locally p_infty) -> filterlim (fun x => exp (g x)) F (Rbar_locally p_infty).
Proof. intros H. eapply filterlim_comp; [exact H|]. apply is_lim_exp_p. Qed.
Lemma lim_cont {T} (F : (T -> Prop) -> Prop) {FF : Filter F} (h : R -> R) (g : T -> R) (l : R) :
  continuous h l -> filterlim g F (locally l) -> filterlim (fun x => h (g x)) F (locally (h l)).
Proof. intros C H. eapply filterlim_comp; [exact H|]. apply C. Qed.
Lemma lim_p {T} (F : (T -> Prop) -> Prop) {FF : Filter F} (g : T -> R) :
  filterlim g F (Rbar_locally p_infty) <-> forall M : R, F (fun x => M < g x).
Proof.
  split.
  - intros H M. apply (H (fun y => M < y)). exists M. auto.
  - intros H P (M & HM). unfold filtermap. eapply filter_imp; [|apply (H M)]. auto.
Qed.
Lemma lim_m {T} (F : (T -> Prop) -> Prop) {FF : Filter F} (g : T -> R) :
  filterlim g F (Rbar_locally m_infty) <-> forall M : R, F (fun x => g x < M).
Proof.
  split.
  - intros H M. apply (H (fun y => y < M)). exists M. auto.
  - intros H P (M & HM). unfold filtermap. eapply filter_imp; [|apply (H M)]. auto.
Qed.
Section Aff.
Context {T : Type} (F : (T -> Prop) -> Prop) {FF : Filter F}.
Variables (g h : T -> R) (c k : R).
Hypothesis E : forall x, h x = c + k * g x.
Lemma lim_aff_pp : 0 < k -> filterlim g F (Rbar_locally p_infty) -> filterlim h F (Rbar_locally p_infty).
Proof.
  intros K H. apply (lim_p F h). intros M. eapply filter_imp; [|apply (proj1 (lim_p F g) H ((M - c) / k))].
  intros x Hx. simpl in Hx. rewrite E. apply (Rmult_lt_compat_l k) in Hx; auto. replace (k * ((M - c) / k)) with (M - c) in Hx by (field; lra). lra.
Qed.
Lemma lim_aff_pm : k < 0 -> filterlim g F (Rbar_locally p_infty) -> filterlim h F (Rbar_locally m_infty).
Proof.
  intros K H. apply (lim_m F h). intros M. eapply filter_imp; [|apply (proj1 (lim_p F g) H ((M - c) / k))].
  intros x Hx. simpl in Hx. rewrite E. apply (Rmult_lt_compat_l (- k)) in Hx; [|lra]. replace (- k * ((M - c) / k)) with (c - M) in Hx by (field; lra). lra.
Qed.
Lemma lim_aff_mm : 0 < k -> filterlim g F (Rbar_locally m_infty) -> filterlim h F (Rbar_locally m_infty).
Proof.
  intros K H. apply (lim_m F h). intros M. eapply filter_imp; [|apply (proj1 (lim_m F g) H ((M - c) / k))].
  intros x Hx. simpl in Hx. rewrite E. apply (Rmult_lt_compat_l k) in Hx; auto. replace (k * ((M - c) / k)) with (M - c) in Hx by (field; lra). lra.
Qed.
Lemma lim_aff_mp : k < 0 -> filterlim g F (Rbar_locally m_infty) -> filterlim h F (Rbar_locally p_infty).
Proof.
  intros K H. apply (lim_p F h). intros M. eapply filter_imp; [|apply (proj1 (lim_m F g) H ((M - c) / k))].
  intros x Hx. simpl in Hx. rewrite E. apply (Rmult_lt_compat_l (- k)) in Hx; [|lra]. replace (- k * ((M - c) / k)) with (c - M) in Hx by (field; lra). lra.
Qed.
End Aff.
Lemma lim_id_p : filterlim (fun x : R => x) (Rbar_locally p_infty) (Rbar_locally p_infty).
Proof. apply filterlim_id. Qed.
Lemma lim_id_m : filterlim (fun x : R => x) (Rbar_locally m_infty) (Rbar_locally m_infty).
Proof. apply filterlim_id. Qed.
Lemma lim_ln_p : filterlim ln (Rbar_locally p_infty) (Rbar_locally p_infty).
Proof. apply is_lim_ln_p. Qed.
(** x - m tends to 0 from above *)
Lemma lim_shift (m s : R) : 0 < s -> filterlim (fun x => (x - m) / s) (at_right m) (at_right 0).
Proof.
  intros S P (e & He). unfold filtermap. simpl in *.
  exists (mkposreal (e * s) (Rmult_lt_0_compat _ _ (cond_pos e) S)). intros y By Hy. simpl in By.
  assert (0 < (y - m) / s) by (apply Rdiv_lt_0_compat; lra).
  apply He; auto. unfold ball in *; simpl in *; unfold AbsRing_ball, abs, minus, plus, opp in *; simpl in *.
  rewrite Rabs_pos_eq by lra. rewrite Rabs_pos_eq in By by lra.
  apply (Rmult_lt_reg_r s); auto. replace (((y - m) / s + - 0) * s) with (y + - m) by (field; lra). auto.
Qed.
Lemma lim_ln_shift (m s : R) : 0 < s -> filterlim (fun x => ln ((x - m) / s)) (at_right m) (Rbar_locally m_infty).
Proof. intros S. eapply filterlim_comp; [apply lim_shift; auto|]. apply is_lim_ln_0. Qed.
Lemma lim_ln_shift_p (m s : R) : 0 < s -> filterlim (fun x => ln ((x - m) / s)) (Rbar_locally p_infty) (Rbar_locally p_infty).
Proof.
  intros S. eapply filterlim_comp; [|apply lim_ln_p]. eapply (lim_aff_pp _ (fun x => x) _ (- m / s) (/ s)); [| |apply lim_id_p].
  - intros x. field. lra.
  - apply Rinv_0_lt_compat; auto.
Qed.
(** 1 - h and the like *)
Lemma lim_one_minus {T} (F : (T -> Prop) -> Prop) {FF : Filter F} (g : T -> R) (l l' : R) :
  l' = 1 - l -> filterlim g F (locally l) -> filterlim (fun x => 1 - g x) F (locally l').
Proof.
  intros -> H. apply (lim_cont F (fun y => 1 - y) g l); auto.
  apply (ex_derive_continuous (V := R_NormedModule) (fun y => 1 - y)). auto_derive. auto.
Qed.
Lemma lim_exp_0 {T} (F : (T -> Prop) -> Prop) {FF : Filter F} (g : T -> R) :
  filterlim g F (locally 0) -> filterlim (fun x => exp (- g x)) F (locally 1).
Proof.
  intros H. replace 1 with (exp (- 0)) by (rewrite Ropp_0; apply exp_0). apply (lim_cont F (fun y => exp (- y)) g 0); auto.
  apply (ex_derive_continuous (V := R_NormedModule) (fun y => exp (- y))). auto_derive. auto.
Qed.
Lemma der_cont (h : R -> R) (x : R) : ex_derive h x -> continuous h x.
Proof. apply (ex_derive_continuous (V := R_NormedModule) h). Qed.
Lemma loc_ext (f g : R -> R) (a b : Rbar) (x l : R) : RbarIn a b x -> (forall y : R, RbarIn a b y -> g y = f y) ->
  is_derive g x l -> is_derive f x l.
Proof.
  intros (X1 & X2) E D. apply (is_derive_ext_loc g); auto.
  generalize (filter_and _ _ (CdfDerive.loc_gt x a X1) (CdfDerive.loc_lt x b X2)). apply filter_imp.
  intros y (Y1 & Y2). apply E. split; auto.
Qed.
Lemma loc_cont (f g : R -> R) (a b : Rbar) (x : R) : RbarIn a b x -> (forall y : R, RbarIn a b y -> g y = f y) ->
  continuous g x -> continuous f x.
Proof.
  intros (X1 & X2) E C. apply (continuous_ext_loc _ g); auto.
  generalize (filter_and _ _ (CdfDerive.loc_gt x a X1) (CdfDerive.loc_lt x b X2)). apply filter_imp.
  intros y (Y1 & Y2). apply E. split; auto.
Qed.

Lemma lim_r_cont (H : R -> R) (a l : R) : ex_derive H a -> H a = l -> filterlim H (at_r a) (locally l).
Proof. intros C <-. apply filterlim_at_r_cont. apply der_cont; auto. Qed.
Lemma lim_l_cont (H : R -> R) (a l : R) : ex_derive H a -> H a = l -> filterlim H (at_l a) (locally l).
Proof. intros C <-. apply filterlim_at_l_cont. apply der_cont; auto. Qed.

Lemma lim_der {T} (F : (T -> Prop) -> Prop) {FF : Filter F} (h : R -> R) (g : T -> R) (l l' : R) :
  ex_derive h l -> h l = l' -> filterlim g F (locally l) -> filterlim (fun x => h (g x)) F (locally l').
Proof. intros D <- H. apply (lim_cont F h g l); auto. apply der_cont; auto. Qed.

(** exponential *)
Lemma expo_law eps lmbda : 0 < lmbda -> law (expo_init eps lmbda) 0 p_infty (expo_cdf lmbda).
Proof.
  intros L. unfold expo_init. cbv zeta.
  assert (E : forall x : R, RbarIn 0 p_infty x -> lmbda * exp (- lmbda * x) = expo_pdf lmbda x).
  { intros x (X & _). simpl in X. unfold expo_pdf. destruct (rltP x 0); [lra|auto]. }
  apply (law_add eps _ (expo_pdf lmbda) (fun x => 1 - exp (- (lmbda * x)))).
  - discriminate.
  - carr; lra.
  - simpl; auto.
  - simpl; auto.
  - intros x X. rewrite <- E by auto. apply Rlt_le, Rmult_lt_0_compat; auto. apply exp_pos.
  - intros x X. rewrite <- E by auto. auto_derive; auto. replace (- (lmbda * x)) with (- lmbda * x) by ring. ring.
  - intros x X. apply (loc_cont _ (fun x => lmbda * exp (- lmbda * x)) 0 p_infty); auto.
    apply der_cont. auto_derive. auto.
  - apply lim_r_cont; [auto_derive; auto|]. rewrite Rmult_0_r, Ropp_0, exp_0. ring.
  - simpl. apply (lim_one_minus _ _ 0); [ring|]. apply (lim_exp_m (Rbar_locally p_infty)).
    apply (lim_aff_pm _ (fun x => x) _ 0 (- lmbda)); [intros; ring|lra|apply lim_id_p].
  - reflexivity.
Qed.

(** Pareto *)
Lemma pareto_law eps alpha xmin : 0 < alpha -> 0 < xmin -> law (pareto_init eps alpha xmin) xmin p_infty (pareto_cdf alpha xmin).
Proof.
  intros A X0. unfold pareto_init. cbv zeta. rewrite (proj2 (rlt_true 0 alpha) A), (proj2 (rlt_true 0 xmin) X0). simpl andb. cbv iota.
  assert (E : forall x : R, RbarIn xmin p_infty x -> alpha * Rpower xmin alpha / Rpower x (alpha + 1) = pareto_pdf alpha xmin x).
  { intros x (X & _). simpl in X. unfold pareto_pdf. destruct (rltP x xmin); [lra|auto]. }
  assert (EH : forall x : R, 0 < x -> Rpower (xmin / x) alpha = exp (alpha * ln xmin - alpha * ln x)).
  { intros x X. unfold Rpower. unfold Rdiv. rewrite ln_mult by (auto; apply Rinv_0_lt_compat; auto). rewrite ln_Rinv by auto. f_equal. ring. }
  apply (law_add eps _ (pareto_pdf alpha xmin) (fun x => 1 - Rpower (xmin / x) alpha)).
  - discriminate.
  - carr; lra.
  - simpl; auto.
  - simpl; auto.
  - intros x X. rewrite <- E by auto. apply Rlt_le. apply Rdiv_lt_0_compat; [apply Rmult_lt_0_compat; auto|]; apply exp_pos.
  - intros x X. rewrite <- E by auto. destruct X as (X & _). simpl in X.
    apply (loc_ext _ (fun x => 1 - exp (alpha * ln xmin - alpha * ln x)) 0 p_infty); [split; simpl; auto; lra| |].
    + intros y (Y & _). simpl in Y. rewrite EH; auto.
    + auto_derive; [lra|]. unfold Rpower. replace ((alpha + 1) * ln x) with (alpha * ln x + ln x) by ring. rewrite (exp_plus (alpha * ln x) (ln x)), (exp_ln x) by lra.
      try replace (alpha * ln xmin - alpha * ln x) with (alpha * ln xmin + - (alpha * ln x)) by ring.
      rewrite exp_plus, exp_Ropp. field. split; [lra|apply Rgt_not_eq; apply exp_pos].
  - intros x X. pose proof X as (X1 & _). simpl in X1.
    apply (loc_cont _ (fun x => alpha * Rpower xmin alpha / Rpower x (alpha + 1)) xmin p_infty); auto.
    apply der_cont. unfold Rpower. auto_derive. split; [lra|]. split; auto. apply Rgt_not_eq; apply exp_pos.
  - apply lim_r_cont.
    + unfold Rpower. auto_derive. split; [lra|]. split; auto. apply Rdiv_lt_0_compat; lra.
    + unfold Rdiv. rewrite Rinv_r by lra. unfold Rpower. rewrite ln_1, Rmult_0_r, exp_0. ring.
  - simpl. apply (lim_one_minus _ _ 0); [ring|].
    apply (filterlim_ext_loc (fun x => exp (alpha * ln xmin - alpha * ln x))).
    { exists 0. intros x X. symmetry. apply EH; auto. }
    apply (lim_exp_m (Rbar_locally p_infty)).
    apply (lim_aff_pm _ ln _ (alpha * ln xmin) (- alpha)); [intros; ring|lra|apply lim_ln_p].
  - reflexivity.
Qed.

(** uniform *)
Lemma uniform_law eps (a b : R) : a < b -> law (uniform_init eps a b) a b (uniform_cdf a b).
Proof.
  intros L. unfold uniform_init. destruct (reqP (b - a) 0); [lra|].
  apply (law_add eps _ (fun _ => 1 / (b - a)) (fun x => (x - a) / (b - a))).
  - discriminate.
  - apply Forall_cons; [|apply Forall_nil]. repeat split; simpl; auto. discriminate.
  - simpl; auto.
  - simpl; auto.
  - intros x X. apply Rlt_le, Rdiv_lt_0_compat; lra.
  - intros x X. auto_derive; auto; try (field; lra).
  - intros x X. apply continuous_const.
  - apply lim_r_cont; [auto_derive; auto|]. field. lra.
  - apply lim_l_cont; [auto_derive; auto|]. field. lra.
  - reflexivity.
Qed.

Lemma lim_atan_p : filterlim atan (Rbar_locally p_infty) (locally (PI / 2)).
Proof.
  intros P (e & He). pose proof PI_RGT_0 as HP. destruct e as (e & Hp). simpl in He.
  set (d := Rmin (e / 2) (PI / 4)). assert (D : 0 < d <= PI / 4) by (split; [apply Rmin_pos; lra|apply Rmin_r]).
  assert (D2 : d < e) by (apply (Rle_lt_trans _ (e / 2)); [apply Rmin_l|lra]).
  exists (tan (PI / 2 - d)). intros x X. apply He.
  assert (A : PI / 2 - d < atan x) by (rewrite <- (atan_tan (PI / 2 - d)) by lra; apply atan_increasing; auto).
  pose proof (atan_bound x) as (_ & B).
  unfold ball; simpl; unfold AbsRing_ball, abs, minus, plus, opp; simpl. apply Rabs_def1; lra.
Qed.
Lemma lim_atan_m : filterlim atan (Rbar_locally m_infty) (locally (- PI / 2)).
Proof.
  intros P (e & He). destruct (lim_atan_p (fun y => P (- y))) as (M & HM).
  - exists e. intros y Hy. apply He. unfold ball in *; simpl in *; unfold AbsRing_ball, abs, minus, plus, opp in *; simpl in *.
    replace (- y + - (- PI / 2)) with (- (y + - (PI / 2))) by field. rewrite Rabs_Ropp. auto.
  - exists (- M). intros x X. rewrite <- (Ropp_involutive (atan x)), <- atan_opp. apply HM. lra.
Qed.

(** Cauchy *)
Lemma cauchy_law eps gamma center : 0 < gamma -> law (cauchy_init eps gamma center) m_infty p_infty (cauchy_cdf gamma center).
Proof.
  intros G. unfold cauchy_init. cbv zeta. pose proof PI_RGT_0 as HP.
  assert (S : forall x : R, 0 < gamma * gamma + (x - center) * (x - center)).
  { intros x. pose proof (Rle_0_sqr (x - center)) as K. unfold Rsqr in K. pose proof (Rmult_lt_0_compat _ _ G G). lra. }
  assert (M : forall x : R, 0 < PI * (gamma * gamma + (x - center) * (x - center))) by (intros; apply Rmult_lt_0_compat; auto).
  apply (law_add eps _ (cauchy_pdf gamma center) (cauchy_cdf gamma center)).
  - discriminate.
  - carr; lra.
  - simpl; auto.
  - simpl; auto.
  - intros x X. apply Rlt_le, Rdiv_lt_0_compat; auto.
  - intros x X. unfold cauchy_cdf, cauchy_pdf. specialize (S x).
    auto_derive; auto. field. splits; try lra.
  - intros x X. apply der_cont. unfold cauchy_pdf. specialize (M x). auto_derive. lra.
  - simpl. unfold cauchy_cdf.
    assert (K : filterlim (fun x => atan ((x - center) / gamma)) (Rbar_locally m_infty) (locally (- PI / 2))).
    { eapply filterlim_comp; [|apply lim_atan_m].
      apply (lim_aff_mm _ (fun x => x) _ (- center / gamma) (/ gamma)); [intros; field; lra|apply Rinv_0_lt_compat; auto|apply lim_id_m]. }
    apply (lim_der _ (fun y => 1 / 2 + y / PI) _ (- PI / 2)); auto; [auto_derive; auto|field; lra].
  - simpl. unfold cauchy_cdf.
    assert (K : filterlim (fun x => atan ((x - center) / gamma)) (Rbar_locally p_infty) (locally (PI / 2))).
    { eapply filterlim_comp; [|apply lim_atan_p].
      apply (lim_aff_pp _ (fun x => x) _ (- center / gamma) (/ gamma)); [intros; field; lra|apply Rinv_0_lt_compat; auto|apply lim_id_p]. }
    apply (lim_der _ (fun y => 1 / 2 + y / PI) _ (PI / 2)); auto; [auto_derive; auto|field; lra].
  - intros x. unfold within. destruct (Rbar_le_dec x m_infty) as [H|H]; [destruct H|].
    destruct (Rbar_le_dec p_infty x) as [H'|H']; [destruct H'|]. auto.
Qed.
