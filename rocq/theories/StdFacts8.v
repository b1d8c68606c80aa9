(** Convergence of the gamma, beta and Student integrals. *)
From Coq Require Import Reals Lra List Bool Sorted Arith Lia.
From Coquelicot Require Import Coquelicot.
From Verif Require Import Base Seg Piecewise PiecewiseSpec PiecewiseFacts2 Integral IntegralFacts SegIntSpec CumintFacts CumintFacts2 Std StdSpec StdFacts StdFacts2 StdFacts3 StdFacts4 StdFacts5.
Import List ListNotations.
Open Scope R_scope.

Lemma dom_lim (F : (R -> Prop) -> Prop) {FF : ProperFilter F} (H G : R -> R) (D : R -> Prop) (l : R) :
  F D -> (forall u v, D u -> D v -> Rabs (H v - H u) <= Rabs (G v - G u)) ->
  filterlim G F (locally l) -> exists l' : R, filterlim H F (locally l').
Proof.
  intros FD B LG. apply (filterlim_locally_cauchy (U := R_CompleteSpace) (F := F) H).
  intros e. assert (E2 : 0 < e / 2) by (pose proof (cond_pos e); lra).
  exists (fun x => D x /\ ball l (mkposreal _ E2) (G x)). split.
  - apply filter_and; auto. apply (LG (fun y => ball l (mkposreal _ E2) y)). exists (mkposreal _ E2). auto.
  - intros u v (U1 & U2) (V1 & V2). specialize (B u v U1 V1).
    unfold ball in *; simpl in *; unfold AbsRing_ball, abs, minus, plus, opp in *; simpl in *.
    apply (Rle_lt_trans _ _ _ B). replace (G v - G u) with ((G v + - l) + - (G u + - l)) by ring.
    apply (Rle_lt_trans _ _ _ (Rabs_triang _ _)). rewrite Rabs_Ropp. lra.
Qed.

Section Dominated.
Variables (f g1 g2 : R -> R) (a b : Rbar) (c1 c2 : R) (G1 G2 : Rbar -> R).
Hypothesis C1 : RbarIn a b c1.
Hypothesis C2 : RbarIn a b c2.
Hypothesis CF : forall x : R, RbarIn a b x -> continuous f x.
Hypothesis NF : forall x : R, RbarIn a b x -> 0 <= f x.
Hypothesis P1 : prim g1 a c1 G1.
Hypothesis P2 : prim g2 c2 b G2.
Hypothesis B1 : forall x : R, RbarIn a c1 x -> f x <= g1 x.
Hypothesis B2 : forall x : R, RbarIn c2 b x -> f x <= g2 x.

Let H (x : R) := RInt f c1 x.

Lemma dom_ex (u v : R) : RbarIn a b u -> RbarIn a b v -> ex_RInt f u v.
Proof.
  intros (U1 & U2) (V1 & V2). apply (ex_RInt_continuous (V := R_CompleteNormedModule)). intros z Z. apply CF. split.
  - destruct (Rle_dec u v) as [L|L]; [rewrite Rmin_left in Z by lra; apply (Rbar_lt_le_trans a u z)|rewrite Rmin_right in Z by lra; apply (Rbar_lt_le_trans a v z)]; auto; simpl; lra.
  - destruct (Rle_dec u v) as [L|L]; [rewrite Rmax_right in Z by lra; apply (Rbar_le_lt_trans z v b)|rewrite Rmax_left in Z by lra; apply (Rbar_le_lt_trans z u b)]; auto; simpl; lra.
Qed.
Lemma dom_diff (u v : R) : RbarIn a b u -> RbarIn a b v -> H v - H u = RInt f u v.
Proof.
  intros U V. unfold H. rewrite <- (RInt_Chasles (V := R_CompleteNormedModule) f c1 u v); try apply dom_ex; auto.
  unfold plus; simpl. ring.
Qed.
Lemma dom_part (g : R -> R) (p q : Rbar) (G : Rbar -> R) : Rbar_le a p -> Rbar_le q b -> prim g p q G ->
  (forall x : R, RbarIn p q x -> f x <= g x) ->
  forall u v : R, RbarIn p q u -> RbarIn p q v -> Rabs (H v - H u) <= Rabs (G v - G u).
Proof.
  intros PA QB P B.
  assert (IN : forall x : R, RbarIn p q x -> RbarIn a b x).
  { intros x (X1 & X2). split; [apply (Rbar_le_lt_trans a p x)|apply (Rbar_lt_le_trans x q b)]; auto. }
  assert (K : forall u v : R, RbarIn p q u -> RbarIn p q v -> u <= v -> Rabs (H v - H u) <= Rabs (G v - G u)).
  { intros u v U V L. rewrite dom_diff by auto.
    assert (IG : is_RInt g u v (G v - G u)) by (apply (proj1 (proj2 P)); auto).
    assert (BT : forall x, u < x < v -> RbarIn p q x).
    { intros x X. destruct U, V. split; [apply (Rbar_lt_trans p u x)|apply (Rbar_lt_trans x v q)]; auto; simpl; lra. }
    assert (0 <= RInt f u v) by (apply RInt_ge_0; auto; apply dom_ex; auto).
    assert (RInt f u v <= RInt g u v) by (apply RInt_le; auto; [apply dom_ex; auto|eexists; apply IG]).
    rewrite (is_RInt_unique _ _ _ _ IG) in *. rewrite !Rabs_pos_eq; lra. }
  intros u v U V. destruct (Rle_dec u v) as [L|L]; [apply K; auto|].
  rewrite (Rabs_minus_sym (H v)), (Rabs_minus_sym (G v)). apply K; auto; lra.
Qed.

Lemma dominated : exists G, prim f a b G.
Proof.
  assert (L : Rbar_lt a b) by (destruct C1; eapply Rbar_lt_trans; eauto).
  destruct (dom_lim (at_r a) H (fun t => G1 (Finite t)) (fun x => RbarIn a c1 x) (G1 a)) as (la & Hla).
  - apply (at_r_between a c1). apply C1.
  - apply (dom_part g1); auto; [apply Rbar_le_refl|apply Rbar_lt_le; apply C1].
  - apply P1; [apply Rbar_le_refl|apply C1].
  - destruct (dom_lim (at_l b) H (fun t => G2 (Finite t)) (fun x => RbarIn c2 b x) (G2 b)) as (lb & Hlb).
    + apply (at_l_between c2 b). apply C2.
    + apply (dom_part g2); auto; [apply Rbar_lt_le; apply C2|apply Rbar_le_refl].
    + apply P2; [apply C2|apply Rbar_le_refl].
    + exists (ext_prim H a b la lb). apply prim_ftc; auto.
      intros x X. apply (is_derive_RInt (V := R_CompleteNormedModule) f H c1 x); auto.
      generalize (filter_and _ _ (CdfDerive.loc_gt x a (proj1 X)) (CdfDerive.loc_lt x b (proj2 X))). apply filter_imp.
      intros y Y. apply (RInt_correct (V := R_CompleteNormedModule)). apply dom_ex; auto.
Qed.
End Dominated.

Lemma exp_mono x y : x <= y -> exp x <= exp y.
Proof. intros [L| ->]; [left; apply exp_increasing; auto|lra]. Qed.

(** powers near 0 *)
Lemma prim_power (k w : R) : 0 < k -> exists G, prim (fun t => w * Rpower t (k - 1)) 0 1 G.
Proof.
  intros K. exists (ext_prim (fun t => w * Rpower t k / k) 0 1 0 (w * Rpower 1 k / k)). apply prim_ftc.
  - simpl; lra.
  - intros x (X & _). simpl in X. unfold Rpower. auto_derive; auto.
    replace ((k - 1) * ln x) with (k * ln x + - ln x) by ring. rewrite exp_plus, exp_Ropp, exp_ln by auto. field. lra.
  - intros x (X & _). simpl in X. apply der_cont. unfold Rpower. auto_derive. auto.
  - simpl. apply (lim_der (at_right 0) (fun y => w * y / k) (fun t => Rpower t k) 0); [auto_derive; auto|field; lra|].
    unfold Rpower. apply (lim_exp_m (at_right 0)). apply (lim_aff_mm _ ln _ 0 k); [intros; ring|auto|apply is_lim_ln_0].
  - apply lim_l_cont; auto. unfold Rpower. auto_derive. lra.
Qed.
(** the same at 1, reflected *)
Lemma prim_power_1 (k w : R) : 0 < k -> exists G, prim (fun t => w * Rpower (1 - t) (k - 1)) 0 1 G.
Proof.
  intros K. exists (ext_prim (fun t => - w * Rpower (1 - t) k / k) 0 1 (- w * Rpower (1 - 0) k / k) 0). apply prim_ftc.
  - simpl; lra.
  - intros x (_ & X). simpl in X. unfold Rpower. auto_derive; [lra|].
    replace ((k - 1) * ln (1 - x)) with (k * ln (1 - x) + - ln (1 - x)) by ring. rewrite exp_plus, exp_Ropp, exp_ln by lra.
    unfold Rminus. field. lra.
  - intros x (_ & X). simpl in X. apply der_cont. unfold Rpower. auto_derive. lra.
  - apply lim_r_cont; auto. unfold Rpower. auto_derive. lra.
  - simpl. apply (lim_der (at_left 1) (fun y => - w * y / k) (fun t => Rpower (1 - t) k) 0); [auto_derive; auto|field; lra|].
    unfold Rpower. apply (lim_exp_m (at_left 1)). apply (lim_aff_mm _ (fun t => ln (1 - t)) _ 0 k); [intros; ring|auto|].
    eapply (filterlim_comp _ _ _ (fun t => 1 - t) ln _ (at_right 0)); [|apply is_lim_ln_0].
    intros P (e & He). exists e. intros y By Hy. apply He; [|lra].
    unfold ball in *; simpl in *; unfold AbsRing_ball, abs, minus, plus, opp in *; simpl in *.
    replace (1 - y + - 0) with (- (y + - (1))) by ring. rewrite Rabs_Ropp. auto.
Qed.

Lemma prim_exp_half (w : R) : exists G, prim (fun t => w * exp (- t / 2)) 1 p_infty G.
Proof.
  exists (ext_prim (fun t => - 2 * w * exp (- t / 2)) 1 p_infty (- 2 * w * exp (- (1) / 2)) 0). apply prim_ftc.
  - simpl; auto.
  - intros x _. auto_derive; auto. unfold Rdiv. field.
  - intros x _. apply der_cont. auto_derive. auto.
  - apply lim_r_cont; auto. auto_derive. auto.
  - simpl. apply (lim_der (Rbar_locally p_infty) (fun y => - 2 * w * y) (fun t => exp (- t / 2)) 0); [auto_derive; auto|ring|].
    apply (lim_exp_m (Rbar_locally p_infty)). apply (lim_aff_pm _ (fun x => x) _ 0 (- / 2)); [intros; field|lra|apply lim_id_p].
Qed.

Lemma gamma_kernel_cont k (x : R) : 0 < x -> continuous (gamma_kernel k) x.
Proof. intros X. apply der_cont. unfold gamma_kernel, Rpower. auto_derive. auto. Qed.
Lemma gamma_kernel_pos k x : 0 < gamma_kernel k x.
Proof. apply Rmult_lt_0_compat; apply exp_pos. Qed.

Lemma gamma_prim k : 0 < k -> exists G, prim (gamma_kernel k) 0 p_infty G.
Proof.
  intros K. destruct (prim_power k 1 K) as (G1 & P1).
  set (m := Rmax (k - 1) 0 + 1). assert (M1 : k - 1 <= m /\ 0 < m).
  { unfold m. pose proof (Rmax_l (k - 1) 0). pose proof (Rmax_r (k - 1) 0). lra. }
  destruct (prim_exp_half (exp (m * ln (2 * m) - m))) as (G2 & P2).
  apply (dominated (gamma_kernel k) (fun t => 1 * Rpower t (k - 1)) (fun t => exp (m * ln (2 * m) - m) * exp (- t / 2)) 0 p_infty 1 1 G1 G2); auto.
  - split; simpl; auto; lra.
  - split; simpl; auto; lra.
  - intros x (X & _). apply gamma_kernel_cont; auto.
  - intros x _. apply Rlt_le, gamma_kernel_pos.
  - intros x (X & _). simpl in X. unfold gamma_kernel. rewrite (Rmult_comm 1).
    apply Rmult_le_compat_l; [apply Rlt_le, exp_pos|]. rewrite <- exp_0. left. apply exp_increasing. lra.
  - intros x (X & _). simpl in X. unfold gamma_kernel, Rpower. rewrite <- !exp_plus.
    assert (LN : 0 < ln x) by (rewrite <- ln_1; apply ln_increasing; lra).
    assert (I : (k - 1) * ln x <= m * ln x) by (apply Rmult_le_compat_r; lra).
    assert (J : ln (x / (2 * m)) <= x / (2 * m) - 1).
    { assert (Z : 0 < x / (2 * m)) by (apply Rdiv_lt_0_compat; lra). pose proof (exp_ineq1_le (ln (x / (2 * m)))) as E. rewrite exp_ln in E by auto. lra. }
    unfold Rdiv in J. rewrite ln_mult, ln_Rinv in J by (try apply Rinv_0_lt_compat; lra).
    assert (J2 : m * (ln x + - ln (2 * m)) <= m * (x * / (2 * m) - 1)) by (apply Rmult_le_compat_l; lra).
    replace (m * (x * / (2 * m) - 1)) with (x / 2 - m) in J2 by (field; lra).
    apply exp_mono. lra.
Qed.

(** powers between 1/2 and 1 are bounded *)
Lemma Rpower_bound s q : / 2 <= s <= 1 -> Rpower s q <= exp (Rabs q * ln 2).
Proof.
  intros S. unfold Rpower. apply exp_mono.
  assert (L0 : ln s <= 0) by (rewrite <- ln_1; destruct (proj2 S) as [L| ->]; [left; apply ln_increasing; lra|lra]).
  assert (L1 : - ln 2 <= ln s) by (rewrite <- ln_Rinv by lra; destruct (proj1 S) as [L| <-]; [left; apply ln_increasing; lra|lra]).
  apply (Rle_trans _ (Rabs (q * ln s))); [apply Rle_abs|]. rewrite Rabs_mult. apply Rmult_le_compat_l; [apply Rabs_pos|].
  rewrite Rabs_left1 by auto. lra.
Qed.

Lemma beta_kernel_cont p q (x : R) : 0 < x < 1 -> continuous (beta_kernel p q) x.
Proof. intros X. apply der_cont. unfold beta_kernel, Rpower. auto_derive. lra. Qed.
Lemma beta_kernel_pos p q x : 0 < beta_kernel p q x.
Proof. apply Rmult_lt_0_compat; apply exp_pos. Qed.

Lemma beta_prim p q : 0 < p -> 0 < q -> exists G, prim (beta_kernel p q) 0 1 G.
Proof.
  intros P QQ. destruct (prim_power p (exp (Rabs (q - 1) * ln 2)) P) as (G1 & P1).
  destruct (prim_power_1 q (exp (Rabs (p - 1) * ln 2)) QQ) as (G2 & P2).
  apply (dominated (beta_kernel p q) (fun t => exp (Rabs (q - 1) * ln 2) * Rpower t (p - 1)) (fun t => exp (Rabs (p - 1) * ln 2) * Rpower (1 - t) (q - 1)) 0 1 (/ 2) (/ 2) G1 G2).
  - split; simpl; lra.
  - split; simpl; lra.
  - intros x (X1 & X2). apply beta_kernel_cont; auto.
  - intros x _. apply Rlt_le, beta_kernel_pos.
  - apply (prim_sub _ 0 1); simpl; auto; lra.
  - apply (prim_sub _ 0 1); simpl; auto; lra.
  - intros x (X1 & X2). simpl in X1, X2. unfold beta_kernel. rewrite (Rmult_comm (exp _)). apply Rmult_le_compat_l; [apply Rlt_le, exp_pos|]. apply Rpower_bound. lra.
  - intros x (X1 & X2). simpl in X1, X2. unfold beta_kernel. apply Rmult_le_compat_r; [apply Rlt_le, exp_pos|]. apply Rpower_bound. lra.
Qed.

Lemma student_base df t : 0 < df -> 0 < 1 + t ^ 2 / df.
Proof. intros D. assert (0 <= t ^ 2 / df); [|lra]. apply Rmult_le_pos; [simpl; rewrite Rmult_1_r; apply Rle_0_sqr|apply Rlt_le, Rinv_0_lt_compat; auto]. Qed.
Lemma student_kernel_cont df (x : R) : 0 < df -> continuous (student_kernel df) x.
Proof. intros D. apply der_cont. unfold student_kernel, Rpower. pose proof (student_base df x D). auto_derive. simpl in H. auto. Qed.
Lemma student_kernel_pos df x : 0 < student_kernel df x.
Proof. apply exp_pos. Qed.

Lemma prim_tail_p (k w : R) : 0 < k -> exists G, prim (fun t => w * Rpower t (- (k + 1))) 1 p_infty G.
Proof.
  intros K. exists (ext_prim (fun t => - w * Rpower t (- k) / k) 1 p_infty (- w * Rpower 1 (- k) / k) 0). apply prim_ftc.
  - simpl; auto.
  - intros x (X & _). simpl in X. unfold Rpower. auto_derive; [lra|].
    replace (- (k + 1) * ln x) with (- k * ln x + - ln x) by ring. rewrite exp_plus, (exp_Ropp (ln x)), exp_ln by lra. field. lra.
  - intros x (X & _). simpl in X. apply der_cont. unfold Rpower. auto_derive. lra.
  - apply lim_r_cont; auto. unfold Rpower. auto_derive. lra.
  - simpl. apply (lim_der (Rbar_locally p_infty) (fun y => - w * y / k) (fun t => Rpower t (- k)) 0); [auto_derive; auto|field; lra|].
    unfold Rpower. apply (lim_exp_m (Rbar_locally p_infty)). apply (lim_aff_pm _ ln _ 0 (- k)); [intros; ring|lra|apply lim_ln_p].
Qed.
Lemma prim_tail_m (k w : R) : 0 < k -> exists G, prim (fun t => w * Rpower (- t) (- (k + 1))) m_infty (-1) G.
Proof.
  intros K. exists (ext_prim (fun t => w * Rpower (- t) (- k) / k) m_infty (-1) 0 (w * Rpower (- (-1)) (- k) / k)). apply prim_ftc.
  - simpl; auto.
  - intros x (_ & X). simpl in X. unfold Rpower. auto_derive; [lra|].
    replace (- (k + 1) * ln (- x)) with (- k * ln (- x) + - ln (- x)) by ring. rewrite exp_plus, (exp_Ropp (ln (- x))), exp_ln by lra. field. lra.
  - intros x (_ & X). simpl in X. apply der_cont. unfold Rpower. auto_derive. lra.
  - simpl. apply (lim_der (Rbar_locally m_infty) (fun y => w * y / k) (fun t => Rpower (- t) (- k)) 0); [auto_derive; auto|field; lra|].
    unfold Rpower. apply (lim_exp_m (Rbar_locally m_infty)). apply (lim_aff_pm _ (fun t => ln (- t)) _ 0 (- k)); [intros; ring|lra|].
    eapply filterlim_comp; [|apply lim_ln_p]. apply (lim_aff_mp _ (fun x => x) _ 0 (-1)); [intros; ring|lra|apply lim_id_m].
  - apply lim_l_cont; auto. unfold Rpower. auto_derive. lra.
Qed.

Lemma student_tail df x : 0 < df -> 1 < x -> student_kernel df x <= exp ((df + 1) / 2 * ln df) * Rpower x (- (df + 1)).
Proof.
  intros D X. unfold student_kernel, Rpower. rewrite <- exp_plus. apply exp_mono.
  assert (L : ln (x ^ 2 / df) <= ln (1 + x ^ 2 / df)).
  { left. apply ln_increasing; [apply Rdiv_lt_0_compat; auto; nra|lra]. }
  unfold Rdiv in L at 1. rewrite ln_mult, ln_Rinv in L by (try apply Rinv_0_lt_compat; auto; nra).
  assert (L2 : ln (x ^ 2) = 2 * ln x) by (simpl; rewrite Rmult_1_r, ln_mult by lra; ring). rewrite L2 in L.
  assert ((df + 1) / 2 * (2 * ln x + - ln df) <= (df + 1) / 2 * ln (1 + x ^ 2 / df)) by (apply Rmult_le_compat_l; lra). lra.
Qed.

Lemma student_prim df : 0 < df -> exists G, prim (student_kernel df) m_infty p_infty G.
Proof.
  intros D. destruct (prim_tail_m df (exp ((df + 1) / 2 * ln df)) D) as (G1 & P1).
  destruct (prim_tail_p df (exp ((df + 1) / 2 * ln df)) D) as (G2 & P2).
  apply (dominated (student_kernel df) (fun t => exp ((df + 1) / 2 * ln df) * Rpower (- t) (- (df + 1))) (fun t => exp ((df + 1) / 2 * ln df) * Rpower t (- (df + 1))) m_infty p_infty (-1) 1 G1 G2); auto.
  - split; simpl; auto.
  - split; simpl; auto.
  - intros x _. apply student_kernel_cont; auto.
  - intros x _. apply Rlt_le, student_kernel_pos.
  - intros x (_ & X). simpl in X. replace (student_kernel df x) with (student_kernel df (- x)) by (unfold student_kernel; f_equal; f_equal; f_equal; ring).
    apply student_tail; auto; lra.
  - intros x (X & _). simpl in X. apply student_tail; auto.
Qed.
