(** Declared singularities of the named distributions. *)
From Coq Require Import Reals Lra Lia List Bool Sorted Arith.
From Coquelicot Require Import Coquelicot.
From Verif Require Import Base Seg Piecewise PiecewiseSpec Integral SegIntSpec Std StdSpec StdPoleSpec.
From Verif Require Import PiecewiseFacts2 IntegralFacts CumintFacts CumintFacts2 StdFacts StdFacts2 StdFacts3 StdFacts4 StdPoleFacts.
Import List ListNotations.
Open Scope R_scope.

Lemma normal_pd eps mu sigma : 0 < sigma -> poles_declared (normal_init eps mu sigma).
Proof.
  intros S. unfold normal_init. destruct (rleP sigma 0); [lra|]. cbv zeta.
  assert (B : forall a b, bounded_on (normal_pdf mu sigma) a b).
  { intros a b. apply (bounded_exp _ (fun x => - ((x - mu) * (x - mu) * (0.5 / (sigma * sigma)))) (1 / (sigma * sqrt (2 * PI))) 0).
    - apply Rlt_le, Rdiv_lt_0_compat; [lra|]. apply Rmult_lt_0_compat; auto. apply sqrt_lt_R0. pose proof PI_RGT_0. lra.
    - intros x _ _. right. split; [reflexivity|].
      assert (0 <= (x - mu) * (x - mu) * (0.5 / (sigma * sigma))); [|lra].
      apply Rmult_le_pos; [apply Rle_0_sqr|]. apply Rlt_le, Rdiv_lt_0_compat; [lra|]. apply Rmult_lt_0_compat; auto. }
  pd_shape m_infty p_infty; [apply tame_minf|apply tame_seg|apply tame_pinf]; auto.
Qed.

Lemma uniform_pd eps a b : a < b -> poles_declared (uniform_init eps a b).
Proof.
  intros H. unfold uniform_init. destruct (reqP (b - a) 0); [lra|]. pd_shape (Finite a) (Finite b). apply tame_const.
Qed.

Lemma trapz_pd eps a b c d : a <= b -> b <= c -> c <= d -> a < d -> poles_declared (trapz_init eps a b c d).
Proof.
  intros AB BC CD AD. unfold trapz_init. destruct (reqP (d + c - (b + a)) 0); [lra|]. cbv zeta. set (u := 2 / (d + c - (b + a))).
  assert (U : 0 < u) by (apply Rdiv_lt_0_compat; lra).
  assert (B1 : a < b -> bounded_on (lin_fun1 a b u) a b).
  { intros H. apply (bounded_pos _ u). intros x X1 X2. simpl in *. unfold lin_fun1. split.
    - apply Rmult_le_pos; [apply Rmult_le_pos; lra|left; apply Rinv_0_lt_compat; lra].
    - apply Rle_div_l; [lra|]. apply Rmult_le_compat_l; lra. }
  assert (B2 : c < d -> bounded_on (lin_fun2 c d u) c d).
  { intros H. apply (bounded_pos _ u). intros x X1 X2. simpl in *. unfold lin_fun2. split.
    - apply Rmult_le_pos; [apply Rmult_le_pos; lra|left; apply Rinv_0_lt_compat; lra].
    - apply Rle_div_l; [lra|]. apply Rmult_le_compat_l; lra. }
  destruct (rltP a b) as [H1|H1], (rltP b c) as [H2|H2], (rltP c d) as [H3|H3]; cbn [app]; try (exfalso; lra);
    repeat match goal with H : ~ ?x < ?y, K : ?x <= ?y |- _ => assert (x = y) by lra; clear H K end; subst;
    match goal with |- poles_declared (addAll _ _ ?l) => eapply (pd_add eps l) end.
  all: try discriminate; try (repeat constructor; simpl; auto; lra).
  all: try (repeat split; simpl; auto; fail).
  all: repeat apply Forall_cons; try apply Forall_nil; try apply tame_const; try (apply tame_seg; auto).
Qed.

Lemma cauchy_pd eps gamma center : 0 < gamma -> poles_declared (cauchy_init eps gamma center).
Proof.
  intros G. unfold cauchy_init. cbv zeta. pose proof PI_RGT_0 as HP.
  assert (B : forall a b, bounded_on (cauchy_pdf gamma center) a b).
  { intros a b. apply (bounded_pos _ (gamma / (PI * (gamma * gamma)))). intros x _ _. unfold cauchy_pdf.
    assert (0 < gamma * gamma) by (apply Rmult_lt_0_compat; auto). pose proof (Rle_0_sqr (x - center)) as Q. unfold Rsqr in Q.
    assert (0 < PI * (gamma * gamma)) by (apply Rmult_lt_0_compat; auto).
    assert (PI * (gamma * gamma) <= PI * (gamma * gamma + (x - center) * (x - center))) by (apply Rmult_le_compat_l; lra).
    split; [apply Rlt_le, Rdiv_lt_0_compat; lra|]. apply Rmult_le_compat_l; [lra|]. apply Rinv_le_contravar; auto. }
  pd_shape m_infty p_infty; [apply tame_minf|apply tame_seg|apply tame_pinf]; auto.
Qed.

(** gamma-like exponents *)
Lemma gamma_bound k theta c : 0 < theta -> 0 <= c -> 0 < c \/ 1 <= k -> exists M, forall x, c < x -> (k - 1) * ln x - x / theta <= M.
Proof.
  intros T C [HC|HK].
  - destruct (Rle_dec k 1) as [K|K].
    + exists ((k - 1) * ln c). intros x X. assert (ln c <= ln x) by (apply ln_le_mono; lra).
      assert (0 < x / theta) by (apply Rdiv_lt_0_compat; lra). nra.
    + set (m := (k - 1) * theta). assert (0 < m) by (apply Rmult_lt_0_compat; lra).
      exists ((k - 1) * (ln m - 1)). intros x X.
      assert (L : ln x = ln (x / m) + ln m). { rewrite <- ln_mult; auto. f_equal. field. lra. apply Rdiv_lt_0_compat; lra. }
      assert (ln (x / m) <= x / m - 1) by (apply ln_le_minus; apply Rdiv_lt_0_compat; lra).
      assert (E : x / theta = (k - 1) * (x / m)) by (unfold m; field; lra). rewrite L, E. nra.
  - destruct (Req_dec k 1) as [->|N].
    + exists 0. intros x X. assert (0 < x / theta) by (apply Rdiv_lt_0_compat; lra). lra.
    + set (m := (k - 1) * theta). assert (0 < m) by (apply Rmult_lt_0_compat; lra).
      exists ((k - 1) * (ln m - 1)). intros x X.
      assert (L : ln x = ln (x / m) + ln m). { rewrite <- ln_mult; auto. f_equal. field. lra. apply Rdiv_lt_0_compat; lra. }
      assert (ln (x / m) <= x / m - 1) by (apply ln_le_minus; apply Rdiv_lt_0_compat; lra).
      assert (E : x / theta = (k - 1) * (x / m)) by (unfold m; field; lra). rewrite L, E. nra.
Qed.

Lemma gamma_pd lg eps k theta : 0 < k -> 0 < theta -> poles_declared (gamma_init lg eps k theta).
Proof.
  intros K T. unfold gamma_init. rewrite (proj2 (rlt_true _ _) K), (proj2 (rlt_true _ _) T). cbn [andb]. cbv zeta.
  assert (B : forall (c : R) b, 0 <= c -> 0 < c \/ 1 <= k -> bounded_on (gamma_f lg k theta) c b).
  { intros c b C H. destruct (gamma_bound k theta c T C H) as (M & HM).
    apply (bounded_exp _ (fun x => gamma_log_pdf lg k theta x) 1 (M - (lg k + k * ln theta))); [lra|].
    intros x X _. simpl in X. right. unfold gamma_f, gamma_pdf. destruct (rltP x 0); [lra|]. destruct (reqP x 0); [lra|]. cbn [real].
    split; [ring|]. unfold gamma_log_pdf. specialize (HM x X). lra. }
  destruct (rltP k 1) as [H|H]; [|destruct (reqP k 1) as [E|E]].
  - pd_shape (Finite 0) p_infty; [apply tame_lpole|apply tame_pinf]; intros; apply B; lra.
  - pd_shape (Finite 0) p_infty; [apply tame_seg|apply tame_pinf]; apply B; lra.
  - set (m := (k - 1) * theta). assert (0 < m) by (apply Rmult_lt_0_compat; lra).
    pd_shape (Finite 0) p_infty; [apply tame_seg|apply tame_seg|apply tame_seg|apply tame_pinf]; apply B; lra.
Qed.

Lemma chi_pd lg eps df : 1 <= df -> poles_declared (chi_init lg eps df).
Proof.
  intros D. unfold chi_init. destruct (rltP 0 df); [|lra].
  assert (B : forall c : R, 0 < c -> bounded_on (chi_f lg df) c p_infty).
  { intros c C. destruct (gamma_bound (df / 2) 2 c) as (M & HM); try lra.
    apply (bounded_exp _ (fun x => chi_log_pdf lg df x) 1 (M - (lg (df / 2) + df / 2 * ln 2))); [lra|].
    intros x X _. simpl in X. right. unfold chi_f, chi_pdf. destruct (rltP x 0); [lra|]. destruct (reqP x 0); [lra|]. cbn [real].
    split; [ring|]. unfold chi_log_pdf. specialize (HM x X). lra. }
  destruct (rleP 1 df); [|lra]. destruct (rleP df 20); cbn [andb]; [|destruct (rltP 20 df); [|lra]];
    (apply pd_make0; [bps; lra|simpl; lia|reflexivity|intros [|[|[|[|i]]]]; reflexivity|intros c C HC; apply B; auto]).
Qed.

(** beta *)
Lemma lnpart a c : 1 <= a \/ 0 < c -> exists M, forall y, c < y -> 0 < y < 1 -> ln y * (a - 1) <= M.
Proof.
  intros H. destruct (Rle_dec 1 a) as [A|A].
  - exists 0. intros y _ (Y1 & Y2). assert (ln y <= ln 1) by (apply ln_le_mono; lra). rewrite ln_1 in *. nra.
  - destruct H as [H|H]; [lra|]. exists (ln c * (a - 1)). intros y Y (Y1 & Y2). assert (ln c <= ln y) by (apply ln_le_mono; lra). nra.
Qed.
Lemma beta_bound lg alpha beta (c d : R) : 0 <= c -> d <= 1 -> 1 <= alpha \/ 0 < c -> 1 <= beta \/ d < 1 -> bounded_on (beta_f lg alpha beta) c d.
Proof.
  intros C D A B. destruct (lnpart alpha c A) as (M1 & H1).
  destruct (lnpart beta (1 - d)) as (M2 & H2); [destruct B; [left|right]; lra|].
  apply (bounded_exp _ (fun x => lg (alpha + beta) - lg alpha - lg beta + ln x * (alpha - 1) + ln (1 - x) * (beta - 1)) 1
          (lg (alpha + beta) - lg alpha - lg beta + M1 + M2)); [lra|].
  intros x X1 X2. simpl in X1, X2. right. unfold beta_f. destruct (rltP x 0); [lra|]. destruct (rltP 1 x); [lra|]. cbn [orb].
  split; [ring|]. specialize (H1 x X1 ltac:(lra)). specialize (H2 (1 - x) ltac:(lra) ltac:(lra)). lra.
Qed.

Lemma beta_pd lg eps mpe alpha beta : 1 <= alpha \/ alpha < 1 - mpe -> 1 <= beta \/ beta < 1 - mpe -> poles_declared (beta_init lg eps mpe alpha beta).
Proof.
  intros A B. unfold beta_init. cbv zeta.
  assert (PL : (rlt alpha 2 && rlt mpe (Rabs (alpha - 1)))%bool = false -> 1 <= alpha).
  { intros E. destruct A as [A|A]; auto. destruct (Rle_dec 1 alpha); auto. exfalso.
    rewrite (proj2 (rlt_true alpha 2)) in E by lra. rewrite Rabs_left in E by lra. rewrite (proj2 (rlt_true _ _)) in E by lra. discriminate. }
  assert (PR : (rlt beta 2 && rlt mpe (Rabs (beta - 1)))%bool = false -> 1 <= beta).
  { intros E. destruct B as [B|B]; auto. destruct (Rle_dec 1 beta); auto. exfalso.
    rewrite (proj2 (rlt_true beta 2)) in E by lra. rewrite Rabs_left in E by lra. rewrite (proj2 (rlt_true _ _)) in E by lra. discriminate. }
  destruct (rlt alpha 2 && rlt mpe (Rabs (alpha - 1)))%bool; destruct (rlt beta 2 && rlt mpe (Rabs (beta - 1)))%bool; cbn [andb];
    try specialize (PL eq_refl); try specialize (PR eq_refl);
    pd_shape (Finite 0) (Finite 1);
    first [apply tame_lpole; intros; apply beta_bound; lra | apply tame_rpole; intros; apply beta_bound; lra | apply tame_seg; apply beta_bound; lra].
Qed.
Lemma beta_pole_hidden lg eps mpe e : 0 < e < 1 -> e <= mpe -> ~ poles_declared (beta_init lg eps mpe (1 - e) 1).
Proof.
  intros HM HE (q & E & N & F). unfold beta_init in E. cbv zeta in E.
  replace (1 - e - 1) with (- e) in E by ring. rewrite Rabs_Ropp, (Rabs_pos_eq e) in E by lra.
  replace (1 - 1) with 0 in E by ring. rewrite Rabs_R0 in E.
  destruct (rltP mpe e); [lra|]. destruct (rltP mpe 0); [lra|]. rewrite !andb_false_r in E. cbn [andb] in E.
  set (f := beta_f lg (1 - e) 1) in *.
  destruct (init_ok eps [Seg 0 (1 / 2) f; Seg (1 / 2) 1 f] (Finite 0) (Finite 1)) as (q' & E' & S).
  { repeat constructor. } { repeat constructor; simpl; lra. } { repeat split; simpl; auto. }
  rewrite E' in E. injection E as <-. rewrite S in F. apply Forall_cons_iff in F. destruct F as (F & _).
  destruct (F (Finite 0) (Finite (1 / 2))) as (M & B); simpl; try lra; try discriminate.
  simpl in B. set (K := lg (1 - e + 1) - lg (1 - e) - lg 1).
  (* a point where the density exceeds M *)
  set (L := ln (Rmax M 1 + 1)). set (z := Rmin (-1) ((K - L) / e)).
  assert (Z1 : z <= -1) by apply Rmin_l. assert (Z2 : z <= (K - L) / e) by apply Rmin_r.
  assert (EX : exp z < 1 / 2).
  { apply Rle_lt_trans with (exp (-1)); [apply exp_le; auto|]. pose proof (exp_ineq1 1 ltac:(lra)). replace (-1) with (- (1)) by ring. rewrite exp_Ropp.
    apply Rmult_lt_reg_l with (exp 1); [apply exp_pos|]. rewrite Rinv_r by (pose proof (exp_pos 1); lra). lra. }
  pose proof (exp_pos z). assert (Bz := B (exp z) ltac:(lra)). unfold f, beta_f in Bz.
  destruct (rltP (exp z) 0); [lra|]. destruct (rltP 1 (exp z)); [lra|]. cbn [orb] in Bz.
  rewrite ln_exp in Bz. fold K in Bz. rewrite Rabs_pos_eq in Bz by (left; apply exp_pos).
  assert (ML : M < exp L). { unfold L. rewrite exp_ln; pose proof (Rmax_l M 1); pose proof (Rmax_r M 1); lra. }
  assert (Z3 : e * z <= K - L). { apply Rmult_le_compat_l with (r := e) in Z2; [|lra]. replace (e * ((K - L) / e)) with (K - L) in Z2 by (field; lra). lra. }
  assert (exp L <= exp (K + z * (1 - e - 1) + ln (1 - exp z) * (1 - 1))); [|lra].
  apply exp_le. lra.
Qed.

Lemma beta_pd_iff lg eps mpe : (forall alpha beta, 0 < alpha -> 0 < beta -> poles_declared (beta_init lg eps mpe alpha beta)) <-> mpe <= 0.
Proof.
  split.
  - intros H. destruct (Rle_dec mpe 0); auto. exfalso. set (e := Rmin mpe (1 / 2)).
    assert (e <= mpe) by apply Rmin_l. assert (e <= 1 / 2) by apply Rmin_r. assert (0 < e) by (apply Rmin_glb_lt; lra).
    apply (beta_pole_hidden lg eps mpe e); [lra|auto|]. apply H; lra.
  - intros H alpha beta A B. apply beta_pd; [destruct (Rle_dec 1 alpha)|destruct (Rle_dec 1 beta)]; auto; right; lra.
Qed.

Lemma student_pd lg eps df : 0 < df -> poles_declared (student_init lg eps df).
Proof.
  intros D. unfold student_init. rewrite (proj2 (rlt_true _ _) D). cbv zeta. set (i := sqrt (df / (df + 2))).
  assert (I : 0 < i) by (apply sqrt_lt_R0, Rdiv_lt_0_compat; lra).
  assert (B : forall a b, bounded_on (student_pdf lg df) a b).
  { intros a b. apply (bounded_exp _ (fun x => lg ((df + 1) / 2) - lg (df / 2) - 0.5 * (ln df + ln PI) - (df + 1) / 2 * ln (1 + x ^ 2 / df)) 1
       (lg ((df + 1) / 2) - lg (df / 2) - 0.5 * (ln df + ln PI))); [lra|].
    intros x _ _. right. split; [unfold student_pdf; ring|].
    assert (0 <= x ^ 2 / df). { apply Rmult_le_pos; [apply pow2_ge_0|left; apply Rinv_0_lt_compat; auto]. }
    assert (ln 1 <= ln (1 + x ^ 2 / df)) by (apply ln_le_mono; lra). rewrite ln_1 in *. nra. }
  pd_shape m_infty p_infty; [apply tame_minf|apply tame_seg|apply tame_pinf]; auto.
Qed.

Lemma fdist_pd lg eps d1 d2 : 0 < d1 -> 0 < d2 -> poles_declared (fdist_init lg eps d1 d2).
Proof.
  intros D1 D2. unfold fdist_init. cbv zeta. set (ln0 := d2 / 2 * ln d2 + lg ((d1 + d2) / 2) - lg (d1 / 2) - lg (d2 / 2)).
  assert (B : forall (c : R) b, 0 <= c -> 0 < c \/ d1 = 2 -> bounded_on (fdist_f lg d1 d2) c b).
  { intros c b C H.
    apply (bounded_exp _ (fun x => ln0 + 0.5 * (d1 * ln (d1 * x) - (d1 + d2) * ln (d1 * x + d2)) - ln x) 1
       (match Req_EM_T d1 2 with left _ => ln0 + ln 2 - 0.5 * ((2 + d2) * ln d2) | right _ => ln0 - 0.5 * (d2 * ln d2) - ln c end)); [lra|].
    intros x X _. simpl in X. right. unfold fdist_f, fdist_pdf. cbv zeta. fold ln0. destruct (rltP x 0); [lra|]. destruct (reqP x 0); [lra|]. cbn [real].
    split; [ring|]. assert (P : 0 < d1 * x) by (apply Rmult_lt_0_compat; lra).
    assert (L1 : ln d2 <= ln (d1 * x + d2)) by (apply ln_le_mono; lra).
    assert (L2 : ln (d1 * x) <= ln (d1 * x + d2)) by (apply ln_le_mono; lra).
    destruct (Req_EM_T d1 2) as [->|N].
    - rewrite (ln_mult 2 x) in * by lra. nra.
    - destruct H as [H|H]; [|congruence]. assert (ln c <= ln x) by (apply ln_le_mono; lra). nra. }
  destruct (rltP d1 2) as [H|H]; [|destruct (reqP d1 2) as [E|E]].
  - pd_shape (Finite 0) p_infty; [apply tame_lpole|apply tame_pinf]; intros; apply B; lra.
  - pd_shape (Finite 0) p_infty; [apply tame_seg|apply tame_pinf]; apply B; lra.
  - set (m := (d1 - 2) / d1 * d2 / (d2 + 2)).
    assert (0 < m). { unfold m. apply Rdiv_lt_0_compat; [|lra]. apply Rmult_lt_0_compat; [|lra]. apply Rdiv_lt_0_compat; lra. }
    pd_shape (Finite 0) p_infty; [apply tame_lpole|apply tame_seg|apply tame_pinf]; intros; apply B; lra.
Qed.
