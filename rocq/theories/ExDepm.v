(** Concrete instances of the theorems about measures of dependence. *)
From Coq Require Import Reals Lra Lia List Bool Arith.
From Coquelicot Require Import Coquelicot.
From Verif Require Import Base Integral IntegralFacts SegIntFacts StdFacts2 StdFacts3 MStdFacts MStdFacts2 Copula CopulaSpec CopulaFacts CopulaFacts2 CopulaFacts3 CopulaMain Depm DepmSpec DepmFacts DepmMain PropDepm.
Import List ListNotations.
Open Scope R_scope.

(** a variable uniform on [0,1] and one with cdf x^2 there *)
Definition ex_uni : dmarg := DM (fun x => x) (fun _ => 1) 0 1 (1 / 2) (sqrt (1 / 12)).
Definition ex_tri : dmarg := DM (fun x => x ^ 2) (fun x => 2 * x) 0 1 (2 / 3) (sqrt (1 / 18)).

Lemma ex_line p q r : has_val (fun x => p + q * x + r * x ^ 2) 0 1 (p + q / 2 + r / 3).
Proof.
  pose proof (int_quad 0 1 p q r) as I. destruct (proper_int (fun x => p + q * x + r * x ^ 2) 0 1) as (A & B); [lra|eexists; exact I|].
  split; auto. rewrite B. apply is_RInt_unique. evar_last; [exact I|]. field.
Qed.
Lemma ex_poly (g : R -> R) p q r v : (forall x, p + q * x + r * x ^ 2 = g x) -> p + q / 2 + r / 3 = v -> has_val g 0 1 v.
Proof. intros E <-. apply (ii_ext (fun x => p + q * x + r * x ^ 2)); [intros; apply E|apply ex_line]. Qed.
Lemma ex_uni_mean : has_mean ex_uni.
Proof.
  assert (A : has_val (fun _ => 1) 0 1 1) by (apply (ex_poly _ 1 0 0); [intros; ring|field]).
  assert (B : has_val (fun x => x * 1) 0 1 (1 / 2)) by (apply (ex_poly _ 0 1 0); [intros; ring|field]).
  destruct A, B. unfold has_mean; cbn. split; [lra|]. auto.
Qed.
Lemma ex_tri_mean : has_mean ex_tri.
Proof.
  assert (A : has_val (fun x => 2 * x) 0 1 1) by (apply (ex_poly _ 0 2 0); [intros; ring|field]).
  assert (B : has_val (fun x => x * (2 * x)) 0 1 (2 / 3)) by (apply (ex_poly _ 0 0 2); [intros; ring|field]).
  destruct A, B. unfold has_mean; cbn. split; [lra|]. auto.
Qed.
Lemma ex_uni_smooth : smooth_marg ex_uni.
Proof.
  unfold smooth_marg; cbn. splits; try lra; [auto|]. exists (fun x => x), (fun _ => 1). intros x _. splits; auto; [apply is_derive_Reals, derivable_pt_lim_id|apply continuous_const].
Qed.
Lemma ex_tri_smooth : smooth_marg ex_tri.
Proof.
  unfold smooth_marg; cbn. splits; try lra; [intros x X; unfold in01; nra|]. exists (fun x => x ^ 2), (fun x => 2 * x). intros x _. splits; auto.
  - auto_derive; auto. ring.
  - apply (ex_derive_continuous (V := R_NormedModule)). auto_derive. auto.
Qed.

Example ex_rho_s : exists r, cop_rho_s (Cop false (as_list upper2) (as_list (fun _ _ => 0)) [ex_uni; ex_tri]) 1 0 = Ok r /\ -1 <= r <= 1.
Proof. apply (proj1 rho_s_bounds); [apply upper_copula|auto]. Qed.
Example ex_rho_order : exists r r', cop_rho_s (Cop false (as_list lower2) (as_list (fun _ _ => 0)) [ex_uni; ex_tri]) 0 1 = Ok r /\
  cop_rho_s (Cop false (as_list upper2) (as_list (fun _ _ => 0)) [ex_uni; ex_tri]) 0 1 = Ok r' /\ r <= r' /\ blomqvist (as_list lower2) <= blomqvist (as_list upper2).
Proof.
  apply rho_s_order; [apply lower_copula|apply upper_copula|]. intros u v U V. pose proof (frechet upper2 u v upper_copula U V). unfold lower2. apply H.
Qed.
Example ex_ctau : exists r, cop_ctau (Cop false (as_list Rmult) (as_list (fun _ _ => 1)) [ex_uni; ex_tri]) 1 0 = Ok r /\ -1 <= r <= 1.
Proof.
  assert (A : has_val (fun _ : R => 1) 0 1 1) by (apply (ex_poly _ 1 0 0); [intros; ring|field]).
  assert (B : forall y, has_val (fun x => x * y * 1) 0 1 (y / 2)) by (intros y; apply (ex_poly _ 0 y 0); [intros; ring|field]).
  apply (proj1 ctau_bounds); auto.
  - exact (proj1 pi_copula_main).
  - split; [intros; lra|]. intros y _. exact A.
  - intros y _. apply B.
  - apply (integrable_ext (fun y => 0 + / 2 * y + 0 * y ^ 2)); [|apply ex_line]. intros y _. rewrite (proj2 (B y)). field.
Qed.
Example ex_tau_margins : cop_tau (Cop false (as_list Rmult) (as_list (fun _ _ => 1)) [ex_tri; ex_uni]) 0 1 = Ok 0.
Proof.
  rewrite (tau_margins false (as_list Rmult) (as_list (fun _ _ => 1)) ex_tri ex_uni (fun u v => u * v) ex_tri_smooth ex_uni_smooth).
  - apply (proj2 ctau_bounds).
  - intros u v _ _. unfold as_list; cbn. ring.
  - intros v u _. apply (ex_derive_continuous (V := R_NormedModule)). auto_derive. auto.
  - intros v _. apply (continuous_ext (fun v => v / 2)).
    + intros w. symmetry. apply is_RInt_unique. evar_last; [apply (is_RInt_ext (fun x => 0 + w * x)); [intros x _; change (0 + w * x = x * w); ring|apply int_line]|]. field.
    + apply (ex_derive_continuous (V := R_NormedModule)). auto_derive. auto.
Qed.
Example ex_cov : cop_cov (Cop false (as_list Rmult) (as_list (fun _ _ => 1)) [ex_uni; ex_tri]) 1 0 = Ok 0.
Proof. apply cov_independent; [apply ex_uni_mean|apply ex_tri_mean|auto]. Qed.
Example ex_third : forall C c, cop_cov (Cop true C c [ex_uni; ex_uni; DM (fun x => x - 5) (fun x => if rlt 5 x then 1 else 0) 5 6 (11 / 2) (sqrt (1 / 12))]) 0 2 = Ok 0.
Proof. intros C c. apply cov_third_lost; cbn; try lra. intros y Y. destruct (rltP 5 y); auto. lra. Qed.
Example ex_tau_clayton : tau_c (fun t => 1 / 2 * (Rpower t (-2) - 1)) (fun t => - Rpower t (-3)) = 1 / 2.
Proof.
  rewrite (proj1 (tau_c_values 2 _ _)); [field|lra|]. intros t T. split.
  - unfold clayton_fi, npow. rewrite (proj2 (rlt_true 0 t)) by lra. cbn. do 2 f_equal.
  - replace (-3) with (-2 + - (1)) by ring. rewrite Rpower_plus, Rpower_Ropp, Rpower_1 by lra. unfold Rpower. auto_derive; [lra|]. field. lra.
Qed.
Example ex_tau_gumbel : tau_c (fun t => Rpower (- ln t) 2) (fun t => 2 * ln t / t) = 1 / 2.
Proof.
  rewrite (proj2 (tau_c_values 2 _ _)); [field|lra|]. intros t T. pose proof (ln_neg t T). split.
  - unfold gumbel_fi, nlog, npow. rewrite (proj2 (rlt_true 0 t)) by lra. cbn. rewrite (proj2 (rlt_true 0 (- ln t))) by lra. auto.
  - apply (is_derive_ext_loc (fun t => ln t ^ 2)).
    + exists (mkposreal (Rmin t (1 - t)) ltac:(apply Rmin_pos; lra)). intros s B.
      unfold ball in B; simpl in B; unfold AbsRing_ball, abs, minus, plus, opp in B; simpl in B. apply Rabs_def2 in B.
      pose proof (Rmin_l t (1 - t)). pose proof (Rmin_r t (1 - t)). pose proof (ln_neg s ltac:(lra)).
      change 2 with (INR 2). rewrite Rpower_pow by lra. simpl. ring.
    + auto_derive; [lra|]. field. lra.
Qed.
Example ex_self : cop_tau (Cop true (as_list Rmult) (as_list (fun _ _ => 1)) [ex_uni; ex_tri]) 1 1 = Ok 1 /\
  cop_cov (Cop true (as_list Rmult) (as_list (fun _ _ => 1)) [ex_uni; ex_tri]) 1 1 = Ok (Q (fun x => (x - 2 / 3) * (x - 2 / 3) * (2 * x)) 0 1).
Proof. exact (proj2 dependence_self (as_list Rmult) (as_list (fun _ _ => 1)) ex_uni ex_tri 1%nat ex_tri eq_refl). Qed.
