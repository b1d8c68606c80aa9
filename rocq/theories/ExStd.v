(** Concrete instances of the hypotheses of the theorems in PropStd.v. *)
From Coq Require Import Reals Lra Lia List Bool Sorted Arith.
From Coquelicot Require Import Coquelicot.
From Verif Require Import Base Seg Piecewise PiecewiseSpec Integral IntegralFacts SegIntSpec Std StdSpec StdFacts2 StdFacts3 StdFacts4 StdFacts8 StdFacts9 StdMain.
Import List ListNotations.
Open Scope R_scope.

(** make_pieces_exact: four break points, poles at both sides of 1 *)
Example ex_make f : exists q, make_pwf (1/1000) f [m_infty; Finite 0; Finite 1; Finite 2] [false; false; true; false] [false; false; true; false] = Ok q /\
  length (segs q) = 3%nat.
Proof.
  destruct (make_pieces_exact_main (1/1000) f [m_infty; Finite 0; Finite 1; Finite 2] [false; false; true; false] [false; false; true; false]) as (q & E1 & _ & E3 & _).
  - bps; lra.
  - reflexivity.
  - reflexivity.
  - intros i I _ _. destruct i as [|[|[|[|i]]]]; simpl in *; auto; lia.
  - intros i I. destruct i as [|[|[|[|i]]]]; simpl in *; auto; lia.
  - simpl; lia.
  - simpl; lia.
  - exists q. split; [exact E1|injection E3; auto].
Qed.

(** a correct lgamma exists at every positive argument *)
Example ex_lgamma k : 0 < k -> is_lgamma (fun k => ln (Gamma k)) k.
Proof. intros K. unfold is_lgamma. apply exp_ln. apply Gamma_pos; auto. Qed.

(** the gamma integral at 1 is 1, so that lgamma(1) = 0 *)
Example ex_Gamma_1 : Gamma 1 = 1.
Proof.
  assert (P : prim (gamma_kernel 1) 0 p_infty (ext_prim (fun t => - exp (- t)) 0 p_infty (-1) 0)).
  { apply prim_ftc.
    - simpl; auto.
    - intros x (X & _). simpl in X. unfold gamma_kernel, Rpower. auto_derive; auto. rewrite Rminus_eq_0, Rmult_0_l, exp_0. ring.
    - intros x (X & _). apply gamma_kernel_cont; auto.
    - apply lim_r_cont; [auto_derive; auto|]. rewrite Ropp_0, exp_0. auto.
    - simpl. apply (lim_der (Rbar_locally p_infty) (fun y => - y) (fun t => exp (- t)) 0); [auto_derive; auto|ring|].
      apply (lim_exp_m (Rbar_locally p_infty)). apply (lim_aff_pm _ (fun x => x) _ 0 (-1)); [intros; ring|lra|apply lim_id_p]. }
  rewrite (Gamma_prim _ _ P). unfold ext_prim.
  destruct (Rbar_le_dec p_infty 0) as [A|A]; [contradiction|]. destruct (Rbar_le_dec p_infty p_infty) as [B|B]; [|exfalso; apply B; simpl; auto].
  destruct (Rbar_le_dec 0 0) as [C|C]; [ring|exfalso; apply C; simpl; lra].
Qed.

(** the beta integral at (1,1) is 1: is_lbeta holds for any lg with lg 1 = lg 2 = 0 *)
Example ex_lbeta lg : lg 1 = 0 -> lg (1 + 1) = 0 -> is_lbeta lg 1 1.
Proof.
  intros L1 L2. unfold is_lbeta. rewrite L1, L2. replace (0 + 0 - 0) with 0 by ring. rewrite exp_0.
  assert (P : prim (beta_kernel 1 1) 0 1 (ext_prim (fun t => t) 0 1 0 1)).
  { apply prim_ftc.
    - simpl; lra.
    - intros x X. unfold beta_kernel, Rpower. replace (exp ((1 - 1) * ln x) * exp ((1 - 1) * ln (1 - x))) with 1 by (rewrite Rminus_eq_0, !Rmult_0_l, exp_0; ring).
      apply (is_derive_id (K := R_AbsRing)).
    - intros x (X1 & X2). apply beta_kernel_cont; auto.
    - apply lim_r_cont; [auto_derive; auto|auto].
    - apply lim_l_cont; [auto_derive; auto|auto]. }
  rewrite (Beta_prim _ _ _ P). unfold ext_prim.
  destruct (Rbar_le_dec 1 0) as [A|A]; [simpl in A; lra|]. destruct (Rbar_le_dec 1 1) as [B|B]; [|exfalso; apply B; simpl; lra].
  destruct (Rbar_le_dec 0 0) as [C|C]; [ring|exfalso; apply C; simpl; lra].
Qed.

(** Student's constant at one degree of freedom *)
Example ex_lstudent lg : lg (1 / 2) = ln PI / 2 -> lg ((1 + 1) / 2) = 0 -> is_lstudent lg 1.
Proof.
  intros L1 L2. pose proof PI_RGT_0 as HP. unfold is_lstudent. rewrite L1, L2, Rmult_1_l.
  assert (P : prim (student_kernel 1) m_infty p_infty (ext_prim atan m_infty p_infty (- PI / 2) (PI / 2))).
  { apply prim_ftc.
    - simpl; auto.
    - intros x _. unfold student_kernel, Rpower. replace (1 + x ^ 2 / 1) with (1 + x * x) by field.
      assert (O : 0 < 1 + x * x) by (pose proof (Rle_0_sqr x) as Z; unfold Rsqr in Z; lra).
      replace (- ((1 + 1) / 2) * ln (1 + x * x)) with (- ln (1 + x * x)) by field. rewrite exp_Ropp, exp_ln by auto.
      auto_derive; auto. unfold Rsqr. field. lra.
    - intros x _. apply student_kernel_cont; lra.
    - apply lim_atan_m.
    - apply lim_atan_p. }
  rewrite (student_int_prim _ _ P). unfold ext_prim.
  destruct (Rbar_le_dec p_infty m_infty) as [A|A]; [contradiction|]. destruct (Rbar_le_dec p_infty p_infty) as [B|B]; [|exfalso; apply B; simpl; auto].
  destruct (Rbar_le_dec m_infty m_infty) as [C|C]; [|exfalso; apply C; simpl; auto].
  replace (exp (ln PI / 2 - 0)) with (sqrt PI).
  - rewrite sqrt_sqrt by lra. field.
  - rewrite <- (Rpower_sqrt PI) by auto. unfold Rpower. f_equal. field.
Qed.

(** the hypotheses of the other theorems are sign conditions; one instance of each kind *)
Example ex_laws : law (normal_init (1/1000) 3 2) m_infty p_infty (normal_cdf 3 2) /\
  law (trapz_init (1/1000) 0 0 1 3) 0 3 (trapz_cdf 0 0 1 3) /\
  law (weibull_init (1/1000) (1/2) 3) 0 p_infty (weibull_cdf (1/2) 3) /\
  law (loglog_init (1/1000) 3 2) 0 p_infty (loglog_cdf 3 2) /\
  law (gamma_init (fun k => ln (Gamma k)) (1/1000) (5/2) 3) 0 p_infty (gamma_cdf (5/2) 3).
Proof.
  splits.
  - apply normal_textbook_main; lra.
  - apply trapezoidal_textbook_main; lra.
  - apply weibull_textbook_main; lra.
  - apply loglogistic_textbook_main; lra.
  - apply gamma_textbook_main; try lra. apply ex_lgamma. lra.
Qed.

Example ex_frechet : frechet_cdf 2 1 5 (frechet_rand 2 1 5 (1/2)) = 1/2.
Proof. apply frechet_sampler_main; lra. Qed.
