(** Concrete cases of the theorems on mean and variance of the named distributions. *)
From Coq Require Import Reals Lra List Bool.
From Coquelicot Require Import Coquelicot.
From Verif Require Import Base Seg Piecewise Integral Std StdSpec MomSpec Mom MStdSpec StdFacts9 MStdFacts5 PropMStd.
Import List ListNotations.
Open Scope R_scope.

Example uniform_ex : has_moments (uniform_init 0 (-1) 3) 1 (4 / 3).
Proof. replace 1 with ((-1 + 3) / 2) by lra. replace (4 / 3) with ((3 - -1) ^ 2 / 12) by lra. apply uniform_mean_var. lra. Qed.
Example normal_ex : has_moments (normal_init 0 1 2) 1 4.
Proof. replace 4 with (2 ^ 2) by lra. apply normal_mean_var. lra. Qed.
Example expo_ex : has_moments (expo_init 0 2) (1 / 2) (1 / 4).
Proof. replace (1 / 4) with (1 / 2 ^ 2) by lra. apply expo_mean_var. lra. Qed.
(** a logarithm of the gamma integral exists *)
Definition lgamma0 (k : R) : R := ln (Gamma k).
Lemma lgamma0_ok k : 0 < k -> is_lgamma lgamma0 k.
Proof. intros K. unfold is_lgamma, lgamma0. apply exp_ln. apply Gamma_pos. auto. Qed.
Example gamma_ex : has_moments (gamma_init lgamma0 0 3 2) 6 12.
Proof. replace 6 with (3 * 2) by lra. replace 12 with (3 * 2 ^ 2) by lra. apply gamma_mean_var; try lra. apply lgamma0_ok. lra. Qed.
Example chi_ex : has_moments (chi_init lgamma0 0 5) 5 10.
Proof. replace 10 with (2 * 5) by lra. apply chi_mean_var; [lra|]. apply lgamma0_ok. lra. Qed.
Example laplace_ex : has_moments (laplace_init 0 3 1) 1 18.
Proof. replace 18 with (2 * 3 ^ 2) by lra. apply laplace_mean_var. lra. Qed.
(** shape 1/2: mean 2 lmbda, variance 20 lmbda^2 *)
Example weibull_ex : has_moments (weibull_init 0 (1 / 2) 1) 2 20.
Proof.
  pose proof (weibull_mean_var 0 (1 / 2) 1 ltac:(lra) ltac:(lra)) as H.
  replace (1 + 1 / (1 / 2)) with (INR 2 + 1) in H by (simpl; field). replace (1 + 2 / (1 / 2)) with (INR 4 + 1) in H by (simpl; field).
  rewrite !gamma_factorial in H. simpl in H.
  match type of H with has_moments _ ?a ?b => replace a with 2 in H by lra; replace b with 20 in H by lra end. exact H.
Qed.
Example pareto_ex : has_moments (pareto_init 0 3 2) 3 3 /\ has_mean (pareto_init 0 2 1) 2 /\ no_mean (pareto_init 0 1 1).
Proof.
  splits.
  - pose proof (proj2 (proj2 (pareto_mean_var 0 3 2 ltac:(lra))) ltac:(lra)) as H.
    match type of H with has_moments _ ?a ?b => replace a with 3 in H by lra; replace b with 3 in H by lra end. exact H.
  - pose proof (proj1 (proj2 (pareto_mean_var 0 2 1 ltac:(lra))) ltac:(lra)) as H.
    match type of H with has_mean _ ?a => replace a with 2 in H by lra end. exact H.
  - apply pareto_mean_var; lra.
Qed.
(** a normalising function for one Student law *)
Definition lstudent0 (df k : R) : R := if Req_EM_T k (df / 2) then ln (student_integral df / sqrt (df * PI)) else 0.
Example student_ex : is_lstudent (lstudent0 4) 4 /\ has_moments (student_init (lstudent0 4) 0 4) 0 2.
Proof.
  assert (L : is_lstudent (lstudent0 4) 4).
  { unfold is_lstudent, lstudent0. destruct (Req_EM_T (4 / 2) (4 / 2)) as [_|N]; [|lra]. destruct (Req_EM_T ((4 + 1) / 2) (4 / 2)); [lra|].
    pose proof (student_int_pos 4 ltac:(lra)) as P. assert (S : 0 < sqrt (4 * PI)) by (apply sqrt_lt_R0; pose proof PI_RGT_0; lra).
    rewrite Rminus_0_r, exp_ln by (apply Rdiv_lt_0_compat; auto). field. lra. }
  split; auto. replace 2 with (4 / (4 - 2)) by lra. apply student_mean_var; auto. lra.
Qed.
(** a normalising function for one beta law *)
Definition lbeta0 (p q k : R) : R := if Req_EM_T k (p + q) then - ln (Beta p q) else 0.
Lemma lbeta0_ok p q : 0 < p -> 0 < q -> is_lbeta (lbeta0 p q) p q.
Proof.
  intros P Q0. unfold is_lbeta, lbeta0. destruct (Req_EM_T p (p + q)); [lra|]. destruct (Req_EM_T q (p + q)); [lra|].
  destruct (Req_EM_T (p + q) (p + q)); [|lra]. replace (0 + 0 - - ln (Beta p q)) with (ln (Beta p q)) by ring. apply exp_ln. apply Beta_pos; auto.
Qed.
Example beta_ex : has_moments (beta_init (lbeta0 2 3) 0 (1 / 100) 2 3) (2 / 5) (1 / 25).
Proof.
  pose proof (beta_mean_var (lbeta0 2 3) 0 (1 / 100) 2 3 ltac:(lra) ltac:(lra) (lbeta0_ok 2 3 ltac:(lra) ltac:(lra))) as H.
  match type of H with has_moments _ ?a ?b => replace a with (2 / 5) in H by lra; replace b with (1 / 25) in H by lra end. exact H.
Qed.
Example fdist_ex : has_moments (fdist_init (lbeta0 (2 / 2) (6 / 2)) 0 2 6) (3 / 2) (27 / 4).
Proof.
  pose proof (proj2 (fdist_mean_var (lbeta0 (2 / 2) (6 / 2)) 0 2 6 ltac:(lra) (lbeta0_ok (2 / 2) (6 / 2) ltac:(lra) ltac:(lra))) ltac:(lra)) as H.
  match type of H with has_moments _ ?a ?b => replace a with (3 / 2) in H by lra; replace b with (27 / 4) in H by lra end. exact H.
Qed.
Example loglog_ex : has_moments (loglog_init 0 3 2) (2 * Beta (1 + 1 / 3) (1 - 1 / 3)) (2 ^ 2 * (Beta (1 + 2 / 3) (1 - 2 / 3) - Beta (1 + 1 / 3) (1 - 1 / 3) ^ 2)).
Proof. apply loglog_mean_var; lra. Qed.
Example frechet_ex : has_moments (frechet_init 0 4 1 2) (2 + 1 * Gamma (1 - 1 / 4)) (1 ^ 2 * (Gamma (1 - 2 / 4) - Gamma (1 - 1 / 4) ^ 2)).
Proof. apply frechet_mean_var; lra. Qed.
Example semi_ex : has_moments (semi_init 0 2) 0 1.
Proof. replace 1 with (2 ^ 2 / 4) by lra. apply semi_mean_var. lra. Qed.
Example cauchy_levy_ex : no_mean (cauchy_init 0 1 0) /\ no_mean (levy_init 0 1 0).
Proof. split; [apply (cauchy_levy_no_mean 0 1 0 0)|apply (cauchy_levy_no_mean 0 1 1 0)]; lra. Qed.
