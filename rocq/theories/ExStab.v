(** Concrete instances of the theorems about the logarithms with cut-offs. *)
From Coq Require Import Reals Lra Lia List Bool.
From Coquelicot Require Import Rcomplements.
From Verif Require Import Base Stab StabMain PropStab.
Import List ListNotations.
Open Scope R_scope.

(** the cut-offs are reached: at x = 64 the value is x, at x = -64 it is exp(x) *)
Lemma exp64 : big < exp 64.
Proof.
  unfold big. assert (E : 2 < exp 1) by (pose proof (exp_ineq1 1 ltac:(lra)); lra).
  assert (E2 : 4 < exp 2) by (replace 2 with (1 + 1) by ring; rewrite exp_plus; nra).
  assert (E4 : 16 < exp 4) by (replace 4 with (2 + 2) by ring; rewrite exp_plus; nra).
  assert (E8 : 256 < exp 8) by (replace 8 with (4 + 4) by ring; rewrite exp_plus; nra).
  assert (E16 : 65536 < exp 16) by (replace 16 with (8 + 8) by ring; rewrite exp_plus; nra).
  assert (E32 : 4294967296 < exp 32) by (replace 32 with (16 + 16) by ring; rewrite exp_plus; nra).
  replace 64 with (32 + 32) by ring. rewrite exp_plus. nra.
Qed.
Example ex_p1_cut : logexp_p1 64 1 = 64 /\ Rabs (64 - ln (1 * exp 64 + 1)) <= / 10 ^ 16.
Proof.
  pose proof exp64 as E. assert (L : logexp_p1 64 1 = 64).
  { unfold logexp_p1. rewrite Rabs_R1, ln_1, Rplus_0_r. pose proof big1. pose proof (Rinv_0_lt_compat big ltac:(lra)).
    assert (/ big < 1) by (rewrite <- Rinv_1; apply Rinv_lt_contravar; lra).
    destruct (rltP (exp 64) (/ big)); [lra|]. destruct (rltP big (exp 64)); [auto|lra]. }
  split; auto. pose proof (logexp_p1_error 64 1 ltac:(lra)) as K. rewrite L, Rabs_R1 in K. exact K.
Qed.
Example ex_m1 : Rabs (logexp_m1 2 1 - - ln (Rabs (exp (Ropp 2) / Rabs 1 - 1))) <= 2 / 10 ^ 16.
Proof.
  apply logexp_m1_error; [lra|]. rewrite Rabs_R1. unfold Rdiv. rewrite Rinv_1, Rmult_1_r. pose proof (exp_increasing (Ropp 2) 0 ltac:(lra)) as K. rewrite exp_0 in K. lra.
Qed.
Example ex_1m : Rabs (log_1m_exp (Ropp 2) (Ropp 1) - ln (Rabs (1 - Rabs (Ropp 1) * exp (Ropp 2)))) <= 2 / 10 ^ 16.
Proof.
  apply log_1m_exp_error; [lra|]. rewrite Rabs_Ropp, Rabs_R1. pose proof (exp_increasing (Ropp 2) 0 ltac:(lra)) as K. rewrite exp_0 in K. lra.
Qed.
Example ex_frank : Rabs (f2_fi (Ropp 5) (1 / 2) - - ln ((exp (- (1 / 2) * Ropp 5) - 1) / (exp (- Ropp 5) - 1))) <= 4 / 10 ^ 16 /\
  (exists r, f2_fi_inv false 3 1 = Ok r /\ Rabs (r - - ln (1 + (exp (Ropp 3) - 1) * exp (Ropp 1)) / 3) <= 2 / 10 ^ 16 / Rabs 3) /\ f2_fi_inv true 3 1 = Err EType.
Proof.
  split; [apply frank2d_generator; lra|]. split; apply frank2d_generator; lra.
Qed.
