(** Property theorems (Stab). Proofs are in StabMain.v and the files it imports. *)
From Coq Require Import Reals Lra Lia List Bool.
From Coquelicot Require Import Rcomplements.
From Verif Require Import Base Stab.
From Verif Require Import StabMain.
Import List ListNotations.
Open Scope R_scope.

(** C76: logexp_p1 is log(|a| exp(x) + 1) up to 10^-16; for negative a, where log(a exp(x) + 1) is announced, it is still that. *)
Theorem logexp_p1_error :
  forall x a, a <> 0 -> Rabs (logexp_p1 x a - ln (Rabs a * exp x + 1)) <= / 10 ^ 16.
Proof. exact logexp_p1_error_main. Qed.
Print Assumptions logexp_p1_error.

(** C76: logexp_m1 with a = 1 is -log|exp(-x) - 1| up to 2*10^-16, for every x <> 0; for another a it shifts x the wrong way: it is the
    value for exp(-x)/|a|, not for |a| exp(-x). *)
Theorem logexp_m1_error :
  forall x a, a <> 0 -> exp (- x) / Rabs a <> 1 -> Rabs (logexp_m1 x a - - ln (Rabs (exp (- x) / Rabs a - 1))) <= 2 / 10 ^ 16.
Proof. exact logexp_m1_error_main. Qed.
Print Assumptions logexp_m1_error.

(** C76: log_1m_exp is log|1 - |a| exp(x)| up to 2*10^-16 (its description has another sign and another exponent). *)
Theorem log_1m_exp_error :
  forall x a, a <> 0 -> Rabs a * exp x <> 1 -> Rabs (log_1m_exp x a - ln (Rabs (1 - Rabs a * exp x))) <= 2 / 10 ^ 16.
Proof. exact log_1m_exp_error_main. Qed.
Print Assumptions log_1m_exp_error.

(** C76: for every parameter other than 0, of either sign, the generator of FrankCopula2d is the Frank generator up to 4*10^-16, and its
    inverse, on arrays, the inverse of the Frank generator up to 2*10^-16/|theta|; the inverse of a single number raises TypeError. *)
Theorem frank2d_generator :
  forall th, th <> 0 ->
  (forall t, 0 < t <= 1 -> Rabs (f2_fi th t - - ln ((exp (- t * th) - 1) / (exp (- th) - 1))) <= 4 / 10 ^ 16) /\
  (forall s, 0 < s -> exists r, f2_fi_inv false th s = Ok r /\ Rabs (r - - ln (1 + (exp (- th) - 1) * exp (- s)) / th) <= 2 / 10 ^ 16 / Rabs th) /\
  (forall s, f2_fi_inv true th s = Err EType).
Proof. exact frank2d_generator_main. Qed.
Print Assumptions frank2d_generator.

(** C76: with another a than 1 the functions are not what their descriptions say: logexp_m1(0, 3) is not -log(3 - 1), logexp_p1(0, -1/2)
    is not log(-1/2 + 1). *)
Theorem stable_doc_refuted :
  1 / 2 < Rabs (logexp_m1 0 3 - - ln (3 * exp (Ropp 0) - 1)) /\ 1 / 2 < Rabs (logexp_p1 0 (Ropp (1 / 2)) - ln (Ropp (1 / 2) * exp 0 + 1)).
Proof. exact stable_doc_refuted_main. Qed.
Print Assumptions stable_doc_refuted.
