(** Concrete instances for declared singularities. *)
From Coq Require Import Reals Lra List Bool.
From Coquelicot Require Import Coquelicot.
From Verif Require Import Base Seg Piecewise Std StdSpec StdPoleSpec StdPoleFacts StdPoleFacts2 StdPoleFacts3 StdPoleFacts4 StdPoleMain.
Import List ListNotations.
Open Scope R_scope.

(** a density with a genuine singularity is not bounded on its piece: the statement is not vacuous *)
Example ex_unbounded : ~ tame (Seg 0 1 (fun x => / x)).
Proof.
  intros T. destruct (T (Finite 0) (Finite 1)) as (M & H); simpl; try lra; try discriminate. simpl in H.
  set (x := / (Rmax M 1 + 1)). pose proof (Rmax_l M 1). pose proof (Rmax_r M 1).
  assert (X : 0 < x < 1).
  { unfold x. split; [apply Rinv_0_lt_compat; lra|]. apply (Rmult_lt_reg_l (Rmax M 1 + 1)); [lra|]. rewrite Rinv_r; lra. }
  specialize (H x X). unfold x in H. rewrite Rinv_inv in H. rewrite Rabs_pos_eq in H by lra. lra.
Qed.
(** declared, it is *)
Example ex_declared : tame (PoleSeg 0 1 (fun x => / x) true).
Proof.
  apply tame_lpole. intros c C. apply (bounded_pos _ (/ c)). intros x X1 X2. simpl in *. split; [left; apply Rinv_0_lt_compat; lra|]. apply Rinv_le_contravar; lra.
Qed.
(** on the wrong side it is not enough *)
Example ex_wrong_side : ~ tame (PoleSeg 0 1 (fun x => / x) false).
Proof.
  intros T. destruct (T (Finite 0) (Finite (1/2))) as (M & H); simpl; try lra; try discriminate. simpl in H.
  set (x := / (Rmax M 2 + 1)). pose proof (Rmax_l M 2). pose proof (Rmax_r M 2).
  assert (X : 0 < x < 1/2).
  { unfold x. split; [apply Rinv_0_lt_compat; lra|]. apply (Rmult_lt_reg_l (Rmax M 2 + 1)); [lra|]. rewrite Rinv_r; lra. }
  specialize (H x X). unfold x in H. rewrite Rinv_inv in H. rewrite Rabs_pos_eq in H by lra. lra.
Qed.
(** gamma and Weibull with a singularity at 0, beta with one at either end, the default tolerance *)
Example ex_gamma_half lg : poles_declared (gamma_init lg 0 (1/2) 1).
Proof. apply gamma_poles_main; lra. Qed.
Example ex_weibull_half : poles_declared (weibull_init 0 (1/2) 1) /\ pieces_monotone (weibull_init 0 (5/2) 1).
Proof. split; [apply weibull_poles_main|apply weibull_monotone_main]; lra. Qed.
Example ex_beta_half lg : poles_declared (beta_init lg 0 (- (1/100)) (1/2) (1/2)).
Proof. apply beta_poles_main; lra. Qed.
Example ex_beta_hidden lg : ~ forall alpha beta, 0 < alpha -> 0 < beta -> poles_declared (beta_init lg 0 (1/100) alpha beta).
Proof. rewrite beta_poles_main. lra. Qed.
Example ex_fdist lg : poles_declared (fdist_init lg 0 1 3) /\ pieces_monotone (fdist_init lg 0 5 3).
Proof. split; [apply fdist_poles_main|apply fdist_monotone_main]; lra. Qed.
