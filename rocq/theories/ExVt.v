(** Concrete instances for the variable transforms. *)
From Coq Require Import Reals Lra List Bool.
From Coquelicot Require Import Coquelicot.
From Verif Require Import Base Integral IntegralFacts Vt VtSpec VtFacts VtMain ExSegInt ExProd.
Import List ListNotations.
Open Scope R_scope.

(** exp(3 - x)/4 over [3, inf) and exp(x)/4 over (-inf, 0], both a quarter *)
Example ex_vt_pinf : fejer2_pinf (fun x => exp (3 - x) / 4) 3 None 1 = 1 / 4 /\ clenshaw_pinf (fun x => exp (3 - x) / 4) 3 = 1 / 4.
Proof.
  rewrite <- (proj2 exD_pinf). apply (proj1 (proj2 (vartransforms_integral_main (fun x => exp (3 - x) / 4)))); [lra|apply exD_pinf|].
  intros x _. apply (ex_derive_continuous (V := R_NormedModule)). auto_derive. auto.
Qed.
Example ex_vt_minf : fejer2_minf (fun x => exp x / 4) 0 None 2 = 1 / 4 /\ clenshaw_minf (fun x => exp x / 4) 0 = 1 / 4.
Proof.
  rewrite <- (proj2 exD_minf). apply (proj1 (proj2 (proj2 (vartransforms_integral_main (fun x => exp x / 4))))); [lra|apply exD_minf|].
  intros x _. apply (ex_derive_continuous (V := R_NormedModule)). auto_derive. auto.
Qed.
(** the transform of [4, inf) with exponent 2 sends 10 to 1/2 and back *)
Example ex_vt_value : vchange (rec_p 4 2 None) 10 = 1 / 2 /\ vinv (rec_p 4 2 None) (1 / 2) = 10.
Proof.
  assert (E : vchange (rec_p 4 2 None) 10 = 1 / 2).
  { cbn. unfold rp_change, offset. replace (req 4 0) with false by (symmetry; apply req_false; lra). replace (req 2 1) with false by (symmetry; apply req_false; lra).
    replace (req 2 2) with true by (symmetry; apply req_true; lra). rewrite Rabs_right by lra. replace (4 / 2 / (10 - 4 + 4 / 2)) with (Rsqr (1 / 2)) by (unfold Rsqr; field). apply sqrt_Rsqr. lra. }
  split; auto. rewrite <- E. apply (proj1 (rec_p_exact 4 2 ltac:(lra))); simpl; auto; lra.
Qed.
(** the power substitution at the end 1 leaves out the first hundredth *)
Example ex_vt_pole : fejer2_XnP (1 / 100) 3 (fun x => / x) 1 2 = Q (fun x => / x) 1 2 - Q (fun x => / x) 1 (101 / 100).
Proof.
  replace (101 / 100) with (1 + Rabs 1 * (1 / 100)) by (rewrite Rabs_R1; lra).
  apply (pole_transform_integral_main (1 / 100) 3 (fun x => / x) 1 2); try lra.
  - apply cont_integrable; [lra|]. intros t T. apply continuous_Rinv. lra.
  - intros x X. apply continuous_Rinv. lra.
  - rewrite Rabs_R1. lra.
Qed.
