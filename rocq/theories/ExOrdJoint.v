(** Concrete instances for the joint distribution of two order statistics. *)
From Coq Require Import Reals ZArith Lra Lia List Bool.
From Coquelicot Require Import Coquelicot.
From Verif Require Import Base Comb CombSpec Integral IntParts OrdJoint OrdJointSpec OrdJointFacts PropOrdJoint ExComb.
Import List ListNotations.
Open Scope R_scope.

(** the logistic distribution *)
Example logistic_cdf : smooth_cdf lF lf.
Proof.
  unfold smooth_cdf. splits; auto using lF_derive, lf_cont, lF_m, lF_p. intros x y L.
  assert (E : forall t, lF t = 1 - / (1 + exp t)) by (intros t; unfold lF; pose proof (exp_pos t); field; lra).
  rewrite !E. assert (K : / (1 + exp y) <= / (1 + exp x)); [|lra]. apply Rinv_le_contravar; [pose proof (exp_pos x); lra|].
  destruct L as [L|L]; [apply exp_increasing in L; lra|subst; lra].
Qed.
(** second and seventh of eight observations, as in the demonstration of the package *)
Example ij_eight : forall x, exists g, (forall y, ij_call 8 2 7 lf lF x y = Ok (g y)) /\ has_int g m_infty p_infty (order_stat_fun 8 2 (lf x) (lF x)).
Proof. apply (ij_marginals 8 2 7 lF lf); try lia. apply logistic_cdf. Qed.
(** minimum and maximum of two: the value at x < y is twice the product *)
Example ij_two f F x y : x < y -> ij_call 2 1 2 f F x y = Ok (2 * f x * f y).
Proof.
  intros L. change (ij_call (Z.of_nat 2) (Z.of_nat 1) (Z.of_nat 2) f F x y = Ok (2 * f x * f y)). rewrite ij_value by lia.
  destruct (rltP x y); [|lra]. f_equal. unfold coef. simpl. field.
Qed.
Example ij_bad f F x y : ij_call 5 3 3 f F x y = Err EAssert.
Proof. apply ij_defined. lia. Qed.
