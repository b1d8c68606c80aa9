(** Property theorems (OrdJoint). Proofs are in OrdJointMain.v and the files it imports. *)
From Coq Require Import Reals ZArith Lra Lia List Bool.
From Coquelicot Require Import Coquelicot.
From Verif Require Import Base Comb CombSpec CombFacts CombMain Integral IntegralFacts IntParts IntPartsFacts OrdJoint OrdJointSpec OrdJointFacts OrdJointFacts2.
From Verif Require Import OrdJointMain.
Import List ListNotations.
Open Scope R_scope.

(** C67: there is a value exactly when 1 <= i < j <= n; otherwise the constructor's assertion fails. *)
Theorem ij_defined :
  forall (n i j : Z) f F x y,
  ((1 <= i < j /\ j <= n)%Z -> exists v, ij_call n i j f F x y = Ok v) /\
  (~ (1 <= i < j /\ j <= n)%Z -> ij_call n i j f F x y = Err EAssert).
Proof. exact ij_defined_main. Qed.
Print Assumptions ij_defined.

(** C67: for x < y the value is the mixed derivative of the joint distribution function: the probability that at least i of n
    observations are at most x and at least j are at most y. *)
Theorem ij_density :
  forall n i j (F f : R -> R) x y, (1 <= i)%nat -> (i < j)%nat -> (j <= n)%nat -> x < y -> is_derive F x (f x) -> is_derive F y (f y) ->
  exists G v, (forall u, is_derive (fun y => both_at_least n i j (F u) (F y)) y (G u)) /\
    ij_call (Z.of_nat n) (Z.of_nat i) (Z.of_nat j) f F x y = Ok v /\ is_derive G x v.
Proof. exact ij_density_main. Qed.
Print Assumptions ij_density.

(** C67: the value is 0 where the i-th observation would not be below the j-th, and nowhere negative. *)
Theorem ij_support :
  forall n i j (F f : R -> R) x y, (1 <= i)%nat -> (i < j)%nat -> (j <= n)%nat ->
  (y <= x -> ij_call (Z.of_nat n) (Z.of_nat i) (Z.of_nat j) f F x y = Ok 0) /\
  (smooth_cdf F f -> 0 <= f x -> 0 <= f y -> exists v, ij_call (Z.of_nat n) (Z.of_nat i) (Z.of_nat j) f F x y = Ok v /\ 0 <= v).
Proof. exact ij_support_main. Qed.
Print Assumptions ij_support.

(** C67: integrating out either variable leaves the density of the other order statistic. *)
Theorem ij_marginals :
  forall n i j F f, (1 <= i)%nat -> (i < j)%nat -> (j <= n)%nat -> smooth_cdf F f ->
  (forall x, exists g, (forall y, ij_call (Z.of_nat n) (Z.of_nat i) (Z.of_nat j) f F x y = Ok (g y)) /\
     has_int g m_infty p_infty (order_stat_fun n i (f x) (F x))) /\
  (forall y, exists g, (forall x, ij_call (Z.of_nat n) (Z.of_nat i) (Z.of_nat j) f F x y = Ok (g x)) /\
     has_int g m_infty p_infty (order_stat_fun n j (f y) (F y))).
Proof. exact ij_marginals_main. Qed.
Print Assumptions ij_marginals.

(** C67: the total mass is one. *)
Theorem ij_mass :
  forall n i j F f, (1 <= i)%nat -> (i < j)%nat -> (j <= n)%nat -> smooth_cdf F f ->
  exists p m, (forall x y, ij_call (Z.of_nat n) (Z.of_nat i) (Z.of_nat j) f F x y = Ok (p x y)) /\
    (forall x, has_int (p x) m_infty p_infty (m x)) /\ is_RInt_gen m (Rbar_locally m_infty) (Rbar_locally p_infty) 1.
Proof. exact ij_mass_main. Qed.
Print Assumptions ij_mass.
