(** Specification vocabulary: n independent observations, each at most x with probability p, between x and y with probability q - p,
    and above y with probability 1 - q. *)
From Coq Require Import Reals List.
From Coquelicot Require Import Coquelicot.
Open Scope R_scope.

(** mean of phi(r,s), where r observations are at most x and s are at most y *)
Fixpoint trin (n : nat) (p q : R) (phi : nat -> nat -> R) : R :=
  match n with
  | O => phi O O
  | S n => p * trin n p q (fun r s => phi (S r) (S s)) + (q - p) * trin n p q (fun r s => phi r (S s)) + (1 - q) * trin n p q phi
  end.
(** probability that at least i observations are at most x and at least j are at most y: the joint distribution function of the i-th
    and the j-th order statistic at x <= y *)
Definition both_at_least (n i j : nat) (p q : R) : R :=
  trin n p q (fun r s => if Nat.leb i r then (if Nat.leb j s then 1 else 0) else 0).
(** F is a distribution function with the continuous density f *)
Definition smooth_cdf (F f : R -> R) : Prop :=
  (forall x, is_derive F x (f x)) /\ (forall x, continuous f x) /\ (forall x y, x <= y -> F x <= F y) /\
  is_lim F m_infty 0 /\ is_lim F p_infty 1.
