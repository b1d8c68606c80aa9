(** Specification vocabulary for the multivariate normal distribution, independent of the code. *)
From Coq Require Import Reals List Arith.
From Coquelicot Require Import Coquelicot.
From Verif Require Import Base ND NDSpec QuadFacts RMx NDNorm.
Import List ListNotations.
Open Scope R_scope.

(** the quadratic form of a matrix *)
Definition quad (n : nat) (A : nat -> nat -> R) (v : nat -> R) : R := bsum n (fun i => bsum n (fun j => v i * A i j * v j)).
(** symmetric and positive definite *)
Definition pos_def (n : nat) (A : nat -> nat -> R) : Prop :=
  (forall i j, (i < n)%nat -> (j < n)%nat -> A i j = A j i) /\
  (forall v : nat -> R, (exists i, (i < n)%nat /\ v i <> 0) -> 0 < quad n A v).
(** L is the inverse of A *)
Definition inverse_of (n : nat) (A L : nat -> nat -> R) : Prop :=
  forall i j, (i < n)%nat -> (j < n)%nat -> bsum n (fun k => A i k * L k j) = if Nat.eqb i j then 1 else 0.
(** the density of N(mu, Sigma) in the textbooks: exp (- (x - mu)' L (x - mu) / 2) / sqrt (det (2 pi Sigma)) *)
Definition gauss_density (n : nat) (mu : nat -> R) (A L : nat -> nat -> R) (x : nat -> R) : R :=
  exp (- (quad n L (fun i => x i - mu i) / 2)) / sqrt (mdet n (fun i j => 2 * PI * A i j)).
(** integrals over the whole line, one variable after the other: H is what is left of F after integrating the variables vs *)
Inductive integrated : list nat -> ((nat -> R) -> R) -> ((nat -> R) -> R) -> Prop :=
| int_done F G : (forall env, F env = G env) -> integrated [] F G
| int_one v vs F G H :
    (forall env, is_RInt_gen (fun t => F (upd env v t)) (Rbar_locally m_infty) (Rbar_locally p_infty) (G env)) ->
    integrated vs G H -> integrated (v :: vs) F H.
(** the value of a distribution, or of the constant one, where the variables have the values env *)
Definition at_env (r : ndres) (env : nat -> R) : R := match r with NOne => 1 | NDist g => ndn_pdf g (map env (g_vars g)) end.
Definition vars_of (r : ndres) : list nat := match r with NOne => [] | NDist g => g_vars g end.
(** a mean and a covariance matrix of matching sizes with distinct variables *)
Definition normal_params (vars : list nat) (mu : list R) (Sigma : mat) : Prop :=
  NoDup vars /\ length vars = length mu /\ length Sigma = length mu /\ (forall row, In row Sigma -> length row = length mu) /\
  pos_def (length mu) (entry Sigma).
