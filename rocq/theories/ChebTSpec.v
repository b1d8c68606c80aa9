(** Specification vocabulary for Chebyshev series and eigenvalues. *)
From Coq Require Import Reals List Bool Arith.
From Verif Require Import Base.
Import List ListNotations.
Open Scope R_scope.

(** the Chebyshev polynomial of degree k *)
Fixpoint Tn (k : nat) (x : R) : R :=
  match k with
  | O => 1
  | S k' => match k' with O => x | S k'' => 2 * x * Tn k' x - Tn k'' x end
  end.
(** value of the series with coefficients c0, c1, ... *)
Definition cheb_series (c : list R) (x : R) : R := sumR (map (fun i => nth i c 0 * Tn i x) (seq 0 (length c))).
(** product of a matrix, given by rows, and a vector *)
Definition mat_vec (M : list (list R)) (v : list R) : list R := map (fun row => sumR (map (fun p => fst p * snd p) (combine row v))) M.
Definition eigenvalue (M : list (list R)) (r : R) : Prop :=
  exists v, length v = length M /\ (exists x, In x v /\ x <> 0) /\ mat_vec M v = map (fun x => r * x) v.
(** [l] lists the eigenvalues of M as pairs of real and imaginary part; those that are not real have an imaginary part of at
    least [tol] *)
Definition lists_eigenvalues (tol : R) (M : list (list R)) (l : list (R * R)) : Prop :=
  (forall r, In (r, 0) l <-> eigenvalue M r) /\ (forall r i, In (r, i) l -> i = 0 \/ tol <= Rabs i).
