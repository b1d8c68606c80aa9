(** What a copula is, written without reference to the code. *)
From Coq Require Import Reals List Permutation.
From Verif Require Import Base.
Import List ListNotations.
Open Scope R_scope.

Definition in01 (u : R) : Prop := 0 <= u <= 1.

(** a two-dimensional copula: grounded, uniform margins, every rectangle has nonnegative mass *)
Definition is_copula2 (C : R -> R -> R) : Prop :=
  (forall u, in01 u -> C u 0 = 0 /\ C 0 u = 0) /\
  (forall u, in01 u -> C u 1 = u /\ C 1 u = u) /\
  (forall u1 u2 v1 v2, in01 u1 -> in01 u2 -> in01 v1 -> in01 v2 -> u1 <= u2 -> v1 <= v2 ->
     0 <= C u2 v2 - C u1 v2 - C u2 v1 + C u1 v1).

(** in d dimensions: grounded, uniform margins, increasing in every argument, between the Frechet bounds
    max(sum u_i - (d-1), 0) and min u_i, and indifferent to the order of the arguments *)
Definition copula_bounds (d : nat) (C : list R -> R) : Prop :=
  (forall X, length X = d -> Forall in01 X -> In 0 X -> C X = 0) /\
  (forall n m u, (n + S m = d)%nat -> in01 u -> C (repeat 1 n ++ u :: repeat 1 m) = u) /\
  (forall X Y, length X = d -> Forall in01 X -> Forall in01 Y -> Forall2 Rle X Y -> C X <= C Y) /\
  (forall X, length X = d -> Forall in01 X ->
     0 <= C X /\ sumR X - (INR d - 1) <= C X /\ forall u, In u X -> C X <= u) /\
  (forall X Y, length X = d -> Forall in01 X -> Permutation X Y -> C X = C Y).

Definition prodR (l : list R) : R := fold_right Rmult 1 l.
Definition minR (l : list R) : R := fold_right Rmin 1 l.

(** textbook formulas, for arguments strictly between 0 and 1 *)
Definition gumbel_formula (th : R) (X : list R) : R :=
  exp (- Rpower (sumR (map (fun u => Rpower (- ln u) th) X)) (/ th)).
Definition clayton_formula (th : R) (X : list R) : R :=
  Rpower (sumR (map (fun u => Rpower u (- th)) X) - INR (length X) + 1) (- / th).
Definition frank_formula (th : R) (X : list R) : R :=
  - / th * ln (1 + (exp (- th) - 1) * prodR (map (fun u => (exp (- th * u) - 1) / (exp (- th) - 1)) X)).
