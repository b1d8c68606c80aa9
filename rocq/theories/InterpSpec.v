(** Specification vocabulary for interpolation. *)
From Coq Require Import Reals List Bool Arith Sorted.
From Verif Require Import Base.
Import List ListNotations.
Open Scope R_scope.

(** value of the polynomial with coefficients c0, c1, ... *)
Fixpoint poly (cs : list R) (x : R) : R := match cs with [] => 0 | c :: cs' => c + x * poly cs' x end.
(** [f] is a polynomial with n coefficients, i.e. of degree below n *)
Definition poly_lt (n : nat) (f : R -> R) : Prop := exists cs, length cs = n /\ forall x, f x = poly cs x.
(** [f] passes through the points *)
Definition through (Xs Ys : list R) (f : R -> R) : Prop := forall i, (i < length Xs)%nat -> f (nth i Xs 0) = nth i Ys 0.
(** the interpolating polynomial *)
Definition interpolates (Xs Ys : list R) (P : R -> R) : Prop := poly_lt (length Xs) P /\ through Xs Ys P.
(** all k-th Chebyshev points: projections of equally spaced points of the half circle over [a,b] *)
Definition circle_point (a b t : R) : R := (a + b) / 2 - (b - a) / 2 * cos t.
Definition increasing (l : list R) : Prop := StronglySorted Rlt l.
