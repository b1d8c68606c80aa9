(** Determinant and inverse of a square matrix given by its entries A i j, i, j < n (numpy.linalg.det, and numpy.linalg.inv
    behind the attribute I of a numpy matrix), taken from the Mathematical Components library. *)
From Coq Require Import Reals.
From mathcomp Require Import ssreflect ssrfun ssrbool eqtype ssrnat seq fintype ssralg matrix.
From Verif Require Import RField.

Local Open Scope ring_scope.
(** the entries as a matrix *)
Definition as_mx (n : nat) (A : nat -> nat -> R) : 'M[R]_n := \matrix_(i, j) A i j.
Definition mdet (n : nat) (A : nat -> nat -> R) : R := \det (as_mx n A).
(** the entries of the inverse; only meaningful for a determinant different from 0 and for i, j < n *)
Definition minv (n : nat) (A : nat -> nat -> R) (i j : nat) : R :=
  match insub i, insub j with Some i', Some j' => invmx (as_mx n A) i' j' | _, _ => R0 end.
