(** Specification: counting subsets, the binomial and Poisson laws, probability that at least k of n
    independent observations are below x. *)
From Coq Require Import Reals List.
Import List ListNotations.
Open Scope R_scope.

(** all k-element sublists of a list *)
Fixpoint subs {A} (k : nat) (l : list A) : list (list A) :=
  match k, l with
  | O, _ => [[]]
  | S _, [] => []
  | S k', x :: l' => map (cons x) (subs k' l') ++ subs k l'
  end.
(** number of k-element subsets of an n-element set *)
Definition choose (n k : nat) : nat := length (subs k (seq 0 n)).

Fixpoint rsum (l : list R) : R := match l with [] => 0 | x :: l' => x + rsum l' end.
(** sum of F i for lo <= i < lo + len *)
Definition rsum_range (lo len : nat) (F : nat -> R) : R := rsum (map F (seq lo len)).

Definition binomial_law (n : nat) (p : R) (k : nat) : R := INR (choose n k) * p ^ k * (1 - p) ^ (n - k).
Definition poisson_law (lam : R) (k : nat) : R := exp (- lam) * lam ^ k / INR (fact k).

(** probability that at least k of n independent observations, each below x with probability p, are below x *)
Definition at_least (n k : nat) (p : R) : R := rsum_range k (n + 1 - k) (binomial_law n p).
