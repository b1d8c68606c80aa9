(** Specification for conditional distributions of copulas. *)
From Coq Require Import Reals List Bool.
From Coquelicot Require Import Coquelicot.
From Verif Require Import Base CopulaSpec Ccond.
Import List ListNotations.
Open Scope R_scope.

(** a function of two numbers as a function of a list *)
Definition pair_fun (C : R -> R -> R) (X : list R) : R := C (nth 0 X 0) (nth 1 X 0).
(** the number of true flags, and the product of g over the marked entries *)
Fixpoint marked (fl : list bool) : nat := match fl with [] => 0 | b :: fl' => if b then S (marked fl') else marked fl' end.
Fixpoint marked_prod (g : R -> R) (fl : list bool) (X : list R) : R :=
  match fl, X with b :: fl', x :: X' => (if b then g x else 1) * marked_prod g fl' X' | _, _ => 1 end.
(** a strict generator fi with derivative fi', and its inverse psi 0 with all derivatives *)
Definition generator (psi : nat -> R -> R) (fi fi' : R -> R) : Prop :=
  (forall t, 0 < t < 1 -> 0 < fi t /\ is_derive fi t (fi' t) /\ psi 0%nat (fi t) = t) /\ fi 1 = 0 /\
  (forall k s, 0 < s -> is_derive (psi k) s (psi (S k) s)).
(** the range of the marginal contains [0,1] *)
Definition covers01 (m : cmarg) : Prop := Rbar_le (k_lo m) (Finite 0) /\ Rbar_le (Finite 1) (k_hi m).
