(** Specification: when an attempt is good enough, and when a sequence of attempts has stalled. *)
From Coq Require Import Reals List Arith.
From Verif Require Import Base.
Open Scope R_scope.

Section Spec.
Variables abs_tol rel_tol ratio : R.
Variable nonzero : Prop.
Variables ae y : nat -> R.
(** attempt i meets the tolerance *)
Definition within (i : nat) : Prop := (ae i <= abs_tol \/ ae i <= rel_tol * Rabs (y i)) /\ (nonzero -> y i <> 0).
(** of the first n attempts, the last one that improved on the previous improvement by the factor [ratio] *)
Fixpoint last_improved (n : nat) : nat :=
  match n with
  | O => O
  | S k => if Rlt_dec (ae k) (ratio * ae (last_improved k)) then k else last_improved k
  end.
(** rounds since then; the first attempt counts as a round without improvement *)
Definition idle (n : nat) : nat := if Nat.eqb (last_improved n) 0 then n else (n - 1 - last_improved n)%nat.
Definition stalled (first patience n : nat) : Prop := (first <= n /\ patience <= idle n)%nat.
End Spec.
(** relative error; [big] stands for it when the value is zero *)
Definition relative (big ae y : R) : R := if Req_EM_T y 0 then big else ae / Rabs y.
