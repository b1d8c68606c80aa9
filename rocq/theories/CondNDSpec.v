(** Specification vocabulary for conditional densities. *)
From Coq Require Import Reals List Bool Arith Permutation.
From Verif Require Import Base ND NDSpec.
Import List ListNotations.
Open Scope R_scope.

(** a joint density as a function of the values of its variables: the function inside the box, zero outside *)
Definition joint (lo hi : nat -> R) (F : ndfun) (env : nat -> R) : R :=
  if forallb (fun v => rle (lo v) (env v) && rle (env v) (hi v)) (nd_vars F)
  then (if nd_abs F then Rabs (nd_f F (map env (nd_vars F))) else nd_f F (map env (nd_vars F))) else 0.
(** all the given variables within their ranges *)
Definition within (lo hi : nat -> R) (vs : list nat) (env : nat -> R) : Prop := forall v, In v vs -> lo v <= env v <= hi v.
(** [l] lists the variables of [vs] that are not in [cv], once each *)
Definition rest_of (vs cv l : list nat) : Prop := NoDup l /\ forall v, In v l <-> In v vs /\ ~ In v cv.
(** [cv] are in the same order as in [vs] *)
Fixpoint sublist (cv vs : list nat) : Prop :=
  match cv, vs with
  | [], _ => True
  | _, [] => False
  | c :: cv', v :: vs' => (c = v /\ sublist cv' vs') \/ sublist cv vs'
  end.
(** the values of [vs] set to those of [X], in order *)
Fixpoint set_all (env : nat -> R) (vs : list nat) (X : list R) : nat -> R :=
  match vs, X with v :: vs', x :: X' => upd (set_all env vs' X') v x | _, _ => env end.
(** the number in a result, zero for an exception *)
Definition num (r : res R) : R := match r with Ok y => y | Err _ => 0 end.
(** integrals over the unit interval of functions that are linear there are exact *)
Definition linear_exact (integ : (R -> R) -> R -> R -> R) : Prop :=
  forall f p q, (forall x, 0 <= x <= 1 -> f x = p + q * x) -> integ f 0 1 = p + q / 2.
