(** Ideal quadrature: the value of an exact integration call, for proper and improper integrals. *)
From Coq Require Import Reals Lra List Bool.
From Coquelicot Require Import Coquelicot.
From Verif Require Import Base.
Import List ListNotations.
Open Scope R_scope.

(** Points approaching the end x of an interval from inside: from the right / from the left. *)
Definition at_r (x : Rbar) : (R -> Prop) -> Prop :=
  match x with Finite r => at_right r | _ => Rbar_locally x end.
Definition at_l (x : Rbar) : (R -> Prop) -> Prop :=
  match x with Finite r => at_left r | _ => Rbar_locally x end.

(** Idealised result of the quadrature routines of pacal/integration.py
    (integrate_fejer2 122, integrate_fejer2_pinf 234, integrate_fejer2_minf 242,
    integrate_fejer2_Xn_transformP/N 254-263, integrate_wide_interval 264): the improper Riemann
    integral over the open interval, with the sign of an exchanged interval.  Discretisation and
    rounding errors are not modelled; the rules never evaluate the integrand at the ends. *)
Definition Q (f : R -> R) (a b : Rbar) : R :=
  if beq a b then 0
  else if blt a b then RInt_gen f (at_r a) (at_l b)
  else - RInt_gen f (at_r b) (at_l a).

(** [f] has a (possibly improper) Riemann integral over the open interval (a,b). *)
Definition integrable (f : R -> R) (a b : Rbar) : Prop :=
  Rbar_lt a b /\
  (forall u v : R, Rbar_lt a u -> u < v -> Rbar_lt v b -> ex_RInt f u v) /\
  ex_RInt_gen f (at_r a) (at_l b).
