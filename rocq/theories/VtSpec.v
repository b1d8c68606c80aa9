(** Specification vocabulary for variable transforms. *)
From Coq Require Import Reals Lra List Bool.
From Coquelicot Require Import Coquelicot.
From Verif Require Import Base Integral IntegralFacts Vt.
Import List ListNotations.
Open Scope R_scope.

(** [v] maps the open interval (a,b) one-to-one onto the open parameter interval, in the direction of the sign
    [sg] (1: increasing, -1: decreasing); its inverse undoes it in both orders and the supplied derivative is
    positive and is, up to that sign, the derivative of the inverse.  The parameter values that stand for
    infinity are ends of the parameter interval. *)
Definition exact_transform (v : vt) (a b : Rbar) (sg : R) : Prop :=
  (forall x : R, Rbar_lt a x -> Rbar_lt x b -> vmin v < vchange v x < vmax v /\ vinv v (vchange v x) = x) /\
  (forall t : R, vmin v < t < vmax v -> Rbar_lt a (vinv v t) /\ Rbar_lt (vinv v t) b /\ vchange v (vinv v t) = t) /\
  (forall x y : R, Rbar_lt a x -> x < y -> Rbar_lt y b -> 0 < sg * (vchange v y - vchange v x)) /\
  (forall t u : R, vmin v < t -> t < u -> u < vmax v -> 0 < sg * (vinv v u - vinv v t)) /\
  (forall t : R, vmin v < t < vmax v -> 0 < vderiv v t /\ is_derive (vinv v) t (sg * vderiv v t) /\ continuous (vderiv v) t) /\
  vmin v < vmax v /\
  (forall t, In t (vinf v) -> t = vmin v \/ t = vmax v).
