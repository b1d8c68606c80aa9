(** Specification vocabulary for whole quotients. *)
From Coq Require Import Reals List.
From Coquelicot Require Import Coquelicot.
From Verif Require Import Base Seg Piecewise PiecewiseSpec Integral SegIntSpec IntParts IndepSpec.
Import List ListNotations.
Open Scope R_scope.

(** an end of a piece, or a point inside a piece that is 0, -1, -1/2 or half of an end *)
Definition zero_cut (l : list segment) (p : Rbar) : Prop :=
  is_end l p \/
  ((p = Finite 0 \/ p = Finite (-1) \/ p = Finite (-1/2) \/ exists e : R, is_end l e /\ p = Finite (e / 2)) /\
   exists s, In s l /\ Rbar_lt (sa s) p /\ Rbar_lt p (sb s)).
(** quotients of such finite points *)
Definition end_quot (f g : list segment) (r : R) : Prop := exists p q : R, zero_cut f p /\ zero_cut g q /\ q <> 0 /\ r = p / q.
(** these quotients and zero are further apart than the relative tolerance *)
Definition quots_sep (e : R) (f g : list segment) : Prop :=
  forall u v, end_quot f g u \/ u = 0 -> end_quot f g v \/ v = 0 -> u < v -> e < (v - u) / Rmax 1 (Rabs v).
(** the integrand for the quotient at x, over the denominator and over the numerator, is integrable on every
    interval on which both pieces are defined *)
Definition quot_integrable (f g : list segment) (x : R) : Prop :=
  forall si sj a b, In si f -> In sj g -> isDirac si = false -> isDirac sj = false -> Rbar_lt a b ->
    ((forall t : R, Rbar_lt a t -> Rbar_lt t b -> Rbar_lt (sa si) (x * t) /\ Rbar_lt (x * t) (sb si) /\ Rbar_lt (sa sj) t /\ Rbar_lt t (sb sj)) ->
     integrable (fun t => sf si (x * t) * sf sj t * Rabs t) a b) /\
    ((forall t : R, Rbar_lt a t -> Rbar_lt t b -> Rbar_lt (sa si) t /\ Rbar_lt t (sb si) /\ Rbar_lt (sa sj) (t / x) /\ Rbar_lt (t / x) (sb sj)) ->
     integrable (fun t => sf si t * sf sj (t / x) * (Rabs t / x / x)) a b).
