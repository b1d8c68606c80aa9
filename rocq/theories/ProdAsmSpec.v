(** Specification vocabulary for whole products. *)
From Coq Require Import Reals List.
From Coquelicot Require Import Coquelicot.
From Verif Require Import Base Seg Piecewise PiecewiseSpec Integral SegIntSpec IntParts IndepSpec.
Import List ListNotations.
Open Scope R_scope.

(** an end of a piece, or one of -1, 0, 1 inside a piece *)
Definition cut_end (l : list segment) (p : Rbar) : Prop :=
  is_end l p \/ ((p = Finite (-1) \/ p = Finite 0 \/ p = Finite 1) /\ exists s, In s l /\ Rbar_lt (sa s) p /\ Rbar_lt p (sb s)).
(** products of such finite points *)
Definition end_prod (f g : list segment) (r : R) : Prop := exists p q : R, cut_end f p /\ cut_end g q /\ r = p * q.
(** different products are further apart than the relative tolerance *)
Definition prods_sep (e : R) (f g : list segment) : Prop :=
  forall u v, end_prod f g u -> end_prod f g v -> u < v -> e < (v - u) / Rmax 1 (Rabs v).
(** the integrand for the product at x is integrable on every interval on which both pieces are defined *)
Definition prod_integrable (f g : list segment) (x : R) : Prop :=
  forall si sj a b, In si f -> In sj g -> isDirac si = false -> isDirac sj = false -> Rbar_lt a b ->
    (forall t : R, Rbar_lt a t -> Rbar_lt t b ->
       t <> 0 /\ Rbar_lt (sa si) t /\ Rbar_lt t (sb si) /\ Rbar_lt (sa sj) (x / t) /\ Rbar_lt (x / t) (sb sj)) ->
    integrable (fun t => sf si t * sf sj (x / t) * / Rabs t) a b.
(** not concentrated at zero *)
Definition not_zero (l : list segment) : Prop := exists s, In s l /\ forall m, s <> DiracSeg 0 m.
