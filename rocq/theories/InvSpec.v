(** Specification vocabulary for sampling by inversion. *)
From Coq Require Import Reals List Bool.
From Coquelicot Require Import Coquelicot.
From Verif Require Import Base Seg SegIntSpec Quant.
Import List ListNotations.
Open Scope R_scope.

(** the levels of a density: the values of the distribution function, and its limits from the left, at the ends of the pieces,
    and its value at 0 *)
Definition level (l : list segment) (v : R) : Prop :=
  v = cdf_spec l 0 \/
  exists (s : segment) (b : R), In s l /\ (sa s = b \/ sb s = b) /\ (v = cdf_spec l b \/ filterlim (cdf_spec l) (at_left b) (locally v)).
(** the inverse computes q between 0 and 1: all long enough searches return q y *)
Definition inverts (vinf : segment -> R) (solve : (R -> R) -> R -> R -> res R) (eps : R) (l : list segment) (q : R -> R) : Prop :=
  forall y, 0 < y < 1 -> exists N, forall fuel, (N <= fuel)%nat -> quantile vinf solve fuel eps l y = Ok (QAt (q y)).
(** the indicator of T <= x *)
Definition below (T : R -> R) (x y : R) : R := if Rle_dec (T y) x then 1 else 0.
