(** Vocabulary for the moments of the named distributions. *)
From Coq Require Import Reals List.
From Coquelicot Require Import Coquelicot.
From Verif Require Import Base Seg Piecewise Integral MomSpec Mom.
Import List ListNotations.
Open Scope R_scope.

(** The constructed density has mean [m] and variance [v]: x and (x-m)^2 are integrable against it; mean() and var()
    return these numbers whenever the error estimates of the quadrature do not make them answer nan or inf, and they
    do return them when the estimates are zero *)
Definition has_moments (r : res pwf) (m v : R) : Prop :=
  exists q, r = Ok q /\ has_expect (fun x => x) (segs q) /\ has_expect (fun x => (x - m) ^ 2) (segs q) /\
    (forall err x, mean err (segs q) = Num x -> x = m) /\
    (forall err x, var err (segs q) = Num x -> x = v) /\
    mean (fun _ _ _ => 0) (segs q) = Num m /\ var (fun _ _ _ => 0) (segs q) = Num v.
(** the same for the mean alone *)
Definition has_mean (r : res pwf) (m : R) : Prop :=
  exists q, r = Ok q /\ has_expect (fun x => x) (segs q) /\
    (forall err x, mean err (segs q) = Num x -> x = m) /\ mean (fun _ _ _ => 0) (segs q) = Num m.
(** the density has no mean *)
Definition no_mean (r : res pwf) : Prop := exists q, r = Ok q /\ ~ has_expect (fun x => x) (segs q).
