(** Spec of "a singularity is always declared": a density may be unbounded only next to an end its piece declares singular. *)
From Coq Require Import Reals List Bool.
From Coquelicot Require Import Coquelicot.
From Verif Require Import Base Seg PiecewiseSpec Integral SegIntSpec Piecewise StdSpec.
Import List ListNotations.
Open Scope R_scope.

Definition bounded_on (f : R -> R) (a b : Rbar) : Prop := exists M, forall x : R, Rbar_lt a x /\ Rbar_lt x b -> Rabs (f x) <= M.

(** bounded on every part of the piece that keeps away from the ends declared singular *)
Definition tame (s : segment) : Prop :=
  forall c d : Rbar, Rbar_le (sa s) c -> Rbar_le d (sb s) ->
    (hasLeftPole s = true -> Rbar_lt (sa s) c) -> (hasRightPole s = true -> Rbar_lt d (sb s)) -> bounded_on (sf s) c d.

Definition poles_declared (r : res pwf) : Prop := exists q, r = Ok q /\ segs q <> [] /\ Forall tame (segs q).

(** strictly monotone, and every piece so *)
Definition rising (f : R -> R) (a b : Rbar) : Prop := forall x y : R, Rbar_lt a x -> x < y -> Rbar_lt y b -> f x < f y.
Definition falling (f : R -> R) (a b : Rbar) : Prop := forall x y : R, Rbar_lt a x -> x < y -> Rbar_lt y b -> f y < f x.
Definition pieces_monotone (r : res pwf) : Prop :=
  exists q, r = Ok q /\ segs q <> [] /\ Forall (fun s => rising (sf s) (sa s) (sb s) \/ falling (sf s) (sa s) (sb s)) (segs q).
