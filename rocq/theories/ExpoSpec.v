(** Specification vocabulary for exponents. *)
From Coq Require Import Reals.
From Coquelicot Require Import Coquelicot.
Open Scope R_scope.

(** |g h| = c h^d for 0 < h <= 1/10 *)
Definition power_near (g : R -> R) (c d : R) : Prop := forall h, 0 < h <= 1 / 10 -> Rabs (g h) = c * Rpower h d.
(** |g h| = c h^d up to a relative error delta *)
Definition power_near_about (g : R -> R) (c d delta : R) : Prop :=
  forall h, 0 < h <= 1 / 10 -> c * Rpower h d * (1 - delta) <= Rabs (g h) <= c * Rpower h d * (1 + delta).
(** |g t| = c t^d from T on *)
Definition power_tail (g : R -> R) (T c d : R) : Prop := forall t, T <= t -> Rabs (g t) = c * Rpower t d.
(** f moved to the singular point: h units to the right or to the left of x *)
Definition beside (f : R -> R) (x : R) (pos : bool) (h : R) : R := f (if pos then x + h else x - h).
(** not bounded next to 0 *)
Definition unbounded_near (g : R -> R) : Prop := forall M e, 0 < e -> exists h, 0 < h < e /\ M < Rabs (g h).
