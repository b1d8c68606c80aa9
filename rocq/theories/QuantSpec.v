(** Specification vocabulary for quantiles. *)
From Coq Require Import Reals List Bool.
From Coquelicot Require Import Coquelicot.
From Verif Require Import Base Seg Quant.
Import List ListNotations.
Open Scope R_scope.

(** a root finder without rounding: for a function continuous on the bracket (it agrees there with a continuous
    function) with a change of sign it returns a root in the bracket *)
Definition exact_solver (solve : (R -> R) -> R -> R -> res R) : Prop :=
  forall g a b, a < b -> (exists h, continuity h /\ forall x, a <= x <= b -> g x = h x) -> g a * g b <= 0 ->
  exists r, solve g a b = Ok r /\ a <= r <= b /\ g r = 0.

(** the value used at an infinite end of a piece is the limit there *)
Definition end_limits (vinf : segment -> R) (l : list segment) : Prop :=
  forall s, In s l ->
    (isMInf s = true -> filterlim (sf s) (Rbar_locally m_infty) (locally (vinf s))) /\
    (isPInf s = true -> filterlim (sf s) (Rbar_locally p_infty) (locally (vinf s))).

(** x is a y-quantile of the distribution function F: F(t) <= y for every t < x, and y <= F(x) *)
Definition is_quantile (F : R -> R) (y x : R) : Prop := (forall t, t < x -> F t <= y) /\ y <= F x.
