(** Specification vocabulary for summaries of a distribution. *)
From Coq Require Import Reals List Bool.
From Coquelicot Require Import Coquelicot.
From Verif Require Import Base Seg PiecewiseSpec TransformSpec.
Import List ListNotations.
Open Scope R_scope.

(** d is a median of |X - m|: an interval around m of half width less than d has probability at most 1/2,
    one of half width more than d has at least 1/2 *)
Definition abs_dev_median (l : list segment) (m d : R) : Prop :=
  0 <= d /\
  (forall e, 0 < e -> e < d -> pprob l (Finite (m - e)) (Finite (m + e)) <= 1 / 2) /\
  (forall e, d < e -> 1 / 2 <= pprob l (Finite (m - e)) (Finite (m + e))).

(** atoms seen from m are at the same distance or their distances differ by more than the tolerance *)
Definition dists_sep (eps m : R) (l : list segment) : Prop :=
  forall a p b k, In (DiracSeg a p) l -> In (DiracSeg b k) l ->
    Rabs (a - m) = Rabs (b - m) \/ eps < Rabs (Rabs (a - m) - Rabs (b - m)).

(** f rises up to some point of [a,b] and falls after it *)
Definition rises (f : R -> R) (a b : R) : Prop := forall x y, a <= x -> x <= y -> y <= b -> f x <= f y.
Definition falls (f : R -> R) (a b : R) : Prop := forall x y, a <= x -> x <= y -> y <= b -> f y <= f x.
Definition unimodal (f : R -> R) (a b : R) : Prop := exists c, a <= c <= b /\ rises f a c /\ falls f c b.
(** a minimiser without rounding, for functions that fall and then rise (scipy's fminbound promises no more than a
    local minimum) *)
Definition exact_min (fmin : (R -> R) -> R -> R -> R) : Prop :=
  forall g a b, a < b -> unimodal (fun x => - g x) a b -> a <= fmin g a b <= b /\ forall x, a <= x <= b -> g (fmin g a b) <= g x.
(** a continuous piece without pole, with one hump; on a half-infinite piece the hump lies before the far point and
    [vinf] is the limit at infinity, not more than the value at the finite end (for a density it is 0) *)
Definition one_hump (far vinf : segment -> R) (s : segment) : Prop :=
  match s with
  | MInfSeg b f => far s < b /\ unimodal f (far s) b /\ (forall x y, x <= y -> y <= far s -> f x <= f y) /\
                   filterlim f (Rbar_locally m_infty) (locally (vinf s)) /\ vinf s <= f b
  | PInfSeg a f => a < far s /\ unimodal f a (far s) /\ (forall x y, far s <= x -> x <= y -> f y <= f x) /\
                   filterlim f (Rbar_locally p_infty) (locally (vinf s)) /\ vinf s <= f a
  | Seg a b f => a < b /\ unimodal f a b
  | ConstSeg a b c => a < b
  | _ => False
  end.
