(** Specification vocabulary for conditional distributions. *)
From Coq Require Import Reals List.
From Coquelicot Require Import Coquelicot.
From Verif Require TransformSpec.
From Verif Require Import Base Seg Piecewise PiecewiseSpec Integral SegIntSpec IntParts IndepSpec.
Import List ListNotations.
Open Scope R_scope.

(** density and masses are not negative *)
Definition nonneg_law (l : list segment) : Prop :=
  Forall (fun s => match s with
                   | DiracSeg _ m => 0 <= m
                   | _ => forall x : R, Rbar_lt (sa s) x -> Rbar_lt x (sb s) -> 0 <= sf s x
                   end) l.
(** ends of pieces, the points -1, 0, 1 at which products are cut, and the given points *)
Definition marked (l : list segment) (pts : list R) (p : R) : Prop := is_end l p \/ p = -1 \/ p = 0 \/ p = 1 \/ In p pts.
(** different marked points are further apart than the relative tolerance *)
Definition marks_sep (e : R) (l : list segment) (pts : list R) : Prop :=
  forall p q, marked l pts p -> marked l pts q -> p < q -> e < (q - p) / Rmax 1 (Rabs q).
(** r is the law of X (density d) given that X lies strictly between lo and hi: a density of total mass 1, the
    probability of every open interval and the atoms are those of X inside (lo,hi) divided by P(lo < X < hi) *)
Definition cond_law (d r : list segment) (lo hi : Rbar) : Prop :=
  ordered r /\ Forall wf_seg r /\ total_mass r = 1 /\
  (forall u v, Rbar_lt u v ->
     TransformSpec.pprob r u v = TransformSpec.pprob d (TransformSpec.rmaxb u lo) (TransformSpec.rminb v hi) / TransformSpec.pprob d lo hi) /\
  (forall z : R, (TransformSpec.betw lo hi z -> pm r z = pm d z / TransformSpec.pprob d lo hi) /\ (~ TransformSpec.betw lo hi z -> pm r z = 0)).
(** every atom is at x or further than eps from it *)
Definition atoms_apart (eps : R) (l : list segment) (x : R) : Prop := forall a m, In (DiracSeg a m) l -> a = x \/ eps < Rabs (a - x).
