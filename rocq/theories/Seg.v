(** Segments: the pieces of a piecewise function (pacal/segments.py). *)
From Coq Require Import Reals Lra List Bool.
From Coquelicot Require Import Coquelicot.
From Verif Require Import Base.
Import List ListNotations.
Open Scope R_scope.

(** The segment classes: Segment (segments.py:113), ConstSegment (480),
    MInfSegment (497), PInfSegment (582), DiracSegment (671), SegmentWithPole (786).
    Simplified: the interpolated variants (InterpolatedSegment etc.) are Segments
    whose function is the interpolator; safe_a/safe_b, which only move plotting and
    interpolation nodes, are dropped; the function argument of a piece is a total
    function on R. *)
Inductive segment :=
| Seg (a b : R) (f : R -> R)
| ConstSeg (a b : R) (c : R)
| MInfSeg (b : R) (f : R -> R)
| PInfSeg (a : R) (f : R -> R)
| DiracSeg (a : R) (m : R)
| PoleSeg (a b : R) (f : R -> R) (left : bool).

(** attribute .a (segments.py:118; -inf for MInfSegment, 500) *)
Definition sa (s : segment) : Rbar :=
  match s with
  | Seg a _ _ | ConstSeg a _ _ | PInfSeg a _ | DiracSeg a _ | PoleSeg a _ _ _ => Finite a
  | MInfSeg _ _ => m_infty
  end.

(** attribute .b (segments.py:119; +inf for PInfSegment, 586; b = a for DiracSegment, 676) *)
Definition sb (s : segment) : Rbar :=
  match s with
  | Seg _ b _ | ConstSeg _ b _ | MInfSeg b _ | PoleSeg _ b _ _ => Finite b
  | DiracSeg a _ => Finite a
  | PInfSeg _ _ => p_infty
  end.

(** isDirac, isSegment, isPInf, isMInf, hasLeftPole, hasRightPole
    (segments.py:130-145, 567, 656, 711-714, 880-886) *)
Definition isDirac (s : segment) : bool := match s with DiracSeg _ _ => true | _ => false end.
Definition isSegment (s : segment) : bool := negb (isDirac s).
Definition isPInf (s : segment) : bool := match s with PInfSeg _ _ => true | _ => false end.
Definition isMInf (s : segment) : bool := match s with MInfSeg _ _ => true | _ => false end.
Definition hasLeftPole (s : segment) : bool := match s with PoleSeg _ _ _ l => l | _ => false end.
Definition hasRightPole (s : segment) : bool := match s with PoleSeg _ _ _ l => negb l | _ => false end.

(** attribute .f used as a function: seg.f(x) (ConstSegment wraps its constant in
    ConstFun, segments.py:473-484).  For a DiracSegment .f is the mass, a number;
    calling it would raise TypeError, and no modelled code path does so, the value
    here is only a filler. *)
Definition sf (s : segment) (x : R) : R :=
  match s with
  | Seg _ _ f | MInfSeg _ f | PInfSeg _ f | PoleSeg _ _ f _ => f x
  | ConstSeg _ _ c => c
  | DiracSeg _ m => m
  end.

(** mass of an atom, 0 for every other piece: seg.f of a DiracSegment *)
Definition smass (s : segment) : R := match s with DiracSeg _ m => m | _ => 0 end.

(** Segment.__call__ (segments.py:151-161), ConstSegment.__call__ (485),
    DiracSegment.__call__ (679-685): closed interval, 0 outside; an atom is 1 at its
    position. *)
Definition seg_call (s : segment) (x : R) : R :=
  match s with
  | DiracSeg a _ => if req x a then 1 else 0
  | _ => if (ble (sa s) x && ble x (sb s))%bool then sf s x else 0
  end.

(** Segment.__lt__ (segments.py:447-451) *)
Definition seg_lt (s o : segment) : bool :=
  (ble (sa s) (sa o) && blt (sb s) (sb o)) || (blt (sa s) (sa o) && ble (sb s) (sb o)).
(** Segment.__gt__ (segments.py:452-456) *)
Definition seg_gt (s o : segment) : bool :=
  (ble (sa o) (sa s) && blt (sb o) (sb s)) || (blt (sa o) (sa s) && ble (sb o) (sb s)).
(** Segment.__le__ (segments.py:457-461) *)
Definition seg_le (s o : segment) : bool := ble (sb s) (sa o).
(** Segment.__ge__ (segments.py:462-466) *)
Definition seg_ge (s o : segment) : bool := ble (sb o) (sa s).
(** Segment.__eq__ (segments.py:467-471) *)
Definition seg_eq (s o : segment) : bool := beq (sa s) (sa o) || beq (sb s) (sb o).
