(** Specification vocabulary for piecewise functions, independent of how the code
    stores, searches or inserts pieces. *)
From Coq Require Import Reals Lra List Bool Sorted Permutation.
From Coquelicot Require Import Coquelicot.
From Verif Require Import Base Seg Piecewise.
Import List ListNotations.
Open Scope R_scope.

(** A piece spans a non-degenerate interval; atoms have no extent by construction. *)
Definition wf_seg (s : segment) : Prop :=
  match s with DiracSeg _ _ => True | _ => Rbar_lt (sa s) (sb s) end.

(** [s] lies entirely to the left of [t] (they may touch in one point, but are not two
    atoms at the same place). *)
Definition before (s t : segment) : Prop :=
  Rbar_le (sb s) (sa t) /\ sa s <> sb t.

(** Pieces that can coexist: one lies left of the other, and two atoms are further
    apart than the merge tolerance. *)
Definition compatible (eps : R) (s t : segment) : Prop :=
  (before s t \/ before t s) /\
  match s, t with
  | DiracSeg a _, DiracSeg b _ => eps < Rabs (a - b)
  | _, _ => True
  end.

(** pairwise compatibility of a list *)
Definition all_compatible (eps : R) (l : list segment) : Prop :=
  ForallOrdPairs (compatible eps) l.

(** left to right *)
Definition ordered (l : list segment) : Prop := StronglySorted before l.

(** total atomic mass *)
Definition atom_mass (l : list segment) : R := sumR (map smass l).

(** gap-free: each piece starts where the previous one ends *)
Fixpoint chained (l : list segment) : Prop :=
  match l with
  | s :: ((t :: _) as l') => sb s = sa t /\ chained l'
  | _ => True
  end.
Definition continuous_piece (s : segment) : Prop := isDirac s = false /\ wf_seg s.
Definition gap_free (l : list segment) : Prop := Forall continuous_piece l /\ chained l.

(** The mathematical value of a list of disjoint continuous pieces at x: the value of
    the piece whose [a,b) contains x, or the right end of the last one; 0 elsewhere. *)
Definition covers (s : segment) (x : R) : Prop := Rbar_le (sa s) x /\ Rbar_lt x (sb s).
Definition has_value (l : list segment) (x v : R) : Prop :=
  (exists s, In s l /\ isDirac s = false /\ covers s x /\ v = sf s x) \/
  ((forall s, In s l -> isDirac s = false -> ~ covers s x) /\
   ((exists s l', l = l' ++ [s] /\ isDirac s = false /\ sb s = x /\ v = sf s x) \/
    ((forall s l', l = l' ++ [s] -> sb s <> x) /\ v = 0))).

(** two atoms of the same function are further apart than the merge tolerance *)
Definition dirac_sep (eps : R) (l : list segment) : Prop :=
  ForallOrdPairs (fun s t => match s, t with DiracSeg a _, DiracSeg b _ => eps < Rabs (a - b) | _, _ => True end) l.

(** atoms of two functions are at the same place or further apart than the tolerance *)
Definition cross_sep (eps : R) (f g : list segment) : Prop :=
  forall a m b k, In (DiracSeg a m) f -> In (DiracSeg b k) g -> a = b \/ eps < Rabs (a - b).

(** x is the left or right end of some piece *)
Definition is_end (l : list segment) (x : Rbar) : Prop := exists s, In s l /\ (x = sa s \/ x = sb s).

(** Common form of the operators with a number: the result has the same pieces, on every piece the
    value is op (f x), atoms get the mass op m. *)
Definition number_op (l : list segment) (r : res pwf) (op : R -> R) : Prop :=
  exists q, r = Ok q /\ ordered (segs q) /\
    map (fun s => (sa s, sb s)) (segs q) = map (fun s => (sa s, sb s)) l /\
    (forall s (x : R), In s l -> isDirac s = false -> covers s x -> call_vec (segs q) x = op (sf s x)) /\
    (forall a m, In (DiracSeg a m) l -> In (DiracSeg a (op m)) (segs q)).
