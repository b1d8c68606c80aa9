(** Specification vocabulary for integrals of pieces and distribution functions. *)
From Coq Require Import Reals Lra List Bool.
From Coquelicot Require Import Coquelicot.
From Verif Require Import Base Seg Piecewise PiecewiseSpec Integral.
Import List ListNotations.
Open Scope R_scope.

(** constant pieces *)
Definition isConst (s : segment) : bool := match s with ConstSeg _ _ _ => true | _ => false end.

(** The function of the piece has a (possibly improper) integral over the piece; a piece declared
    singular at its right end is not singular at its left end. *)
Definition integrable_piece (s : segment) : Prop :=
  match s with
  | DiracSeg _ _ => True
  | PoleSeg a b f false => integrable f a b /\ (forall c, a < c -> c < b -> ex_RInt f a c)
  | _ => integrable (sf s) (sa s) (sb s)
  end.

(** probability of a piece *)
Definition mass (s : segment) : R :=
  match s with
  | DiracSeg _ m => m
  | _ => RInt_gen (sf s) (at_r (sa s)) (at_l (sb s))
  end.

(** probability of the part of a piece at or left of x *)
Definition mass_upto (s : segment) (x : R) : R :=
  match s with
  | DiracSeg a m => if Rle_dec a x then m else 0
  | _ => if Rbar_le_dec x (sa s) then 0
         else if Rbar_le_dec (sb s) x then mass s
         else RInt_gen (sf s) (at_r (sa s)) (at_left x)
  end.

(** distribution function of a density with atoms, as a sum over its pieces *)
Definition cdf_spec (l : list segment) (x : R) : R := sumR (map (fun s => mass_upto s x) l).
Definition total_mass (l : list segment) : R := sumR (map mass l).

(** non-negative density *)
Definition nonneg_piece (s : segment) : Prop :=
  match s with
  | DiracSeg _ m => 0 <= m
  | _ => forall x : R, Rbar_lt (sa s) x -> Rbar_lt x (sb s) -> 0 <= sf s x
  end.

(** A density: ordered, well-formed, integrable pieces, each starting where the previous one ends
    (atoms therefore sit at piece ends). *)
Definition density (l : list segment) : Prop :=
  l <> [] /\ Forall wf_seg l /\ Forall integrable_piece l /\ ordered l /\ chained l.
