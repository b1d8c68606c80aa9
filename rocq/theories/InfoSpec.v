(** Specification vocabulary for the information measures, independent of how the code cuts, matches
    and inserts pieces. *)
From Coq Require Import Reals Lra List Bool Sorted.
From Coquelicot Require Import Coquelicot.
From Verif Require Import Base Seg Piecewise PiecewiseSpec Integral SegIntSpec IndepSpec.
Import List ListNotations.
Open Scope R_scope.

(** The integral of F over the line cut at the points P: the (possibly improper) integrals over the
    intervals between consecutive points added up. *)
Fixpoint cut_int (F : R -> R) (P : list Rbar) : R :=
  match P with
  | a :: ((b :: _) as P') => RInt_gen F (at_r a) (at_l b) + cut_int F P'
  | _ => 0
  end.

(** the integral exists on every interval between consecutive points *)
Fixpoint cut_integrable (F : R -> R) (P : list Rbar) : Prop :=
  match P with
  | a :: ((b :: _) as P') => integrable F a b /\ cut_integrable F P'
  | _ => True
  end.

(** P lists, in increasing order, exactly the ends of the pieces of the functions ls *)
Definition ends_of (ls : list (list segment)) (P : list Rbar) : Prop :=
  StronglySorted Rbar_lt P /\ forall y, In y P <-> exists l, In l ls /\ is_end l y.

(** A lists exactly the places of the atoms of the functions ls, each once *)
Definition atoms_of (ls : list (list segment)) (A : list R) : Prop :=
  NoDup A /\ forall x, In x A <-> exists l m, In l ls /\ In (DiracSeg x m) l.

(** - p ln p, with the usual value 0 for p = 0 *)
Definition eta (p : R) : R := if Rlt_dec 0 p then - (p * ln p) else 0.
(** p ln (p/q), with the usual value 0 for p = 0 *)
Definition rel (p q : R) : R := if Rlt_dec 0 p then p * ln (p / q) else 0.

(** an admissible piecewise function: its pieces are in order, have an extent, its atoms are further
    apart than the merge tolerance *)
Definition admissible (eps : R) (l : list segment) : Prop := ordered l /\ Forall wf_seg l /\ dirac_sep eps l.

(** all atoms have positive mass *)
Definition pos_atoms (l : list segment) : Prop := forall a m, In (DiracSeg a m) l -> 0 < m.

(** a probability distribution: non-negative density, positive atoms, total mass one *)
Definition prob_density (l : list segment) : Prop :=
  Forall integrable_piece l /\ Forall nonneg_piece l /\ pos_atoms l /\ total_mass l = 1.

(** [f] is absolutely continuous with respect to [g], piece by piece: where the density of f is
    positive so is that of g, and both have their atoms at the same places *)
Definition dominated (f g : list segment) : Prop :=
  (forall x : R, ~ is_end f x -> ~ is_end g x -> 0 < dens f x -> 0 < dens g x) /\
  (forall x, (exists m, In (DiracSeg x m) f) <-> (exists m, In (DiracSeg x m) g)).

(** the entropy of a density with atoms, piece by piece *)
Definition ent_piece (s : segment) : R :=
  match s with
  | DiracSeg _ m => eta m
  | _ => RInt_gen (fun x => eta (sf s x)) (at_r (sa s)) (at_l (sb s))
  end.

(** the constructor r succeeds and the function it builds has the entropy v, for every value of the
    tolerance and of the number that stands for -log 0 *)
Definition has_entropy (ent : R -> R -> list segment -> res R) (r : res pwf) (v : R) : Prop :=
  exists q, r = Ok q /\ forall eps big, 0 <= eps -> ent eps big (segs q) = Ok v.
