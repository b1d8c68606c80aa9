(** Assembly of the result of an operation on independent variables from the cells between break points
    (the bodies of conv, convmin, convmax, convprod and convdiv in pacal/indeparith.py). *)
From Coq Require Import Reals Lra List Bool.
From Coquelicot Require Import Coquelicot.
From Verif Require Import Base Bisect Seg Piecewise Integral SegInt Indep Wide.
Import List ListNotations.
Open Scope R_scope.

(** The shared shape of indeparith.py:108-152 (conv), 714-738 (convmin), 805-826 (convmax), 937-985
    (convprod), 1141-1187 (convdiv): if the first break point is infinite, an MInfSegment from the pieces
    chosen at ub[1]-1; if the last one is, a PInfSegment from those chosen at ub[-2]+1; between finite
    neighbours a Segment from those chosen at the midpoint.  [F z x] is the value at x computed from the
    pieces chosen at z.  toInterpolatedSegment (interpolation to machine precision) and the choice of a
    SegmentWithPole, which only changes the interpolation, are not modelled.  Lists without a finite
    break point give no piece here (the code would build a piece with an infinite corner). *)
Definition asm_minf (F : R -> R -> R) (ub : list Rbar) : list segment * list Rbar :=
  match ub with
  | a :: ((Finite b :: _) as t) => if isinf a then ([MInfSeg b (F (b - 1))], t) else ([], ub)
  | _ => ([], ub)
  end.
Definition asm_pinf (F : R -> R -> R) (ub : list Rbar) : list segment * list Rbar :=
  match rev ub with
  | a :: ((Finite b :: _) as t) => if isinf a then ([PInfSeg b (F (b + 1))], rev t) else ([], ub)
  | _ => ([], ub)
  end.
Definition asm_mid (F : R -> R -> R) (ub : list Rbar) : list segment :=
  flat_map (fun ab => match ab with
                      | (Finite a, Finite b) => [Seg a b (F ((a + b) / 2))]
                      | _ => []
                      end) (pairs_up ub).
Definition asm_pieces (F : R -> R -> R) (ub : list Rbar) : list segment :=
  let (s1, ub1) := asm_minf F ub in
  let (s2, ub2) := asm_pinf F ub1 in
  s1 ++ s2 ++ asm_mid F ub2.
Definition assemble (eps : R) (F : R -> R -> R) (ub : list Rbar) : res pwf :=
  addAll eps empty_pwf (asm_pieces F ub).

(** value of a computation; the default is never used in the statements proved *)
Definition val (r : res R) : R := match r with Ok v => v | Err _ => 0 end.

(** ** conv *)

(** positions of getBreaksExtended (segments.py:1462-1491): the left end of the first piece and the right
    ends of all pieces (left ends after a gap are missing) *)
Definition breaks_ext (l : list segment) : list Rbar :=
  match l with [] => [] | s :: _ => sa s :: map sb l end.
Definition fin_part (l : list Rbar) : list R := flat_map (fun a => match a with Finite r => [r] | _ => [] end) l.
Definition has_inf (i : Rbar) (l : list Rbar) : bool := existsb (fun a => beq a i) l.

(** break points of the sum (indeparith.py:62-107): sums of the finite positions, merged when closer than
    [ueps] (4 machine epsilons), with an infinity in front or at the end; the pole flags are dropped.
    Exact duplicates are removed before the merging loop, which would do it anyway. *)
Definition conv_sums (f g : list segment) : list R :=
  flat_map (fun p => map (fun q => p + q) (fin_part (breaks_ext g))) (fin_part (breaks_ext f)).
Definition has_both (i : Rbar) (f g : list segment) : bool :=
  (has_inf i (breaks_ext f) || (negb (length (fin_part (breaks_ext f)) =? 0)%nat && has_inf i (breaks_ext g)))%bool.
Definition conv_ub (ueps : R) (f g : list segment) : list Rbar :=
  (if has_both m_infty f g then [m_infty] else []) ++
  map (fun b => Finite (fst b))
      (unique_breakpoints ueps (map (fun a => (real a, (false, false, false, false))) (np_unique (map Finite (conv_sums f g))))) ++
  (if has_both p_infty f g then [p_infty] else []).

(** conv (indeparith.py:57-171) *)
Definition conv (eps ueps peps : R) (f g : list segment) : res pwf :=
  rbind (assemble eps (fun z x => val (conv_at_point peps (findSegListAdd f g z) x)) (conv_ub ueps f g)) (fun fg =>
  rbind (convdiracs eps Rplus f g) (fun d =>
  addAll eps fg (getDiracs (segs d)))).

(** ** convmin, convmax *)

(** convmin (indeparith.py:702-742) and convmax (793-833): both functions are split at each other's break
    points; the break points of the result are the minima (maxima) of all pairs of break points *)
Definition outer_ub (op : Rbar -> Rbar -> Rbar) (bf bg : list Rbar) : list Rbar :=
  np_unique (flat_map (fun p => map (op p) bg) bf).
Definition conv_extr (op : Rbar -> Rbar -> Rbar) (at_point : list (segment * segment) -> R -> res R)
    (probd : R -> list segment -> list segment -> res pwf) (eps : R) (f g : list segment) : res pwf :=
  let bf := getBreaks f in
  let bg := getBreaks g in
  rbind (splitByPoints eps f bg) (fun f' =>
  rbind (splitByPoints eps g bf) (fun g' =>
  rbind (assemble eps (fun z x => val (rbind (findSegList (segs f') (segs g') z (fun a b => Some (op a b)))
                                             (fun l => at_point l x))) (outer_ub op bf bg)) (fun fg =>
  rbind (probd eps (segs f') (segs g')) (fun d =>
  add_diracs eps fg (segs d))))).
Definition convmin : R -> list segment -> list segment -> res pwf := conv_extr bmin convmin_at_point probDiracsInMin.
Definition convmax : R -> list segment -> list segment -> res pwf := conv_extr bmax convmax_at_point probDiracsInMax.
