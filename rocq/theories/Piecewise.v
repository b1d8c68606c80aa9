(** Piecewise functions: the structural part of PiecewiseFunction
    (pacal/segments.py:995-1850). *)
From Coq Require Import Reals Lra List Bool Arith.
From Coquelicot Require Import Coquelicot.
From Verif Require Import Base Bisect Seg.
Import List ListNotations.
Open Scope R_scope.

(** A PiecewiseFunction object: attributes .segments and .breaks
    (segments.py:998-1060).  lpoles/rpoles are constructor arguments only. *)
Record pwf := PW { segs : list segment; brks : list Rbar }.

(** PiecewiseFunction([]) (segments.py:1052-1060) *)
Definition empty_pwf : pwf := PW [] [].

(** numpy.unique: sorted, duplicates removed. *)
Fixpoint uins (x : Rbar) (l : list Rbar) : list Rbar :=
  match l with
  | [] => [x]
  | y :: l' => if blt x y then x :: l else if beq x y then l else y :: uins x l'
  end.
Definition np_unique (l : list Rbar) : list Rbar := fold_right uins [] l.

(** getDiracs (segments.py:1501-1506), getSegments (1538-1543) *)
Definition getDiracs (l : list segment) : list segment := filter isDirac l.
Definition getSegments (l : list segment) : list segment := filter isSegment l.

(** The loop of addSegment over getDiracs(): the first atom within unique_eps gets
    the mass added in place (segments.py:1088-1092).  None: no such atom. *)
Fixpoint merge_dirac (eps a m : R) (l : list segment) : option (list segment) :=
  match l with
  | [] => None
  | DiracSeg a' m' :: l' =>
      if rle (Rabs (a - a')) eps then Some (DiracSeg a' (m' + m) :: l')
      else option_map (cons (DiracSeg a' m')) (merge_dirac eps a m l')
  | s :: l' => option_map (cons s) (merge_dirac eps a m l')
  end.

(** bisect.insort and the update of breaks (segments.py:1099-1100) *)
Definition add_sorted (p : pwf) (s : segment) : pwf :=
  PW (insort seg_lt (segs p) s) (np_unique (brks p ++ [sa s; sb s])).

(** the part of addSegment after the merging loop (segments.py:1093-1100) *)
Definition add_new (p : pwf) (s : segment) : res pwf :=
  match nth_error (segs p) (bisect_left seg_lt (segs p) s) with
  | None => Ok (add_sorted p s)
  | Some seg =>
      if (seg_gt seg s || seg_gt s seg)%bool then Ok (add_sorted p s)
      else
        match s with
        | DiracSeg _ m =>
            match sa seg with
            | Finite a =>
                let s' := DiracSeg a m in
                if (seg_gt seg s' || seg_gt s' seg)%bool then Ok (add_sorted p s')
                else Err EAssert
            | _ => Err EMInfAtom   (* DiracSegment(-inf, m) would be inserted *)
            end
        | _ => Err EAssert
        end
  end.

(** addSegment (segments.py:1086-1100); [eps] is params.segments.unique_eps *)
Definition addSegment (eps : R) (p : pwf) (s : segment) : res pwf :=
  match s with
  | DiracSeg a m =>
      match merge_dirac eps a m (segs p) with
      | Some l => Ok (PW l (brks p))
      | None => add_new p s
      end
  | _ => add_new p s
  end.

(** for seg in l: fun.addSegment(seg) *)
Fixpoint addAll (eps : R) (p : pwf) (l : list segment) : res pwf :=
  match l with
  | [] => Ok p
  | s :: l' => rbind (addSegment eps p s) (fun p' => addAll eps p' l')
  end.

(** getBreaks (segments.py:1493-1498) *)
Definition getBreaks (l : list segment) : list Rbar := np_unique (map sa l ++ map sb l).

(** findSegment (segments.py:1101-1118) *)
Definition findSegment (l : list segment) (x : R) : res (option segment) :=
  let ind := bisect_left seg_lt l (DiracSeg x 0) in
  if ((0 <? ind) && (ind <? length l))%nat%bool then
    match nth_error l ind with Some s => Ok (Some s) | None => Err EIndex end
  else if (ind =? 0)%nat then
    match l with
    | [] => Err EIndex
    | s :: _ => if (ble (sa s) x && ble x (sb s))%bool then Ok (Some s) else Ok None
    end
  else
    match nth_error l (ind - 1) with
    | Some s => if beq (sb s) x then Ok (Some s) else Ok None
    | None => Err EIndex
    end.

(** PiecewiseFunction.__call__, scalar branch (segments.py:1063-1072) *)
Definition call_scalar (l : list segment) (x : R) : res R :=
  rmap (fun o => match o with
                 | None => 0
                 | Some s => if isDirac s then seg_call s x else sf s x
                 end) (findSegment l x).

(** PiecewiseFunction.__call__, vector branch, one component (segments.py:1073-1084):
    masked assignment per continuous piece, then the right end of the last one. *)
Definition call_vec (l : list segment) (x : R) : R :=
  let ss := getSegments l in
  let y := fold_left (fun y s => if (ble (sa s) x && blt x (sb s))%bool then sf s x else y) ss 0 in
  match rev ss with
  | [] => y
  | s :: _ => if beq x (sb s) then sf s x else y
  end.

(** findSegmentByEnds (segments.py:1120-1125) *)
Definition findSegmentByEnds (l : list segment) (a b : Rbar) : option segment :=
  find (fun s => (beq (sa s) a && beq (sb s) b)%bool) l.

(** getDirac (segments.py:1533-1537): exact position *)
Definition getDirac (l : list segment) (x : Rbar) : option segment :=
  find (fun s => (isDirac s && beq (sa s) x)%bool) l.

(** One continuous piece of splitByPoints between a and b (segments.py:1770-1781 and
    1783-1794).  [seg] is the original piece.  The unreachable combination of an
    infinite end with a piece that is not MInf/PInf cannot arise from the inductive
    type; [real] below is only applied to finite ends. *)
Definition split_piece (seg : segment) (a b : Rbar) : segment :=
  if (isMInf seg && negb (match a with Finite _ => true | _ => false end))%bool then MInfSeg (real b) (sf seg)
  else if (isPInf seg && negb (match b with Finite _ => true | _ => false end))%bool then PInfSeg (real a) (sf seg)
  else if (hasLeftPole seg && beq a (sa seg))%bool then PoleSeg (real a) (real b) (sf seg) true
  else if (hasRightPole seg && beq b (sb seg))%bool then PoleSeg (real a) (real b) (sf seg) false
  else if isDirac seg then DiracSeg (real a) (smass seg)
  else Seg (real a) (real b) (sf seg).

(** the loop over the interior points and the final piece (segments.py:1765-1794) *)
Fixpoint split_from (seg : segment) (a : Rbar) (inds : list Rbar) : list segment :=
  match inds with
  | [] => [split_piece seg a (sb seg)]
  | b :: inds' => split_piece seg a b :: split_from seg b inds'
  end.

Definition split_seg (pts : list Rbar) (seg : segment) : list segment :=
  split_from seg (sa seg) (filter (fun x => (blt (sa seg) x && blt x (sb seg))%bool) pts).

(** splitByPoints (segments.py:1758-1795) *)
Definition splitByPoints (eps : R) (l : list segment) (pts : list Rbar) : res pwf :=
  addAll eps empty_pwf (flat_map (split_seg pts) l).

(** restrictToInterval (segments.py:1745-1757) *)
Definition restrict_keep (a b : Rbar) (s : segment) : bool :=
  if isDirac s then (ble a (sa s) && blt (sb s) b)%bool
  else (ble a (sa s) && ble (sb s) b)%bool.
Definition restrictToInterval (eps : R) (l : list segment) (a b : Rbar) : res pwf :=
  rbind (splitByPoints eps l [a; b])
        (fun src => addAll eps empty_pwf (filter (restrict_keep a b) (segs src))).

(** rebuild a piece of the same class with another function (the class dispatch of
    segments.py:1636-1648, 1691-1703, 1727-1740); ConstSegments become Segments *)
Definition remake (seg : segment) (f : R -> R) : segment :=
  match seg with
  | MInfSeg b _ => MInfSeg b f
  | PInfSeg a _ => PInfSeg a f
  | PoleSeg a b _ l => PoleSeg a b f l
  | Seg a b _ | ConstSeg a b _ => Seg a b f
  | DiracSeg a m => DiracSeg a m
  end.

(** _roperation__ (segments.py:1628-1651): op(seg.f(x), r) *)
Definition rop_seg (op : R -> R -> R) (r : R) (seg : segment) : segment :=
  match seg with
  | DiracSeg a m => DiracSeg a (op m r)
  | _ => remake seg (fun x => op (sf seg x) r)
  end.
Definition roperation (eps : R) (op : R -> R -> R) (l : list segment) (r : R) : res pwf :=
  addAll eps empty_pwf (map (rop_seg op r) l).

(** _op_rsub (segments.py:55): note the exchanged operands *)
Definition op_rsub (x y : R) : R := y - x.
Definition op_rdiv (x y : R) : R := y / x.

(** The operators with a number (segments.py:1570-1626): __add__ and __radd__,
    __sub__ (delegates to __rsub__), __rsub__, __mul__/__rmul__, __truediv__ (passes the
    number to _operation__, which calls other.getBreaks(): AttributeError), __rtruediv__ *)
Definition add_num eps l r := roperation eps Rplus l r.
Definition sub_num eps l r := roperation eps op_rsub l r.
Definition rsub_num eps r l := roperation eps op_rsub l r.
Definition mul_num eps l r := roperation eps Rmult l r.
Definition truediv_num (eps : R) (l : list segment) (r : R) : res pwf := Err EType.
Definition rtruediv_num eps r l := roperation eps op_rdiv l r.

(** _makeCommonSegmentList (segments.py:2149-2158) *)
Fixpoint pairs_up (l : list Rbar) : list (Rbar * Rbar) :=
  match l with
  | a :: ((b :: _) as l') => (a, b) :: pairs_up l'
  | _ => []
  end.
Definition makeCommonSegmentList (f g : list segment) : list (option segment * option segment) :=
  map (fun ab => (findSegmentByEnds f (fst ab) (snd ab), findSegmentByEnds g (fst ab) (snd ab)))
      (pairs_up (np_unique (getBreaks f ++ getBreaks g))).

(** make_segfun (segments.py:1679-1685) *)
Definition make_segfun (op : R -> R -> R) (o1 o2 : option segment) (x : R) : R :=
  match o1, o2 with
  | None, Some s2 => op 0 (sf s2 x)
  | Some s1, None => op (sf s1 x) 0
  | Some s1, Some s2 => op (sf s1 x) (sf s2 x)
  | None, None => 0
  end.

(** body of the loop at segments.py:1686-1705; an atom cannot be found by
    findSegmentByEnds with a < b, that case is the assert False *)
Definition op_segment (op : R -> R -> R) (oo : option segment * option segment) : list segment :=
  match oo with
  | (None, None) => []
  | (None, Some s) | (Some s, _) => [remake s (make_segfun op (fst oo) (snd oo))]
  end.

(** set the mass of the first atom at position x (the object returned by getDirac) *)
Fixpoint set_dirac (x : R) (m : R) (l : list segment) : list segment :=
  match l with
  | [] => []
  | DiracSeg a m' :: l' => if req a x then DiracSeg a m :: l' else DiracSeg a m' :: set_dirac x m l'
  | s :: l' => s :: set_dirac x m l'
  end.

(** positions of the atoms, then those of the other function not yet present
    (segments.py:1655-1660) *)
Definition dirac_pos (l : list segment) : list R :=
  flat_map (fun s => match s with DiracSeg a _ => [a] | _ => [] end) l.
Definition inb (x : R) (l : list R) : bool := existsb (req x) l.
Fixpoint add_missing (acc l : list R) : list R :=
  match l with
  | [] => acc
  | a :: l' => add_missing (if inb a acc then acc else acc ++ [a]) l'
  end.

(** one turn of the loop at segments.py:1661-1667 *)
Definition op_dirac1 (eps : R) (op : R -> R -> R) (other : list segment) (p : pwf) (x : R) : res pwf :=
  match getDirac (segs p) x, getDirac other x with
  | None, Some d => addSegment eps p (DiracSeg x (smass d))
  | None, None => Err EType
  | Some s, Some d => Ok (PW (set_dirac x (op (smass s) (smass d)) (segs p)) (brks p))
  | Some _, None => Ok p
  end.
Fixpoint op_dirac_loop (eps : R) (op : R -> R -> R) (other : list segment) (p : pwf) (xs : list R) : res pwf :=
  match xs with
  | [] => Ok p
  | x :: xs' => rbind (op_dirac1 eps op other p x) (fun p' => op_dirac_loop eps op other p' xs')
  end.
(** op_diracs (segments.py:1653-1667) *)
Definition op_diracs (eps : R) (op : R -> R -> R) (p : pwf) (other : list segment) : res pwf :=
  op_dirac_loop eps op other p (add_missing (dirac_pos (segs p)) (dirac_pos other)).

(** _operation__ (segments.py:1669-1710) *)
Definition operation (eps : R) (op : R -> R -> R) (f g : list segment) : res pwf :=
  let breaks := np_unique (getBreaks f ++ getBreaks g) in
  rbind (splitByPoints eps f breaks) (fun fs =>
  rbind (splitByPoints eps g breaks) (fun gs =>
  rbind (addAll eps empty_pwf (flat_map (op_segment op) (makeCommonSegmentList (segs fs) (segs gs)))) (fun h =>
  rbind (op_diracs eps op h f) (fun h1 =>
  op_diracs eps op h1 g)))).
