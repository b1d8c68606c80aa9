(** Transformations of densities: shift and scale, monotone functions, square, absolute value,
    reciprocal (pacal/segments.py). *)
From Coq Require Import Reals Lra List Bool.
From Coquelicot Require Import Coquelicot.
From Verif Require Import Base Bisect Seg Piecewise Integral SegInt.
Import List ListNotations.
Open Scope R_scope.

(** for seg in l: fun.addSegment(F(seg)), where F may raise *)
Fixpoint addMap (eps : R) (F : segment -> res segment) (p : pwf) (l : list segment) : res pwf :=
  match l with
  | [] => Ok p
  | s :: l' => rbind (F s) (fun t => rbind (addSegment eps p t) (fun p' => addMap eps F p' l'))
  end.

(** _shift_and_scale (segments.py:53-54) *)
Definition shift_and_scale (f : R -> R) (one_over_scale shift x : R) : R :=
  Rabs one_over_scale * f ((x - shift) * one_over_scale).

(** shiftAndScale of Segment (segments.py:311-324, inherited by ConstSegment), MInfSegment (570-577),
    PInfSegment (658-665), DiracSegment (711-713), SegmentWithPole (827-834).
    1.0/scale raises ZeroDivisionError for scale = 0, except for an atom. *)
Definition seg_sas (shift scale : R) (s : segment) : res segment :=
  let k := 1 / scale in
  let h x := x * scale + shift in
  match s with
  | DiracSeg a m => Ok (DiracSeg (h a) m)
  | _ =>
      if req scale 0 then Err EZeroDiv
      else Ok
        match s with
        | Seg a b _ | ConstSeg a b _ =>
            if rlt 0 scale then Seg (h a) (h b) (shift_and_scale (sf s) k shift)
            else Seg (h b) (h a) (shift_and_scale (sf s) k shift)
        | MInfSeg b f =>
            if rlt 0 scale then MInfSeg (h b) (shift_and_scale f k shift)
            else PInfSeg (h b) (shift_and_scale f k shift)
        | PInfSeg a f =>
            if rlt 0 scale then PInfSeg (h a) (shift_and_scale f k shift)
            else MInfSeg (h a) (shift_and_scale f k shift)
        | PoleSeg a b f l =>
            if rlt 0 scale then PoleSeg (h a) (h b) (shift_and_scale f k shift) l
            else PoleSeg (h b) (h a) (shift_and_scale f k shift) (negb l)
        | DiracSeg a m => DiracSeg (h a) m
        end
  end.

(** copyShiftedAndScaled (segments.py:1378-1382) *)
Definition copyShiftedAndScaled (eps : R) (l : list segment) (shift scale : R) : res pwf :=
  addMap eps (seg_sas shift scale) empty_pwf l.

(** prob_comp_fun (segments.py:31-40), _prob_composition (88-89), _prob_composition_safe (92-93).
    The arithmetic errors caught there concern division by zero in the supplied derivative. *)
Definition prob_comp (f ginv dginv : R -> R) (x : R) : R := f (ginv x) * Rabs (dginv x).

(** constructors applied to a computed end; an infinite number where a finite end is expected would
    build a piece the model does not represent *)
Definition mk_minf (b : Rbar) (f : R -> R) : res segment :=
  match b with Finite b => Ok (MInfSeg b f) | _ => Err EValue end.
Definition mk_pinf (a : Rbar) (f : R -> R) : res segment :=
  match a with Finite a => Ok (PInfSeg a f) | _ => Err EValue end.
Definition isinf (x : Rbar) : bool := match x with Finite _ => false | _ => true end.

(** Segment.probComposition (segments.py:325-356); g is the function extended to +-inf as numpy does *)
Definition probComposition (g : Rbar -> Rbar) (ginv dginv : R -> R) (pole_at_zero : bool) (s : segment) : res segment :=
  match s with
  | DiracSeg a m => match g a with Finite y => Ok (DiracSeg y m) | _ => Err EMInfAtom end
  | _ =>
      let fn := prob_comp (sf s) ginv dginv in
      let ga := g (sa s) in
      let gb := g (sb s) in
      if isinf ga then if blt gb 0 then mk_minf gb fn else mk_pinf gb fn
      else if isinf gb then if blt 0 ga then mk_pinf ga fn else mk_minf ga fn
      else Ok
        (if blt ga gb then
           if (beq ga 0 && pole_at_zero)%bool then PoleSeg (real ga) (real gb) fn true
           else Seg (real ga) (real gb) fn
         else if beq ga gb then DiracSeg (real ga) (seg_integrate s m_infty p_infty)
         else if (beq gb 0 && pole_at_zero)%bool then PoleSeg (real gb) (real ga) fn false
         else Seg (real gb) (real ga) fn)
  end.

(** copyComposition (segments.py:1383-1391), copyLogComposition (1457-1460) *)
Definition copyComposition (eps : R) (l : list segment) (g : Rbar -> Rbar) (ginv dginv : R -> R) (pole_at_zero : bool) : res pwf :=
  rbind (splitByPoints eps l [Finite 0]) (fun p =>
    addMap eps (probComposition g ginv dginv pole_at_zero) empty_pwf (segs p)).
Definition copyLogComposition (eps : R) (l : list segment) (g : Rbar -> Rbar) (ginv dginv : R -> R) : res pwf :=
  rbind (splitByPoints eps l [Finite (1/2); Finite 1; Finite 2]) (fun p =>
    copyComposition eps (segs p) g ginv dginv false).

(** _op_one_over_x, _op_one_over_xsqaure on scalars (segments.py:67-86) *)
Definition one_over_x (x : Rbar) : Rbar :=
  match x with Finite x => if req x 0 then p_infty else Finite (1 / x) | _ => Finite 0 end.
Definition inv_fun (x : R) : R := 1 / x.
Definition inv_deriv (x : R) : R := 1 / (x * x).

(** Segment.probInverse (segments.py:358-389); it has no case for atoms: an atom at a becomes the
    degenerate piece Segment(1/a, 1/a) whose function cannot be called *)
Definition probInverse (pole_at_zero : bool) (s : segment) : res segment :=
  let g := one_over_x in
  let fn := prob_comp (sf s) inv_fun inv_deriv in
  if beq (sa s) 0 then if blt (g (sb s)) 0 then mk_minf (g (sb s)) fn else mk_pinf (g (sb s)) fn
  else if beq (sb s) 0 then if blt 0 (g (sa s)) then mk_pinf (g (sa s)) fn else mk_minf (g (sa s)) fn
  else if ble (g (sa s)) (g (sb s)) then
    if (beq (g (sa s)) 0 && pole_at_zero)%bool then Ok (PoleSeg (real (g (sa s))) (real (g (sb s))) fn true)
    else Ok (Seg (real (g (sa s))) (real (g (sb s))) fn)
  else
    if (beq (g (sa s)) 0 && pole_at_zero)%bool then Ok (PoleSeg (real (g (sb s))) (real (g (sa s))) fn true)
    else Ok (Seg (real (g (sb s))) (real (g (sa s))) fn).
(** copyProbInverse (segments.py:1417-1424) *)
Definition copyProbInverse (eps : R) (l : list segment) (pole_at_zero : bool) : res pwf :=
  rbind (splitByPoints eps l [Finite 0]) (fun p => addMap eps (probInverse pole_at_zero) empty_pwf (segs p)).

(** squareComposition (segments.py:391-416) and absComposition (418-444) have the same shape:
    g on the piece, ginv its inverse on the positive side; f(-ginv x) on the negative side
    (_prob_composition2, segments.py:90-91) *)
Definition evenComposition (g : R -> R) (ginv dginv : R -> R) (s : segment) : res segment :=
  match s with
  | DiracSeg a m => Ok (DiracSeg (g a) m)
  | _ =>
      if ((ble 0 (sa s) && blt 0 (sb s)) || (blt (sa s) 0 && ble (sb s) 0))%bool then
        if ble 0 (sa s) then
          let fn := prob_comp (sf s) ginv dginv in
          match sb s with
          | Finite b =>
              if blt 0 (sa s) then Ok (Seg (g (real (sa s))) (g b) fn)
              else Ok (PoleSeg (g (real (sa s))) (g b) fn true)
          | _ => Ok (PInfSeg (g (real (sa s))) fn)
          end
        else
          let fn := prob_comp (sf s) (fun x => - ginv x) dginv in
          match sa s with
          | Finite a =>
              if blt (sb s) 0 then Ok (Seg (g (real (sb s))) (g a) fn)
              else Ok (PoleSeg (g (real (sb s))) (g a) fn true)
          | _ => Ok (PInfSeg (g (real (sb s))) fn)
          end
      else Err EAssert
  end.
Definition squareComposition : segment -> res segment :=
  evenComposition (fun x => x * x) sqrt (fun x => (1 / 2) / sqrt x).
Definition absComposition : segment -> res segment :=
  evenComposition Rabs Rabs (fun _ => 1).

(** the loop distributing the pieces to leftFunction / rightFunction (segments.py:1431-1435, 1448-1452) *)
Fixpoint even_loop (eps : R) (F : segment -> res segment) (left right : pwf) (l : list segment) : res (pwf * pwf) :=
  match l with
  | [] => Ok (left, right)
  | s :: l' =>
      rbind (F s) (fun t =>
        if ble 0 (sa s) then rbind (addSegment eps left t) (fun left' => even_loop eps F left' right l')
        else rbind (addSegment eps right t) (fun right' => even_loop eps F left right' l'))
  end.
(** copySquareComposition (segments.py:1425-1442) *)
Definition copySquareComposition (eps : R) (l : list segment) : res pwf :=
  rbind (splitByPoints eps l [Finite 0]) (fun p =>
  rbind (even_loop eps squareComposition empty_pwf empty_pwf (segs p)) (fun lr =>
    match segs (snd lr), segs (fst lr) with
    | [], _ => Ok (fst lr)
    | _, [] => Ok (snd lr)
    | _, _ => operation eps Rplus (segs (fst lr)) (segs (snd lr))
    end)).
(** copyAbsComposition (segments.py:1443-1456) *)
Definition copyAbsComposition (eps : R) (l : list segment) : res pwf :=
  rbind (splitByPoints eps l [Finite 0]) (fun p =>
  rbind (even_loop eps absComposition empty_pwf empty_pwf (segs p)) (fun lr =>
  rbind (splitByPoints eps (segs (fst lr)) (getBreaks (segs (snd lr)))) (fun left =>
    operation eps Rplus (segs left) (segs (snd lr))))).
