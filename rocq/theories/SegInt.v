(** Integration and cumulative integration of pieces (pacal/segments.py). *)
From Coq Require Import Reals Lra List Bool.
From Coquelicot Require Import Coquelicot.
From Verif Require Import Base Bisect Seg Piecewise Integral.
Import List ListNotations.
Open Scope R_scope.

(** the clipping of the interval ends common to all integrate methods (segments.py:165-168,
    489-492, 552-553, 640-641, 805-808).  A missing end (None) is the corresponding infinity: both
    are replaced by the end of the piece. *)
Definition clip_lo (s : segment) (u : Rbar) : Rbar := if blt u (sa s) then sa s else u.
Definition clip_hi (s : segment) (v : Rbar) : Rbar := if blt (sb s) v then sb s else v.

(** Segment.integrate (segments.py:163-171), ConstSegment.integrate (488-495),
    MInfSegment.integrate (550-561), PInfSegment.integrate (638-649),
    DiracSegment.integrate (686-690), SegmentWithPole.integrate (803-826).
    Quadrature is ideal (Integral.v).  Segment and SegmentWithPole integrate the closed-interval call
    of the piece, the half-infinite ones its function.  For a ConstSegment only finite clipped ends
    are meaningful (an end beyond the piece and infinite gives an infinite float in Python). *)
Definition seg_integrate (s : segment) (u v : Rbar) : R :=
  match s with
  | Seg _ _ _ => Q (seg_call s) (clip_lo s u) (clip_hi s v)
  | ConstSeg _ _ c => c * (real (clip_hi s v) - real (clip_lo s u))
  | MInfSeg _ f =>
      let v := clip_hi s v in
      if beq u m_infty then Q f m_infty v else if blt u v then Q f u v else 0
  | PInfSeg _ f =>
      let u := clip_lo s u in
      if beq v p_infty then Q f u p_infty else if blt u v then Q f u v else 0
  | DiracSeg a m =>
      if (blt u a && blt a v) || (beq u v && beq v a) then m else 0
  | PoleSeg a b _ l =>
      let u := clip_lo s u in
      let v := clip_hi s v in
      if beq u v then 0
      else if (l && beq u a)%bool then Q (seg_call s) u v
      else if (negb l && beq v b)%bool then Q (seg_call s) u v
      else if l then Q (seg_call s) u v
      else Q (seg_call s) u b - Q (seg_call s) v b
  end.

(** PiecewiseFunction.integrate (segments.py:1133-1142) *)
Definition pw_integrate (l : list segment) (u v : Rbar) : R :=
  fold_left (fun I s => I + seg_integrate s u v) l 0.

(** segIntegral (segments.py:175-179, 565-569, 653-657) *)
Definition segIntegral (s : segment) (x : R) : R :=
  match s with
  | MInfSeg _ _ => seg_integrate s m_infty x
  | PInfSeg _ _ => seg_integrate s x p_infty
  | _ => seg_integrate s (sa s) x
  end.

(** cumint of a piece (segments.py:172-174, 562-564, 650-652, 691-693, 838-840) with
    call_segint/call_segint2 (segments.py:42-51) *)
Definition seg_cumint (s : segment) (y0 : R) : segment :=
  match s with
  | Seg a b _ | ConstSeg a b _ => Seg a b (fun x => y0 + segIntegral s x)
  | MInfSeg b _ => MInfSeg b (fun x => y0 + segIntegral s x)
  | PInfSeg a _ => PInfSeg a (fun x => y0 - segIntegral s x)
  | DiracSeg a _ => Seg a a (fun x => y0 + segIntegral s x)
  | PoleSeg a b _ l => PoleSeg a b (fun x => y0 + segIntegral s x) l
  end.

(** PiecewiseFunction.cumint (segments.py:1163-1181): the loop over the pieces carries f0, the
    function under construction and the last piece built.  [real (sb segi)] is only used when that
    end is finite, or (for rightval after a PInfSegment) its result is not used. *)
Fixpoint cumint_loop (eps : R) (l : list segment) (f0 : R) (p : pwf) (last : option segment)
  : res (R * pwf * option segment) :=
  match l with
  | [] => Ok (f0, p, last)
  | s :: l' =>
      let f0 := if isPInf s then f0 + seg_integrate s (sa s) p_infty else f0 in
      let segi := seg_cumint s f0 in
      rbind (if isDirac s then Ok (f0 + smass s, p)
             else rmap (fun p' => (f0, p')) (addSegment eps p segi))
        (fun fp => let f0 := if isPInf s then fst fp else sf segi (real (sb segi)) in
                   cumint_loop eps l' f0 (snd fp) (Some segi))
  end.

(** the zero piece on the left (segments.py:1179-1180) *)
Definition cumint_lead (eps : R) (p1 : pwf) : res pwf :=
  match segs p1 with
  | [] => Err EIndex
  | s0 :: _ =>
      if isMInf s0 then Ok p1
      else addSegment eps p1 (MInfSeg (real (sa s0)) (fun _ => 0))
  end.

(** the constant piece on the right (segments.py:1176-1178) *)
Definition cumint_tail (eps f0 : R) (p : pwf) (segi : segment) : res pwf :=
  let rightval := Rmax f0 (sf segi (real (sb segi))) in
  if isPInf segi then Ok p else addSegment eps p (PInfSeg (real (sb segi)) (fun _ => rightval)).

Definition cumint (eps : R) (l : list segment) : res pwf :=
  rbind (cumint_loop eps l 0 empty_pwf None) (fun r =>
    match r with
    | (f0, p, None) => Err ENone                 (* segi unbound *)
    | (f0, p, Some segi) => rbind (cumint_tail eps f0 p segi) (cumint_lead eps)
    end).
