(** Summaries of a distribution: medianad, maximum and mode, range, iqrange
    (pacal/segments.py:187-195, 520-535, 609-624, 723-724, 1249-1258, 1952-1971; distr.py:188-190, 204-212, 239-241). *)
From Coq Require Import Reals List Bool.
From Coquelicot Require Import Coquelicot.
From Verif Require Import Base Seg Piecewise SegInt Root Quant Transform.
Import List ListNotations.
Open Scope R_scope.

Section Dispersion.
(** the arguments of the model of the inverse (Quant.v) *)
Variable vinf : segment -> R.
Variable solve : (R -> R) -> R -> R -> res R.
Variable fuel : nat.

(** medianad (segments.py:1952-1958).  A median that is not a number cannot be shifted by in the model; C20 shows
    that it is a number for every density of mass 1. *)
Definition medianad (eps : R) (l : list segment) : res qv :=
  rbind (median vinf solve fuel eps l) (fun m =>
  match m with
  | QAt (Finite m) =>
      rbind (copyShiftedAndScaled eps l (- m) 1) (fun f1 =>
      rbind (splitByPoints eps (segs f1) [Finite 0]) (fun f2 =>
      rbind (copyAbsComposition eps (segs f2)) (fun f3 =>
      median vinf solve fuel eps (segs f3))))
  | _ => Err EValue
  end).

(** difference of two results of the inverse: inf - inf is nan, None cannot be subtracted *)
Definition qv_sub (a b : qv) : res qv :=
  match a, b with
  | QNone, _ | _, QNone => Err EType
  | QNan, _ | _, QNan => Ok QNan
  | QAt x, QAt y => match Rbar_plus' x (Rbar_opp y) with Some r => Ok (QAt r) | None => Ok QNan end
  end.
(** Distr.iqrange (distr.py:208-210) *)
Definition iqrange (eps : R) (l : list segment) (level : R) : res qv :=
  rbind (quantile vinf solve fuel eps l (1 - level)) (fun b =>
  rbind (quantile vinf solve fuel eps l level) (fun a => qv_sub b a)).
End Dispersion.

Section Mode.
(** scipy's fminbound(func, x1, x2): the point it returns *)
Variable fminbound : (R -> R) -> R -> R -> R.
(** findLeftpoint and findRightpoint (segments.py:506-514, 592-599): the finite end used in place of an infinite one *)
Variable farpoint : segment -> R.

(** maximum of a piece: Segment (187-195), MInfSegment (520-535), PInfSegment (609-624), DiracSegment (723-724).
    [vinf] is the value of the function at the infinite end. *)
Definition seg_maximum (vinf : segment -> R) (s : segment) : Rbar * R :=
  match s with
  | DiracSeg a m => (Finite a, m)
  | MInfSeg b f =>
      let fa := vinf s in
      let fb := f b in
      let (x1, f1) := if rle fa fb then (Finite b, fb) else (m_infty, fa) in
      let xi := fminbound (fun x => - f x) (farpoint s) b in
      if rlt f1 (f xi) then (Finite xi, f xi) else (x1, f1)
  | PInfSeg a f =>
      let fa := f a in
      let fb := vinf s in
      let (x1, f1) := if rle fb fa then (Finite a, fa) else (p_infty, fb) in
      let xi := fminbound (fun x => - f x) a (farpoint s) in
      if rlt f1 (f xi) then (Finite xi, f xi) else (x1, f1)
  | PoleSeg a b f true =>
      let xi := fminbound (fun x => - f x + / 10 ^ 14) a b in (Finite xi, f xi)
  | PoleSeg a b f false =>
      let xi := fminbound (fun x => - f x) (a + / 10 ^ 14) b in (Finite xi, f xi)
  | _ =>
      let xi := fminbound (fun x => - sf s x) (real (sa s)) (real (sb s)) in (Finite xi, sf s xi)
  end.

(** PiecewiseFunction.maximum (segments.py:1249-1258); None: no value has been seen, m = -inf *)
Fixpoint max_loop (vinf : segment -> R) (l : list segment) (acc : option (Rbar * R)) : option (Rbar * R) :=
  match l with
  | [] => acc
  | s :: l' =>
      let xm := seg_maximum vinf s in
      max_loop vinf l' (match acc with
                        | None => Some xm
                        | Some a => if rlt (snd a) (snd xm) then Some xm else acc
                        end)
  end.
Definition maximum (vinf : segment -> R) (l : list segment) : option (Rbar * R) := max_loop vinf l None.
(** Distr.mode (distr.py:239-241) *)
Definition mode (vinf : segment -> R) (l : list segment) : option Rbar := option_map fst (maximum vinf l).
End Mode.

(** range (segments.py:1969-1971); an empty list of breaks has no first element *)
Definition range (l : list segment) : res (Rbar * Rbar) :=
  match getBreaks l with
  | [] => Err EIndex
  | a :: r => Ok (a, last r a)
  end.
