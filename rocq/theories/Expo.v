(** Estimates of exponents at a singularity and at infinity, and the detection of singular ends
    (pacal/utils.py:233-310, 468-494; segments.py:579-580, 668-669, 1988-2000; params.py:55, 62). *)
From Coq Require Import Reals List Bool.
From Coquelicot Require Import Coquelicot.
From Verif Require Import Base Seg Piecewise.
Import List ListNotations.
Open Scope R_scope.

(** numpy.logspace(p, q, N): powers of 10 with equidistant exponents; a single point is the first *)
Definition log_point (p q : R) (N i : nat) : R := Rpower 10 (p + INR i * ((q - p) / INR (N - 1))).
Definition logspace (p q : R) (N : nat) : list R := map (log_point p q N) (seq 0 N).

(** the pairs (log h, log |y|) with finite logarithm: yi = log(y), ind = isfinite(yi) (utils.py:245-252, 273-280); the
    values of the model are real numbers, so that the logarithm is finite exactly for y <> 0 *)
Definition log_pairs (lx : R -> R) (y : R -> R) (ex : list R) : list (R * R) :=
  flat_map (fun e => if rlt 0 (Rabs (y e)) then [(lx e, ln (Rabs (y e)))] else []) ex.
(** the last two elements *)
Fixpoint last2 {A} (l : list A) : option (A * A) :=
  match l with
  | [] => None
  | x :: l' => match l' with [] => None | [y] => Some (x, y) | _ => last2 l' end
  end.
(** numpy division of the last difference by the last step; for a step 0 the result is not a number *)
Definition np_quot (r d : R) : res R := if req d 0 then Err EZeroDiv else Ok (r / d).
(** ri[-1]/di[-1] with ri = yi[0:-1] - yi[1:] (utils.py:253-261, 281-288); 0 with fewer than two points *)
Definition slope_down (l : list (R * R)) : res R :=
  match last2 l with
  | Some ((x1, y1), (x2, y2)) => np_quot (y1 - y2) (Rabs (x2 - x1))
  | None => Ok 0
  end.

(** estimateDegreeOfPole (utils.py:233-261); the argument deriv is not used there *)
Definition pole_from_to (x : R) : R * R := if req x 0 then (-1, -10) else (-1, -7).
Definition estimateDegreeOfPole (f : R -> R) (x : R) (pos : bool) (fromTo : option (R * R)) (N : nat) : res R :=
  let (p, q) := match fromTo with Some r => r | None => pole_from_to x end in
  slope_down (log_pairs (fun e => ln (Rabs e)) (fun e => f (if pos then x + e else x - e)) (logspace p q N)).

(** estimateAtInfExponent (utils.py:263-288) *)
Definition estimateAtInfExponent (f : R -> R) (pos : bool) (fromTo : option (R * R)) (N : nat) : res R :=
  let (p, q) := match fromTo with Some r => r | None => (1, 10) end in
  slope_down (log_pairs (fun e => ln (Rabs e)) (fun e => f (if pos then e else - e)) (logspace p q N)).

(** testPole (utils.py:289-310) with the defaults N = 10 and fromTo = None *)
Definition testPole (f : R -> R) (x : R) (pos : bool) (pole_eps : R) (deriv : bool) : res bool :=
  rmap (fun deg =>
    if deriv then
      ((rle (Rabs pole_eps) (Rabs deg) && rle deg (1 - Rabs pole_eps)) ||
       (rle (1 + Rabs pole_eps) deg && rle deg (2 - Rabs pole_eps)) || rlt 2 deg)%bool
    else negb (rle pole_eps deg))
    (estimateDegreeOfPole f x pos None 10).
(** params.pole_detection (params.py:55, 62) *)
Definition max_pole_exponent : R := - (1 / 100).

(** estimateTailExponent (utils.py:468-494): ri = yi[1:] - yi[0:-1]; an exponent above 50 becomes inf *)
Definition slope_up (l : list (R * R)) : res Rbar :=
  match last2 l with
  | Some ((x1, y1), (x2, y2)) => rmap (fun e => if rlt 50 e then p_infty else Finite e) (np_quot (y2 - y1) (Rabs (x2 - x1)))
  | None => Ok (Finite 0)
  end.
Definition estimateTailExponent (f : R -> R) (pos : bool) (fromTo : option (R * R)) (N : nat) : res Rbar :=
  let (p, q) := match fromTo with Some r => r | None => (1, 100) end in
  slope_up (log_pairs (fun e => if pos then ln e else - ln e) (fun e => f (if pos then e else - e)) (logspace p q N)).

(** tailexp of MInfSegment (segments.py:579-580), which uses the function of the piece, and of PInfSegment (668-669),
    which uses the piece itself, zero outside *)
Definition seg_tailexp (s : segment) : option (res Rbar) :=
  match s with
  | MInfSeg b f => Some (estimateTailExponent f false None 300)
  | PInfSeg a f => Some (estimateTailExponent (fun x => if rle a x then f x else 0) true None 300)
  | _ => None
  end.
(** PiecewiseDistribution.tailexp (segments.py:1988-2000): the first piece on the left, the last on the right *)
Definition tailexp (l : list segment) : res (option (res Rbar) * option (res Rbar)) :=
  match l with
  | [] => Err EIndex
  | s :: l' =>
      Ok (match s with MInfSeg _ _ => seg_tailexp s | _ => None end,
          match last l' s with PInfSeg _ _ => seg_tailexp (last l' s) | _ => None end)
  end.
