(** Mean, variance and other moments of a density (pacal/segments.py, class PiecewiseDistribution, and
    pacal/distr.py). *)
From Coq Require Import Reals Lra List Bool.
From Coquelicot Require Import Coquelicot.
From Verif Require Import Base Seg Piecewise Integral Indep.
Import List ListNotations.
Open Scope R_scope.

(** floating point results: a number, nan or +inf *)
Inductive num := Num (r : R) | NaN | PInf.

Section Mom.
(** the error estimate that the quadrature routines return beside the value of the integral
    (integration.py); nothing is assumed about it here *)
Variable err : (R -> R) -> Rbar -> Rbar -> R.

(** _segint(fn, seg.a, seg.b, force_poleL=..., force_poleU=...) over a whole piece (segments.py:2089-2130):
    value and error estimate *)
Definition piece_int (s : segment) (fn : R -> R) : R * R :=
  (segint fn (sa s) (sb s) (hasLeftPole s) (hasRightPole s), err fn (sa s) (sb s)).

(** body of the loop of PiecewiseDistribution.mean (segments.py:1896-1903) *)
Definition mean_piece (s : segment) : R * R :=
  match s with
  | DiracSeg a m => (m * a, 0)
  | _ => piece_int s (fun x => x * seg_call s x)
  end.
Fixpoint mean_loop (l : list segment) (I0 E : R) : R * R :=
  match l with
  | [] => (I0, E)
  | s :: l' => let (i, e) := mean_piece s in mean_loop l' (I0 + i) (E + e)
  end.
(** PiecewiseDistribution.mean (segments.py:1893-1905) *)
Definition mean (l : list segment) : num :=
  let (I0, E) := mean_loop l 0 0 in if rlt (1 / 10) E then NaN else Num I0.

(** body of the loop of PiecewiseDistribution.meanf (segments.py:1915-1922).  nan_to_num is the identity
    on the values of a function with real values. *)
Definition meanf_piece (f : R -> R) (s : segment) : R * R :=
  match s with
  | DiracSeg a m => (f a * m, 0)
  | _ => piece_int s (fun x => f x * seg_call s x)
  end.
Fixpoint meanf_loop (f : R -> R) (l : list segment) (I0 aI E : R) : R * R * R :=
  match l with
  | [] => (I0, aI, E)
  | s :: l' => let (i, e) := meanf_piece f s in meanf_loop f l' (I0 + i) (aI + Rabs i) (E + Rabs e)
  end.
(** PiecewiseDistribution.meanf (segments.py:1906-1927) *)
Definition meanf (f : R -> R) (l : list segment) : num :=
  let '(I0, aI, E) := meanf_loop f l 0 0 0 in
  if (rlt 0 aI && rlt (1 / 1000) (Rabs (E / aI)) && rlt (1 / 10000000000) (Rabs aI))%bool then NaN else Num I0.

(** loops of PiecewiseDistribution.var (segments.py:1937-1943); getSegments, then getDiracs *)
Definition var_cont (m : R) (s : segment) : R * R := piece_int s (fun x => (x - m) ^ 2 * seg_call s x).
Fixpoint var_loop1 (m : R) (l : list segment) (I0 E : R) : R * R :=
  match l with
  | [] => (I0, E)
  | s :: l' => let (i, e) := var_cont m s in var_loop1 m l' (I0 + i) (E + e)
  end.
Fixpoint var_loop2 (m : R) (l : list segment) (I0 : R) : R :=
  match l with [] => I0 | s :: l' => var_loop2 m l' (I0 + smass s * (spos s - m) ^ 2) end.
(** PiecewiseDistribution.var (segments.py:1933-1947).  With a mean that is nan every term is nan, the
    comparison of the error estimate is false and the result is nan. *)
Definition var (l : list segment) : num :=
  match mean l with
  | Num m =>
      let (I0, E) := var_loop1 m (getSegments l) 0 0 in
      let I0 := var_loop2 m (getDiracs l) I0 in
      if rlt 1 E then PInf else Num I0
  | _ => NaN
  end.

(** PiecewiseDistribution.std (segments.py:1949-1950): numpy's sqrt is nan for negative numbers *)
Definition std (l : list segment) : num :=
  match var l with Num v => if rlt v 0 then NaN else Num (sqrt v) | NaN => NaN | PInf => PInf end.

(** Distr.moment (distr.py:157-163): k-th moment about c, or about the mean *)
Definition moment (l : list segment) (k : nat) (c : option R) : num :=
  match c with
  | Some c => meanf (fun x => (x - c) ^ k) l
  | None => match mean l with Num c => meanf (fun x => (x - c) ^ k) l | _ => NaN end
  end.

(** a number divided by var ** e, for var not zero: numpy's ** is nan for a negative base *)
Definition over_power (n v : num) (e : R) : num :=
  match n, v with
  | Num n, Num v => if rlt v 0 then NaN else Num (n / Rpower v e)
  | Num _, PInf => Num 0
  | _, _ => NaN
  end.
(** Distr.skewness, kurtosis (distr.py:164-173).  The moments about a mean that is nan are nan. *)
Definition about_mean (l : list segment) (k : nat) : num :=
  match mean l with Num m => moment l k (Some m) | _ => NaN end.
Definition shape (l : list segment) (k : nat) (e : R) : num :=
  match var l with
  | Num v => if req v 0 then NaN else over_power (about_mean l k) (Num v) e
  | v => over_power (about_mean l k) v e
  end.
Definition skewness (l : list segment) : num := shape l 3 (3 / 2).
Definition kurtosis (l : list segment) : num := shape l 4 2.
End Mom.

(** PiecewiseDistribution.range (segments.py:1969-1971) *)
Definition pw_range (l : list segment) : res (Rbar * Rbar) :=
  match getBreaks l with
  | [] => Err EIndex
  | b :: bs => Ok (b, last (b :: bs) b)
  end.
