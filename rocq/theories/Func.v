(** Functions of one random variable: the classes of pacal/distr.py:560-591, 610-798, 990-1065 with the functions,
    inverses and derivatives they pass on, powers (494-522), and copyCompositionNoninjective
    (pacal/segments.py:1392-1411). *)
From Coq Require Import Reals List Bool.
From Coquelicot Require Import Coquelicot.
From Verif Require Import Base Seg Piecewise Transform.
Import List ListNotations.
Open Scope R_scope.

(** a function on R with its values at -inf and inf, as numpy computes them *)
Definition ext (g : R -> R) (c d : Rbar) (x : Rbar) : Rbar :=
  match x with Finite x => Finite (g x) | m_infty => c | p_infty => d end.

(** ExpDistr (distr.py:610-622); numpy.log is only meant on (0,inf) *)
Definition exp_f : Rbar -> Rbar := ext exp (Finite 0) p_infty.
Definition exp_inv (x : R) : R := ln x.
Definition exp_der (x : R) : R := 1 / Rabs x.
(** LogDistr (distr.py:632-646); numpy.log is -inf at 0 and nan below (not represented) *)
Definition log_f (x : Rbar) : Rbar :=
  match x with Finite x => if rlt 0 x then Finite (ln x) else m_infty | m_infty => m_infty | p_infty => p_infty end.
Definition log_inv (x : R) : R := exp x.
Definition log_der (x : R) : R := exp x.
(** AtanDistr (distr.py:662-690) *)
Definition atan_f : Rbar -> Rbar := ext atan (Finite (- PI / 2)) (Finite (PI / 2)).
Definition atan_inv (x : R) : R := if (rle x (- PI / 2) || rle (PI / 2) x)%bool then 0 else tan x.
Definition atan_der (x : R) : R := if (rle x (- PI / 2) || rle (PI / 2) x)%bool then 0 else 1 + tan x * tan x.
(** TanhDistr (distr.py:700-728) *)
Definition tanh_f : Rbar -> Rbar := ext tanh (Finite (Ropp 1)) (Finite 1).
Definition tanh_inv (x : R) : R := if (rle x (Ropp 1) || rle 1 x)%bool then 0 else 1 / 2 * ln ((1 + x) / (1 - x)).
Definition tanh_der (x : R) : R := if (rle x (Ropp 1) || rle 1 x)%bool then 0 else 1 / (1 - x * x).
(** SigmoidDistr (distr.py:739-781) *)
Definition sigm (x : R) : R := if rlt 0 x then 1 / (1 + exp (- x)) else exp x / (exp x + 1).
Definition sigm_f : Rbar -> Rbar := ext sigm (Finite 0) (Finite 1).
Definition sigm_inv (x : R) : R := if (rle x (Ropp 1) || rle 1 x)%bool then 0 else ln (x / (1 - x)).
Definition sigm_der (x : R) : R := if (rle x (Ropp 1) || rle 1 x)%bool then 0 else 1 / (x * (1 - x)).
(** TanDistr (distr.py:1051-1062); tan is nan at +-inf, which no caller of the model reaches *)
Definition tan_f : Rbar -> Rbar := ext tan m_infty p_infty.
Definition tan_inv (x : R) : R := atan x.
Definition tan_der (x : R) : R := 1 / (1 + x * x).

(** init_piecewise_pdf of FuncDistr (distr.py:590-591) and LogDistr (644-645) *)
Definition exp_distr (eps : R) (l : list segment) : res pwf := copyComposition eps l exp_f exp_inv exp_der true.
Definition atan_distr (eps : R) (l : list segment) : res pwf := copyComposition eps l atan_f atan_inv atan_der false.
Definition tanh_distr (eps : R) (l : list segment) : res pwf := copyComposition eps l tanh_f tanh_inv tanh_der false.
Definition sigm_distr (eps : R) (l : list segment) : res pwf := copyComposition eps l sigm_f sigm_inv sigm_der false.
Definition tan_distr (eps : R) (l : list segment) : res pwf := copyComposition eps l tan_f tan_inv tan_der false.
(** isNonneg (segments.py:1153-1162): no continuous piece starts below zero, every atom lies above zero.
    (the overrides at distr.py:621, 999, 1017, 1040 answer True without looking) *)
Definition is_nonneg (l : list segment) : bool :=
  forallb (fun s => if isDirac s then negb (ble (sa s) (Finite 0)) else negb (blt (sa s) (Finite 0))) l.
(** LogDistr.__init__ (distr.py:633-636) and init_piecewise_pdf (643-644) *)
Definition log_distr (eps : R) (l : list segment) : res pwf :=
  if is_nonneg l then copyLogComposition eps l log_f log_inv log_der else Err EValue.

(** Distr.__pow__ for a number (distr.py:499-509); X ** 0 is the number 1 *)
Inductive pow_result := PNum (c : R) | PDistr (p : pwf).
Definition pow_distr (eps : R) (p : pwf) (d : R) : res pow_result :=
  if req d 0 then Ok (PNum 1)
  else if req d 1 then Ok (PDistr p)
  else if req d (Ropp 1) then rmap PDistr (copyProbInverse eps (segs p) false)
  else if req d 2 then rmap PDistr (copySquareComposition eps (segs p))
  else rbind (log_distr eps (segs p)) (fun p1 =>
       rbind (copyShiftedAndScaled eps (segs p1) 0 d) (fun p2 => rmap PDistr (exp_distr eps (segs p2)))).
(** Distr.__rpow__ (distr.py:512-521): x ** X *)
Definition rpow_distr (eps : R) (p : pwf) (x : R) : res pow_result :=
  if req x 0 then Ok (PNum 0)
  else if req x 1 then Ok (PNum 1)
  else if rlt x 0 then Err EValue
  else rbind (copyShiftedAndScaled eps (segs p) 0 (ln x)) (fun p2 => rmap PDistr (exp_distr eps (segs p2))).

(** copyCompositionNoninjective (segments.py:1392-1411); a branch is an interval, the function, its inverse and
    the derivative of the inverse *)
Definition branch : Type := Rbar * Rbar * (Rbar -> Rbar) * (R -> R) * (R -> R).
Fixpoint noninj (eps : R) (l : list segment) (pole : bool) (bs : list branch) (acc : pwf) : res pwf :=
  match bs with
  | [] => Ok acc
  | (A, B, g, ginv, dginv) :: bs' =>
      rbind (restrictToInterval eps l A B) (fun r =>
      rbind (copyComposition eps (segs r) g ginv dginv pole) (fun c =>
      rbind (operation eps Rplus (segs acc) (segs c)) (noninj eps l pole bs')))
  end.
Definition copyCompositionNoninjective (eps : R) (l : list segment) (bs : list branch) (pole : bool) : res pwf :=
  noninj eps l pole bs empty_pwf.

(** SinDistr (distr.py:1002-1016): both branches use 1/sqrt(1-x^2), the second inverse is 2 pi - arccos *)
Definition two_pi_acos (x : R) : R := 2 * PI - acos x.
Definition arc_der (x : R) : R := 1 / sqrt (1 - x * x).
Definition marc_der (x : R) : R := - (1 / sqrt (1 - x * x)).
Definition sin_f : Rbar -> Rbar := ext sin m_infty p_infty.
Definition cos_f : Rbar -> Rbar := ext cos m_infty p_infty.
Definition sin_branches : list branch :=
  [ (Finite (- PI / 2), Finite (PI / 2), sin_f, asin, arc_der);
    (Finite (PI / 2), Finite (3 * PI / 2), sin_f, two_pi_acos, arc_der) ].
Definition sin_distr (eps : R) (l : list segment) : res pwf := copyCompositionNoninjective eps l sin_branches false.
(** CosDistr (distr.py:1025-1039) *)
Definition cos_branches : list branch :=
  [ (Finite 0, Finite PI, cos_f, acos, marc_der);
    (Finite PI, Finite (2 * PI), cos_f, two_pi_acos, arc_der) ].
Definition cos_distr (eps : R) (l : list segment) : res pwf := copyCompositionNoninjective eps l cos_branches false.

(** FuncDistr.pdf for a scalar (distr.py:579-588), where every value is finite *)
Definition func_pdf (pdf : R -> R) (ginv dginv : R -> R) (x : R) : R := pdf (ginv x) * Rabs (dginv x).
