(** The logarithms with cut-offs and the generator of FrankCopula2d (pacal/depvars/copulas.py:686-752). Real arithmetic; log1p, expm1
    and the values left after a cut-off are exact. *)
From Coq Require Import Reals List Bool.
From Verif Require Import Base.
Open Scope R_scope.

Definition big : R := 10 ^ 16.
(** logexp_p1 (copulas.py:720-728) for one element of an array; a <> 0 *)
Definition logexp_p1 (x a : R) : R :=
  let x := x + ln (Rabs a) in
  let yy := ln (1 + exp x) in
  let yy := if rlt big (exp x) then x else yy in
  if rlt (exp x) (/ big) then exp x else yy.
(** logexp_m1 (copulas.py:729-743); numbers and arrays alike *)
Definition logexp_m1 (x a : R) : R :=
  let x := x + ln (Rabs a) in
  let yy := - ln (Rabs (exp (- x) - 1)) in
  let yy := if rlt big (exp (- x)) then x else yy in
  if rlt (exp (- x)) (/ big) then exp (- x) else yy.
(** log_1m_exp (copulas.py:744-752) *)
Definition log_1m_exp (x a : R) : R :=
  let x := x + ln (Rabs a) in
  let yy := ln (Rabs (exp x - 1)) in
  let yy := if rlt big (exp x) then x else yy in
  if rlt (exp x) (/ big) then - exp x else yy.
(** FrankCopula2d.fi (copulas.py:692-693) *)
Definition f2_fi (th t : R) : R := logexp_m1 (t * th) 1 - logexp_m1 th 1.
(** FrankCopula2d.fi_inv (copulas.py:694-700); [scalar]: the argument is a number, so that yy[ind] = ... raises TypeError *)
Definition f2_fi_inv (scalar : bool) (th s : R) : res R :=
  if req (exp (- th) - 1) 0 then Err EZeroDiv
  else if scalar then Err EType
  else if rlt 0 (exp (- th) - 1) then Ok (- 1 / th * logexp_p1 (- s) (exp (- th) - 1))
  else Ok (- 1 / th * log_1m_exp (- s) (exp (- th) - 1)).
