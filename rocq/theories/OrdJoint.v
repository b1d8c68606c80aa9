(** Model: IJthOrderStatsNDDistr, the joint distribution of two order statistics (pacal/depvars/nddistr.py:805-832). *)
From Coq Require Import Reals ZArith List Bool.
From Verif Require Import Base Comb.
Import List ListNotations.
Open Scope R_scope.

(** the assertion of the constructor (nddistr.py:811) *)
Definition ij_check (n i j : Z) : res unit :=
  if ((1 <=? i) && (i <? j) && (j <=? n))%Z%bool then Ok tt else Err EAssert.
(** pdf at one point, f and F being the density and the distribution function of one observation (nddistr.py:825-830).
    The exponents are not negative after the assertion; 0 ** 0.0 is 1. *)
Definition ij_pdf (n i j : Z) (f F : R -> R) (x y : R) : res R :=
  rbind (multinomial_coeff n [i - 1; 1; j - i - 1; 1; n - j]%Z) (fun c =>
  Ok ((if rlt x y then 1 else 0) * c * F x ^ Z.to_nat (i - 1) * (F y - F x) ^ Z.to_nat (j - i - 1) * (1 - F y) ^ Z.to_nat (n - j) * f x * f y)).
(** the object, called at x and y *)
Definition ij_call (n i j : Z) (f F : R -> R) (x y : R) : res R := rbind (ij_check n i j) (fun _ => ij_pdf n i j f F x y).
