(** Products of independent variables: the whole of convprod (pacal/indeparith.py). *)
From Coq Require Import Reals List Bool.
From Coquelicot Require Import Coquelicot.
From Verif Require Import Base Bisect Seg Piecewise Integral SegInt Indep Wide IndepAsm.
Import List ListNotations.
Open Scope R_scope.

(** the points at which convprod cuts both functions (indeparith.py:905-906) *)
Definition cut_points : list Rbar := [Finite (-1); Finite 0; Finite 1].

(** ub = epsunique(multiply.outer(bf, bg)) (indeparith.py:914-918); the products 0 * inf are NaN and are dropped by
    epsunique *)
Definition mul_ub (ueps : R) (bf bg : list Rbar) : list Rbar :=
  epsunique ueps (flat_map (fun p => flat_map (fun q => match op_mul p q with Some r => [r] | None => [] end) bg) bf).

(** convprod (indeparith.py:901-999); f(0.0), g(0.0) and testPole only choose the way of interpolation and are left
    out *)
Definition convprod (eps ueps : R) (f g : list segment) : res pwf :=
  rbind (splitByPoints eps f cut_points) (fun f' =>
  rbind (splitByPoints eps g cut_points) (fun g' =>
  rbind (assemble eps (fun z x => val (rbind (findSegList (segs f') (segs g') z op_mul) (fun l => convprod_at_point l x)))
                  (mul_ub ueps (getBreaks (segs f')) (getBreaks (segs g')))) (fun fg =>
  prod_diracs eps fg (segs f') (segs g')))).
