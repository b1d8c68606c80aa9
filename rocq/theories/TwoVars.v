(** Model: TwoVarsModel, the distribution of a function of two dependent variables (pacal/depvars/models.py:451-711). *)
From Coq Require Import Reals Lra List Bool.
From Coquelicot Require Import Coquelicot.
From Verif Require Import Base Bisect Seg Piecewise Integral SegInt Indep Wide IndepAsm.
Import List ListNotations.
Open Scope R_scope.

Section Model.
(** lop: the operation z = op(x,y) on extended numbers, None for nan (models.py:571, 468) *)
Variable op : Rbar -> Rbar -> option Rbar.
(** fun_alongx solved for y and evaluated at x and z by sympy: None when the result is not an extended real number
    (models.py:475, 499-502, 514-519) *)
Variable alongx : Rbar -> R -> option Rbar.
(** eq_solve(fun_alongx, y, x)[0] at z: the first x on the curve with the given y; IndexError when sympy finds none, None when the
    solution is not an extended real number (models.py:490-493, 505-512) *)
Variable cut : Rbar -> R -> res (option Rbar).
(** lfun_alongx and lJx, the numpy versions of the curve and of its derivative in z (models.py:478-484) *)
Variable fx jac : R -> R -> R.
(** the joint density (models.py:653) *)
Variable pdf : R -> R -> R.

(** ay < c and c < by, where c may be None, for which Python raises TypeError (models.py:525, 529) *)
Definition strictly_in (ay by_ : Rbar) (c : option Rbar) : res bool :=
  match c with None => Err EType | Some c => Ok (blt ay c && blt c by_)%bool end.
(** min (or max) of max(axc, ax) and min(bxc, bx) (models.py:528, 532) *)
Definition from_cuts (sel : Rbar -> Rbar -> Rbar) (axc bxc : option Rbar) (ax bx : Rbar) : res Rbar :=
  match axc, bxc with Some c, Some d => Ok (sel (bmax c ax) (bmin d bx)) | _, _ => Err EType end.
(** getUL (models.py:503-537): limits of integration in x over one rectangle *)
Definition getUL (ax bx ay by_ : Rbar) (z : R) : res (Rbar * Rbar) :=
  rbind (cut ay z) (fun axc =>
  rbind (cut by_ z) (fun bxc =>
  let ayc := alongx ax z in
  let byc := alongx bx z in
  rbind (strictly_in ay by_ ayc) (fun inL =>
  rbind (if inL then Ok ax else from_cuts bmin axc bxc ax bx) (fun L =>
  rbind (strictly_in ay by_ byc) (fun inU =>
  rbind (if inU then Ok bx else from_cuts bmax axc bxc ax bx) (fun U =>
  let (L, U) := if blt L U then (L, U) else (U, L) in
  Ok (bmax ax L, bmin bx U))))))).

(** one rectangle of the loop of convmodelx (models.py:667-673); the quadrature is ideal *)
Definition rect_int (z : R) (si sj : segment) : res R :=
  rbind (getUL (sa si) (sb si) (sa sj) (sb sj) z) (fun lu =>
  let L := bmin (snd lu) (fst lu) in
  let U := bmax (snd lu) (fst lu) in
  Ok (if blt L U then Q (fun t => pdf t (fx t z) * Rabs (jac t z)) L U else 0)).
(** the loop (models.py:664-690): the variable i keeps its value when one of the pieces is an atom, and is unset before the first
    pair of continuous pieces *)
Fixpoint rect_sum (z : R) (l : list (segment * segment)) (i : option R) (I : R) : res R :=
  match l with
  | [] => Ok I
  | (si, sj) :: l' =>
      rbind (if (isSegment si && isSegment sj)%bool then rmap Some (rect_int z si sj) else Ok i) (fun i' =>
      match i' with None => Err EName | Some v => rect_sum z l' i' (I + v) end)
  end.
(** convmodelx at one point (models.py:629-692) *)
Definition convmodelx (l : list (segment * segment)) (z : R) : res R := rect_sum z l None 0.

(** break points (models.py:579-591): values at all pairs of break points, 0 where the value is nan *)
Definition two_ub (f g : list segment) : list Rbar :=
  np_unique (flat_map (fun x => map (fun y => match op x y with Some r => r | None => Finite 0 end) (getBreaks g)) (getBreaks f)).
(** convmodel (models.py:565-627).  _findSegList (models.py:699-713) has the same text as the one in indeparith.py. *)
Definition convmodel (eps : R) (f g : list segment) : res pwf :=
  assemble eps (fun z x => val (rbind (findSegList f g z op) (fun l => convmodelx l x))) (two_ub f g).
End Model.

(** ** what sympy gives for some operations *)
(** floating-point sum and difference of two ends, nan for opposite infinities *)
Definition op_add (a b : Rbar) : option Rbar := Rbar_plus' a b.
Definition op_sub (a b : Rbar) : option Rbar := Rbar_plus' a (Rbar_opp b).
(** x + y = z: y = z - x, x = z - y, derivative 1 *)
Definition sum_alongx (x : Rbar) (z : R) : option Rbar := Some (Rbar_minus z x).
Definition sum_cut (y : Rbar) (z : R) : res (option Rbar) := Ok (Some (Rbar_minus z y)).
(** x - y = z: y = x - z, x = z + y, derivative -1 *)
Definition sub_alongx (x : Rbar) (z : R) : option Rbar := Some (Rbar_minus x z).
Definition sub_cut (y : Rbar) (z : R) : res (option Rbar) := Ok (Some (Rbar_plus z y)).
(** x * y = z: y = z/x, x = z/y, derivative 1/x; z/0 is zoo for sympy, and z/x = 0 has no solution *)
Definition mul_alongx (x : Rbar) (z : R) : option Rbar :=
  match x with Finite x => if req x 0 then None else Some (Finite (z / x)) | _ => Some (Finite 0) end.
Definition mul_cut (y : Rbar) (z : R) : res (option Rbar) :=
  match y with Finite y => if req y 0 then Err EIndex else Ok (Some (Finite (z / y))) | _ => Ok (Some (Finite 0)) end.
