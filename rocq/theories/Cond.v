(** Conditional distributions: CondGtDistr, CondLtDistr, CondBetweenDistr (pacal/distr.py:1239-1305) and the
    operator | (distr.py:523-536). *)
From Coq Require Import Reals List Bool.
From Coquelicot Require Import Coquelicot.
From Verif Require Import Base Bisect Seg Piecewise Integral SegInt Indep Wide IndepAsm ProdAsm Discr.
Import List ListNotations.
Open Scope R_scope.

(** density of DiscreteDistr([c],[p]), also that of ConstDistr(c, p) (distr.py:1225-1228) *)
Definition point_pdf (eps c p : R) : res (list segment) :=
  rbind (disc_init [c] [p]) (fun d => rmap segs (disc_pw eps d)).

(** segments.pop(0) and segments.pop(-1) *)
Definition pop_first (l : list segment) : res (segment * list segment) :=
  match l with [] => Err EIndex | s :: t => Ok (s, t) end.
Definition pop_last (l : list segment) : res (segment * list segment) :=
  match rev l with [] => Err EIndex | s :: t => Ok (s, rev t) end.
(** while segments[0].a < L: segments.pop(0) (distr.py:1248-1249) *)
Fixpoint pop_below (L : R) (l : list segment) : res (list segment) :=
  match l with
  | [] => Err EIndex
  | s :: t => if blt (sa s) L then pop_below L t else Ok l
  end.
(** the attribute f of a piece as a number: the mass of an atom; the function of any other piece cannot be
    subtracted from 1 *)
Definition height (s : segment) : res R := match s with DiracSeg _ m => Ok m | _ => Err EType end.
(** Z * DiscreteDistr([1.0], [1.0 / pmass]) (distr.py:1252, 1277, 1303); division by a Python float zero raises
    ZeroDivisionError (for numpy numbers it gives inf with a warning, which the theorems exclude as well) *)
Definition rescale (eps ueps : R) (l : list segment) (pmass : R) : res pwf :=
  if req pmass 0 then Err EZeroDiv
  else rbind (point_pdf eps 1 (1 / pmass)) (fun g => convprod eps ueps l g).

(** CondGtDistr.init_piecewise_pdf (distr.py:1244-1252) *)
Definition cond_gt (eps ueps L : R) (d : list segment) : res pwf :=
  rbind (point_pdf eps L 1) (fun c =>
  rbind (convmax eps c d) (fun Z =>
  rbind (pop_below L (segs Z)) (fun l =>
  rbind (pop_first l) (fun bl =>
  rbind (height (fst bl)) (fun m => rescale eps ueps (snd bl) (1 - m)))))).
(** CondLtDistr.init_piecewise_pdf (distr.py:1274-1277) *)
Definition cond_lt (eps ueps U : R) (d : list segment) : res pwf :=
  rbind (point_pdf eps U 1) (fun c =>
  rbind (convmin eps c d) (fun Z =>
  rbind (pop_last (segs Z)) (fun bl =>
  rbind (height (fst bl)) (fun m => rescale eps ueps (snd bl) (1 - m))))).
(** CondBetweenDistr.init_piecewise_pdf (distr.py:1294-1303); min and max with a number make it a ConstDistr
    (distr.py:1191-1223) *)
Definition cond_between (eps ueps L U : R) (d : list segment) : res pwf :=
  rbind (point_pdf eps U 1) (fun cU =>
  rbind (convmin eps d cU) (fun Z1 =>
  rbind (point_pdf eps L 1) (fun cL =>
  rbind (convmax eps (segs Z1) cL) (fun Z =>
  rbind (pop_first (segs Z)) (fun bl =>
  rbind (pop_last (snd bl)) (fun br =>
  rbind (height (fst bl)) (fun mL =>
  rbind (height (fst br)) (fun mU => rescale eps ueps (snd br) (1 - (mL + mU)))))))))).
(** PiecewiseFunction.range (segments.py:1969-1971) *)
Definition pw_range (l : list segment) : res (Rbar * Rbar) :=
  match getBreaks l with [] => Err EIndex | a :: t => Ok (a, last t a) end.
(** X | Gt(L), X | Lt(U), X | Between(L, U) (distr.py:523-535) *)
Definition or_gt (eps ueps L : R) (d : list segment) : res pwf :=
  rbind (pw_range d) (fun r => if blt L (snd r) then cond_gt eps ueps L d else Err EAssert).
Definition or_lt (eps ueps U : R) (d : list segment) : res pwf :=
  rbind (pw_range d) (fun r => if blt (fst r) U then cond_lt eps ueps U d else Err EAssert).
Definition or_between (eps ueps L U : R) (d : list segment) : res pwf := cond_between eps ueps L U d.
