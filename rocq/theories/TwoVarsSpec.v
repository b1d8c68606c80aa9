(** Specification vocabulary for functions of two dependent variables. *)
From Coq Require Import Reals Lra List Bool.
From Coquelicot Require Import Coquelicot.
From Verif Require Import Base Seg Piecewise PiecewiseSpec Integral IntParts.
Import List ListNotations.
Open Scope R_scope.

(** x lies strictly inside the piece *)
Definition inner (s : segment) (x : R) : Prop := Rbar_lt (sa s) x /\ Rbar_lt x (sb s).
(** 1 strictly inside a continuous piece of the list, 0 elsewhere *)
Definition on_support (l : list segment) (x : R) : R :=
  if existsb (fun s => if isDirac s then false else if Rbar_lt_dec (sa s) x then (if Rbar_lt_dec x (sb s) then true else false) else false) l
  then 1 else 0.

(** the density at z of op(X,Y), when op(x,y) = z is the curve y = h x z: the joint density integrated along the part of the curve
    inside the support, with the derivative of the curve in z *)
Definition curve_density (f g : list segment) (p h j : R -> R -> R) (z v : R) : Prop :=
  has_int (fun t => on_support f t * on_support g (h t z) * (p t (h t z) * Rabs (j t z))) m_infty p_infty v.

(** On [a,b] the curve at z is monotone (inc: increasing) and meets the height y at c, which may lie outside of [a,b]: the curve is
    below y on one side of c and above on the other. *)
Definition crosses (inc : bool) (h : Rbar -> option Rbar) (a b y c : Rbar) : Prop :=
  forall t, Rbar_le a t -> Rbar_le t b -> exists v, h t = Some v /\
    (if inc then (Rbar_lt t c <-> Rbar_lt v y) /\ (Rbar_lt c t <-> Rbar_lt y v)
     else (Rbar_lt t c <-> Rbar_lt y v) /\ (Rbar_lt c t <-> Rbar_lt v y)).
(** what is needed of the answers of sympy on the rectangle of two pieces *)
Definition monotone_curve (alongx : Rbar -> R -> option Rbar) (cut : Rbar -> R -> res (option Rbar)) (fx : R -> R -> R)
    (z : R) (si sj : segment) : Prop :=
  (exists inc c d, cut (sa sj) z = Ok (Some c) /\ cut (sb sj) z = Ok (Some d) /\
     crosses inc (fun t => alongx t z) (sa si) (sb si) (sa sj) c /\ crosses inc (fun t => alongx t z) (sa si) (sb si) (sb sj) d) /\
  (forall t : R, inner si t -> alongx t z = Some (Finite (fx t z))).
(** the values of the operation at the corners of a rectangle surround the value at an inner point of the curve *)
Definition surrounded (op : Rbar -> Rbar -> option Rbar) (fx : R -> R -> R) (z : R) (si sj : segment) : Prop :=
  (exists x y r, (x = sa si \/ x = sb si) /\ (y = sa sj \/ y = sb sj) /\ op x y = Some r) /\
  forall t : R, inner si t -> inner sj (fx t z) ->
  exists x y x' y' r r', (x = sa si \/ x = sb si) /\ (y = sa sj \/ y = sb sj) /\ (x' = sa si \/ x' = sb si) /\ (y' = sa sj \/ y' = sb sj) /\
    op x y = Some r /\ op x' y' = Some r' /\ Rbar_lt r z /\ Rbar_lt z r'.
(** the integrand has an integral over the part of the curve inside each rectangle *)
Definition curve_integrable (p h j : R -> R -> R) (z : R) (si sj : segment) : Prop :=
  forall L U, Rbar_lt L U -> (forall t : R, Rbar_lt L t /\ Rbar_lt t U <-> inner si t /\ inner sj (h t z)) ->
  integrable (fun t => p t (h t z) * Rabs (j t z)) L U.
(** z is the value of the operation at two ends of pieces, or 0, the value used where it is not a number *)
Definition end_value (op : Rbar -> Rbar -> option Rbar) (f g : list segment) (z : R) : Prop :=
  exists x y, is_end f x /\ is_end g y /\ match op x y with Some r => r = Finite z | None => z = 0 end.
(** no atoms *)
Definition no_atoms (l : list segment) : Prop := forall s, In s l -> isDirac s = false.
(** the piece does not reach 0 *)
Definition off_zero (s : segment) : Prop := Rbar_lt 0 (sa s) \/ Rbar_lt (sb s) 0.
