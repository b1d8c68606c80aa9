(** Specification vocabulary for arithmetic on independent variables. *)
From Coq Require Import Reals Lra List Bool.
From Coquelicot Require Import Coquelicot.
From Verif Require Import Base Seg Piecewise PiecewiseSpec Integral SegIntSpec IntParts.
Import List ListNotations.
Open Scope R_scope.

(** P(X = z): total mass of the atoms at z *)
Definition pm (l : list segment) (z : R) : R :=
  sumR (map (fun s => match s with DiracSeg a m => if Req_EM_T a z then m else 0 | _ => 0 end) l).

(** Sum over all pairs of atoms of P(X = x) P(Y = y) weighted by [w x y]. *)
Definition pair_sum (w : R -> R -> R) (f g : list segment) : R :=
  sumR (map (fun si => sumR (map (fun sj =>
    match si, sj with DiracSeg x m, DiracSeg y k => w x y * (m * k) | _, _ => 0 end) g)) f).

(** probability that op(X,Y) = z for independent X, Y, counting atoms only *)
Definition pm_op (op : R -> R -> R) (f g : list segment) (z : R) : R :=
  pair_sum (fun x y => if Req_EM_T (op x y) z then 1 else 0) f g.

(** P(Y > z) and P(Y < z), atoms and continuous pieces *)
Definition prob_above (l : list segment) (z : R) : R := total_mass l - cdf_spec l z.
Definition prob_below (l : list segment) (z : R) : R := cdf_spec l z - pm l z.

(** only atoms *)
Definition discrete (l : list segment) : Prop := Forall (fun s => isDirac s = true) l.
(** no constant pieces (they are turned into ordinary ones by splitByPoints) *)
Definition no_const (l : list segment) : Prop := Forall (fun s => isConst s = false) l.
(** values of the operation on the atoms are equal or further apart than the merge tolerance *)
Definition values_sep (eps : R) (op : R -> R -> R) (f g : list segment) : Prop :=
  forall x m y k x' m' y' k',
    In (DiracSeg x m) f -> In (DiracSeg y k) g -> In (DiracSeg x' m') f -> In (DiracSeg y' k') g ->
    op x y = op x' y' \/ eps < Rabs (op x y - op x' y').

(** density of the continuous part: sum over the pieces whose open interval contains t *)
Definition dens (l : list segment) (t : R) : R :=
  sumR (map (fun s => if isDirac s then 0
                      else if Rbar_lt_dec (sa s) t then (if Rbar_lt_dec t (sb s) then sf s t else 0) else 0) l).

(** mass of the continuous part *)
Definition cont_mass (l : list segment) : R := sumR (map mass (getSegments l)).

(** density of one piece: zero outside the open interval and for atoms *)
Definition dens1 (s : segment) (t : R) : R :=
  if isDirac s then 0
  else if Rbar_lt_dec (sa s) t then (if Rbar_lt_dec t (sb s) then sf s t else 0) else 0.

(** sum over the atoms (a,m) of [l] of m * w(a) *)
Definition atom_sum (w : R -> R) (l : list segment) : R :=
  sumR (map (fun s => match s with DiracSeg a m => m * w a | _ => 0 end) l).

(** [v] is the density at x of X + Y for independent X, Y: continuous with continuous parts (the
    convolution integral), atoms of X with the density of Y, atoms of Y with the density of X *)
Definition sum_density (f g : list segment) (x v : R) : Prop :=
  exists I, has_int (fun t => dens f t * dens g (x - t)) m_infty p_infty I /\
    v = I + atom_sum (fun a => dens g (x - a)) f + atom_sum (fun b => dens f (x - b)) g.

(** x and z lie on the same side of the point p, and neither is equal to it *)
Definition same_side (p z x : R) : Prop := (p < z /\ p < x) \/ (z < p /\ x < p).
(** no sum of ends of pieces separates x from z *)
Definition same_sum_cell (f g : list segment) (z x : R) : Prop :=
  forall p q : R, is_end f p -> is_end g q -> same_side (p + q) z x.
(** the products to be integrated are integrable wherever two pieces overlap *)
Definition sums_integrable (f g : list segment) (x : R) : Prop :=
  forall si sj a b, In si f -> In sj g -> isDirac si = false -> isDirac sj = false -> Rbar_lt a b ->
    (forall t : R, Rbar_lt a t /\ Rbar_lt t b <->
       Rbar_lt (sa si) t /\ Rbar_lt t (sb si) /\ Rbar_lt (sa sj) (x - t) /\ Rbar_lt (x - t) (sb sj)) ->
    integrable (fun t => sf si t * sf sj (x - t)) a b.
(** sums of finite ends *)
Definition end_sum (f g : list segment) (r : R) : Prop := exists p q : R, is_end f p /\ is_end g q /\ r = p + q.
(** different sums of ends are further apart than the tolerance *)
Definition sums_sep (e : R) (f g : list segment) : Prop := forall r r', end_sum f g r -> end_sum f g r' -> r = r' \/ e < Rabs (r - r').

(** every piece is continuous at x, if x lies inside it *)
Definition cont_at (l : list segment) (x : R) : Prop :=
  forall s, In s l -> isDirac s = false -> Rbar_lt (sa s) x /\ Rbar_lt x (sb s) -> continuous (sf s) x.

(** a value that piece s can take: inside its open interval, or its position for an atom *)
Definition takes (s : segment) (x : R) : Prop :=
  if isDirac s then sa s = Finite x else Rbar_lt (sa s) x /\ Rbar_lt x (sb s).
(** the piece lies on one side of zero *)
Definition one_sided (s : segment) : Prop := Rbar_le 0 (sa s) \/ Rbar_le (sb s) 0.
(** [v] is the density at x <> 0 of X * Y for independent X, Y *)
Definition prod_density (f g : list segment) (x v : R) : Prop :=
  exists I, has_int (fun t => dens f t * dens g (x / t) * / Rabs t) m_infty p_infty I /\
    v = I + atom_sum (fun a => if Req_EM_T a 0 then 0 else dens g (x / a) * / Rabs a) f
          + atom_sum (fun b => if Req_EM_T b 0 then 0 else dens f (x / b) * / Rabs b) g.
(** [v] is the density at x of X / Y for independent X, Y *)
Definition quot_density (f g : list segment) (x v : R) : Prop :=
  exists I, has_int (fun t => dens f (x * t) * dens g t * Rabs t) m_infty p_infty I /\
    v = I + atom_sum (fun a => dens g (a / x) * (Rabs a * / x * / x)) f
          + atom_sum (fun b => dens f (x * b) * Rabs b) g.
(** x and z have the same sign and no product of ends lies between them *)
Definition same_prod_cell (f g : list segment) (z x : R) : Prop :=
  0 < z * x /\ forall p q : R, is_end f p -> is_end g q -> same_side (p * q) z x.
(** x and z have the same sign and no quotient of ends lies between them *)
Definition same_quot_cell (f g : list segment) (z x : R) : Prop :=
  0 < z * x /\ forall p q : R, is_end f p -> is_end g q -> q <> 0 -> same_side (p / q) z x.
(** the kernels are integrable wherever two pieces meet *)
Definition kernel_integrable (u v w : R -> R) (f g : list segment) : Prop :=
  forall si sj a b, In si f -> In sj g -> isDirac si = false -> isDirac sj = false -> Rbar_lt a b ->
    (forall t : R, Rbar_lt a t /\ Rbar_lt t b <->
       Rbar_lt (sa si) (u t) /\ Rbar_lt (u t) (sb si) /\ Rbar_lt (sa sj) (v t) /\ Rbar_lt (v t) (sb sj)) ->
    integrable (fun t => sf si (u t) * sf sj (v t) * w t) a b.
