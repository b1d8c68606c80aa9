(** Variable transforms of infinite intervals (pacal/vartransforms.py) and the integration routines built on
    them (pacal/integration.py 204-263). *)
From Coq Require Import Reals Lra List Bool.
From Coquelicot Require Import Coquelicot.
From Verif Require Import Base Integral.
Import List ListNotations.
Open Scope R_scope.

(** A transform: var_change, inv_var_change, inv_var_change_deriv, var_min, var_max and the parameter values
    that stand for infinity (class VarTransform, vartransforms.py:9-42) *)
Record vt := VT { vchange : R -> R; vinv : R -> R; vderiv : R -> R; vmin : R; vmax : R; vinf : list R }.

(** apply_with_inv_transform with def_val = 0 (vartransforms.py:11-42): zero at the parameter values standing
    for infinity, otherwise f at the original variable, times the derivative on request.  The array case does
    the same for every entry. *)
Definition apply_vt (v : vt) (mul_by_deriv : bool) (f : R -> R) (t : R) : R :=
  if existsb (req t) (vinf v) then 0
  else if mul_by_deriv then f (vinv v t) * vderiv v t else f (vinv v t).

(** VarTransformReciprocal_PMInf (vartransforms.py:59-82); the exponent is stored but not used *)
Definition rec_pm : vt :=
  VT (fun x => x / (1 + Rabs x)) (fun t => t / (1 - Rabs t)) (fun t => 1 / ((1 - Rabs t) * (1 - Rabs t))) (-1) 1 [-1; 1].

(** the offset of the one-sided reciprocal transforms (vartransforms.py:92-95, 133-136) *)
Definition offset (L : R) : R := if req L 0 then 1 else Rabs L / 2.

(** VarTransformReciprocal_PInf (vartransforms.py:83-123); x**y of positive numbers is Rpower *)
Definition rp_change (L p x : R) : R :=
  let o := offset L in
  if req p 1 then o / (x - L + o)
  else if req p 2 then sqrt (o / (x - L + o))
  else Rpower (o / (x - L + o)) (1 / p).
Definition rp_inv (L p t : R) : R :=
  let o := offset L in
  if req p 1 then L - o + o / t else L - o + o / Rpower t p.
Definition r_deriv (e p t : R) : R :=
  let o := offset e in
  if req p 1 then o / (t * t) else o * p / Rpower t (p + 1).
Definition rec_p (L p : R) (U : option R) : vt :=
  VT (rp_change L p) (rp_inv L p) (r_deriv L p) (match U with None => 0 | Some u => rp_change L p u end) 1
     (match U with None => [0] | Some _ => [] end).

(** VarTransformReciprocal_MInf (vartransforms.py:124-166) *)
Definition rm_change (U p x : R) : R :=
  let o := offset U in
  if req p 1 then - o / (x - U - o)
  else if req p 2 then sqrt (- o / (x - U - o))
  else Rpower (o / Rabs (x - U - o)) (1 / p).
Definition rm_inv (U p t : R) : R :=
  let o := offset U in
  if req p 1 then U + o - o / t
  else if req p 2 then U + o - o / (t * t)
  else U + o - o / Rpower t p.
Definition rec_m (U p : R) (L : option R) : vt :=
  VT (rm_change U p) (rm_inv U p) (r_deriv U p) (match L with None => 0 | Some l => rm_change U p l end) 1
     (match L with None => [0] | Some _ => [] end).

(** VarTransformAlgebraic_PMInf (vartransforms.py:173-192) *)
Definition alg_pm (c : R) : vt :=
  VT (fun x => x / sqrt (c * c + x * x))
     (fun t => c * t / sqrt (1 - t * t))
     (fun t => let t2 := t * t in c * (t2 / sqrt ((1 - t2) ^ 3) + 1 / sqrt (1 - t2))) (-1) 1 [-1; 1].
(** VarTransformAlgebraic_PInf (vartransforms.py:193-215); the printed warnings are not modelled *)
Definition alg_p (L c : R) : vt :=
  VT (fun x => (x - L - c) / (x - L + c)) (fun t => L + c * (1 + t) / (1 - t)) (fun t => 2 * c / (1 - t) ^ 2) (-1) 1 [1].
(** VarTransformAlgebraic_MInf (vartransforms.py:216-239) *)
Definition alg_m (U c : R) : vt :=
  VT (fun x => (- (x - U) - c) / (- (x - U) + c)) (fun t => U - c * (1 + t) / (1 - t)) (fun t => 2 * c / (1 - t) ^ 2) (-1) 1 [1].

(** _integrate_with_vartransform (integration.py:204-209) with exact quadrature on the finite interval *)
Definition integrate_vt (v : vt) (f : R -> R) : R := Q (apply_vt v true f) (vmin v) (vmax v).

(** integrate_fejer2_pminf / _pinf / _minf (integration.py:230-249) and the Clenshaw versions (211-226) *)
Definition fejer2_pminf (f : R -> R) : R := integrate_vt rec_pm f.
Definition fejer2_pinf (f : R -> R) (a : Rbar) (b : option R) (p : R) : R :=
  match a with p_infty => 0 | _ => integrate_vt (rec_p (real a) p b) f end.
Definition fejer2_minf (f : R -> R) (b : Rbar) (a : option R) (p : R) : R :=
  match b with m_infty => 0 | _ => integrate_vt (rec_m (real b) p a) f end.
Definition clenshaw_pminf (f : R -> R) : R := integrate_vt (alg_pm 1) f.
Definition clenshaw_pinf (f : R -> R) (a : Rbar) : R :=
  match a with p_infty => 0 | _ => integrate_vt (alg_p (real a) 1) f end.
Definition clenshaw_minf (f : R -> R) (b : Rbar) : R :=
  match b with m_infty => 0 | _ => integrate_vt (alg_m (real b) 1) f end.

(** integrate_fejer2_Xn_transformP / N (integration.py:254-263), used at poles; [ue] is the machine epsilon *)
Definition edgeP (ue a : R) : R := a + Rabs a * ue.
Definition edgeN (ue b : R) : R := b - Rabs b * ue.
Definition fejer2_XnP (ue N : R) (f : R -> R) (a b : R) : R :=
  let a := edgeP ue a in
  Q (fun t => N * (b - a) * f (Rpower t N * (b - a) + a) * Rpower t (N - 1)) 0 1.
Definition fejer2_XnN (ue N : R) (f : R -> R) (a b : R) : R :=
  let b := edgeN ue b in
  Q (fun t => N * (b - a) * f (b - Rpower t N * (b - a)) * Rpower t (N - 1)) 0 1.
