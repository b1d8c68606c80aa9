(** The inverse of the distribution function as a piecewise function, sampling by inversion, and the complementary
    distribution function (pacal/segments.py:1844-1886; distr.py:99-104, 120-126, 132-150, 299-306). *)
From Coq Require Import Reals List Bool.
From Coquelicot Require Import Coquelicot.
From Verif Require Import Base Seg Piecewise Integral SegInt Quant Wide Std.
Import List ListNotations.
Open Scope R_scope.

(** breakvals for rangeY = None (segments.py:1852-1864): the values at the ends of the pieces and the value at 0; the list is
    sorted only by epsunique *)
Definition inv_tab (vals : list (R * R)) (x0 : R) : list R :=
  let l := flat_map (fun v => [fst v; snd v]) vals in if inb x0 l then l else l ++ [x0].
(** epsunique(array(breakvals), 0.0001) and include_zero_break (segments.py:1875-1878) *)
Definition inv_breaks (vals : list (R * R)) (x0 : R) : list Rbar :=
  let ub := epsunique (1 / 10000) (map Finite (inv_tab vals x0)) in
  if existsb (beq (Finite 0)) ub then ub else uins (Finite 0) ub.
(** use_end_poles = True (segments.py:1879-1884) *)
Definition inv_lpoles (bp : list Rbar) : list bool := match bp with [] => [] | _ :: t => true :: no_poles t end.
Definition inv_rpoles (bp : list Rbar) : list bool := no_poles (removelast bp) ++ [true].

(** invfun (segments.py:1844-1889) with exact interpolation; [q] is self.inverse, one function for all pieces *)
Definition invfun (eps : R) (vinf : segment -> R) (q : R -> R) (l : list segment) : res pwf :=
  rbind (call_scalar l 0) (fun x0 =>
  let bp := inv_breaks (getSegVals vinf l) x0 in make_pwf eps q bp (inv_lpoles bp) (inv_rpoles bp)).
(** get_piecewise_invcdf (distr.py:120-126); rand_invcdf (299-306) calls it with an array of uniform numbers, or with one *)
Definition invcdf (eps : R) (vinf : segment -> R) (q : R -> R) (l : list segment) : res pwf :=
  rbind (cumint eps l) (fun c => invfun eps vinf q (segs c)).

(** get_piecewise_ccdf (distr.py:99-104): 1 - cdf; called with a number *)
Definition ccdf (eps : R) (l : list segment) (x : R) : res R :=
  rbind (cumint eps l) (fun c => rbind (rsub_num eps 1 (segs c)) (fun p => call_scalar (segs p) x)).
(** ccdf_value (distr.py:140-150) *)
Definition ccdf_value (eps : R) (l : list segment) (x : R) : res R :=
  match rev l with
  | [] => Err EIndex
  | s :: _ =>
      if (ble (Finite x) (sa s) || negb (isPInf s))%bool
      then rbind (cumint eps l) (fun c => rmap (fun v => 1 - v) (call_scalar (segs c) x))
      else Ok (seg_integrate s x p_infty)
  end.
