(** Property theorems (Extr). Proofs are in ExtrMain.v and the files it imports. *)
From Coq Require Import Reals Lra List Bool Sorted Permutation.
From Coquelicot Require Import Coquelicot.
From Verif Require Import Base Bisect Seg Piecewise PiecewiseSpec PiecewiseFacts PiecewiseFacts2 PiecewiseFacts3 PiecewiseFacts4 Integral SegInt SegIntSpec IntParts Indep IndepSpec AtomFacts AtomFacts2 AtomFacts3 ConvolFacts IndepAsm AsmFacts ExtrFacts ExtrFacts2 ExtrFacts3 CdfDerive.
From Verif Require Import ExtrMain.
Import List ListNotations.
Open Scope R_scope.

(** C25: one value of the density of the minimum and of the maximum.  With the pairs of pieces selected for
    any point z that no end of a piece separates from x, the number computed at x is f(x)P(Y>x) + g(x)P(X>x) for
    the minimum and f(x)P(Y<x) + g(x)P(X<x) for the maximum. *)
Theorem extr_point_exact :
  forall f g z x, Forall wf_seg f -> Forall wf_seg g -> Forall integrable_piece f -> Forall integrable_piece g ->
  (forall p : R, is_end f p \/ is_end g p -> same_side p z x) ->
  rbind (findSegList f g z op_min) (fun l => convmin_at_point l x) = Ok (dens f x * prob_above g x + dens g x * prob_above f x) /\
  rbind (findSegList f g z op_max) (fun l => convmax_at_point l x) = Ok (dens f x * prob_below g x + dens g x * prob_below f x).
Proof. exact extr_point_exact_main. Qed.
Print Assumptions extr_point_exact.

(** C25: the whole of convmin.  The result exists, is ordered, its atoms are those of min(X,Y), and at
    every point that is not an end of a piece its value is f(x)P(Y>x) + g(x)P(X>x); that is the derivative of
    the distribution function of min(X,Y), 1 - P(X>t)P(Y>t), wherever the densities are continuous.  Gaps between
    pieces, atoms, infinite ends and poles are all allowed.  The result has no ends of its own. *)
Theorem min_exact :
  forall eps f g, 0 <= eps ->
  ordered f -> ordered g -> Forall wf_seg f -> Forall wf_seg g -> Forall integrable_piece f -> Forall integrable_piece g ->
  dirac_sep eps f -> dirac_sep eps g -> cross_sep eps f g ->
  (exists p : R, is_end f p) -> (exists p : R, is_end g p) ->
  exists q, convmin eps f g = Ok q /\ ordered (segs q) /\ Forall wf_seg (segs q) /\
    (forall z, pm (segs q) z = pm f z * prob_above g z + prob_above f z * pm g z + pm f z * pm g z) /\
    (forall x : R, ~ is_end f x -> ~ is_end g x ->
       call_vec (segs q) x = dens f x * prob_above g x + dens g x * prob_above f x /\
       (cont_at f x -> cont_at g x ->
        is_derive (fun t => total_mass f * total_mass g - prob_above f t * prob_above g t) x (call_vec (segs q) x))) /\
    (forall y, is_end (segs q) y -> is_end f y \/ is_end g y).
Proof. exact min_exact_main. Qed.
Print Assumptions min_exact.

(** C25: the whole of convmax: value f(x)P(Y<x) + g(x)P(X<x), the derivative of P(X<=t)P(Y<=t). *)
Theorem max_exact :
  forall eps f g, 0 <= eps ->
  ordered f -> ordered g -> Forall wf_seg f -> Forall wf_seg g -> Forall integrable_piece f -> Forall integrable_piece g ->
  dirac_sep eps f -> dirac_sep eps g -> cross_sep eps f g ->
  (exists p : R, is_end f p) -> (exists p : R, is_end g p) ->
  exists q, convmax eps f g = Ok q /\ ordered (segs q) /\ Forall wf_seg (segs q) /\
    (forall z, pm (segs q) z = pm f z * prob_below g z + prob_below f z * pm g z + pm f z * pm g z) /\
    (forall x : R, ~ is_end f x -> ~ is_end g x ->
       call_vec (segs q) x = dens f x * prob_below g x + dens g x * prob_below f x /\
       (cont_at f x -> cont_at g x ->
        is_derive (fun t => cdf_spec f t * cdf_spec g t) x (call_vec (segs q) x))) /\
    (forall y, is_end (segs q) y -> is_end f y \/ is_end g y).
Proof. exact max_exact_main. Qed.
Print Assumptions max_exact.
