(** Property theorems (Root). Proofs are in RootMain.v and the files it imports. *)
From Coq Require Import Reals ZArith Lra Lia List Bool.
From Coquelicot Require Import Coquelicot.
From Verif Require Import Base Root.
From Verif Require Import RootMain.
Import List ListNotations.
Open Scope R_scope.

(** C50: bisection stays in the bracket and ends at a zero or within the tolerance (or the width left after
    maxiter halvings) of a change of sign. *)
Theorem bisect_change :
  forall f xa xb xtol rtol n, f xa * f xb <= 0 -> (1 <= n)%nat ->
  exists x, bisect xtol rtol n f xa xb = Ok x /\ Rmin xa xb <= x <= Rmax xa xb /\
    (f x = 0 \/ exists u, Rmin xa xb <= u <= Rmax xa xb /\ f x * f u <= 0 /\
       Rabs (x - u) <= Rmax (Rmin xtol (rtol * (Rabs xa + Rabs xb))) (Rabs (xb - xa) / 2 ^ n)).
Proof. exact bisect_change_main. Qed.
Print Assumptions bisect_change.

(** C50: without a change of sign it raises. *)
Theorem bisect_raises :
  forall f xa xb xtol rtol n, 0 < f xa * f xb -> bisect xtol rtol n f xa xb = Err ERuntime.
Proof. exact bisect_raises_main. Qed.
Print Assumptions bisect_raises.

(** C50: for a continuous function there is a zero in the bracket within that distance of the result. *)
Theorem bisect_root :
  forall f xa xb xtol rtol n, (forall x, continuity_pt f x) -> f xa * f xb <= 0 -> (1 <= n)%nat ->
  exists x r, bisect xtol rtol n f xa xb = Ok x /\ f r = 0 /\ Rmin xa xb <= r <= Rmax xa xb /\
    Rabs (x - r) <= Rmax (Rmin xtol (rtol * (Rabs xa + Rabs xb))) (Rabs (xb - xa) / 2 ^ n).
Proof. exact bisect_root_main. Qed.
Print Assumptions bisect_root.

(** C50: with enough iterations the error is below the tolerance. *)
Theorem bisect_converges :
  forall f xa xb xtol rtol, (forall x, continuity_pt f x) -> f xa * f xb <= 0 -> 0 < xtol -> 0 < rtol ->
  exists N, forall n, (N <= n)%nat -> exists x r, bisect xtol rtol n f xa xb = Ok x /\ f r = 0 /\ Rabs (x - r) <= xtol.
Proof. exact bisect_converges_main. Qed.
Print Assumptions bisect_converges.

(** C50 (finding): with maxiter = 0 the result variable is unbound. *)
Theorem bisect_no_iterations :
  forall f xa xb xtol rtol, f xa * f xb < 0 -> bisect xtol rtol 0 f xa xb = Err EName.
Proof. exact bisect_no_iterations_main. Qed.
Print Assumptions bisect_no_iterations.

(** C50: the search towards -inf: for a function at least c at b and at most c far to the left it ends with an
    interval left of b over which c is crossed; below c at b it reports nan; an interval it ends with is always
    such a crossing. *)
Theorem minf_bracket :
  forall fn b c, c <= fn b -> (exists M, forall x, x < M -> fn x <= c) ->
  exists N, forall fuel, (N <= fuel)%nat -> exists a' b', findinv_minf fn fuel b c = SBracket a' b' /\ a' < b' <= b /\ fn a' <= c <= fn b'.
Proof. exact minf_bracket_main. Qed.
Print Assumptions minf_bracket.

Theorem minf_sound :
  forall fn fuel b c,
  (fn b < c -> findinv_minf fn fuel b c = SNan) /\
  (forall a' b', findinv_minf fn fuel b c = SBracket a' b' -> a' < b' <= b /\ fn a' <= c <= fn b').
Proof. exact minf_sound_main. Qed.
Print Assumptions minf_sound.

(** C50: the search towards +inf for an increasing function. *)
Theorem pinf_bracket :
  forall fn a c, fn a <= c -> (exists M, forall x, M < x -> c <= fn x) ->
  exists N, forall fuel, (N <= fuel)%nat -> exists a' b', findinv_pinf fn true fuel a c = SBracket a' b' /\ a <= a' < b' /\ fn a' <= c <= fn b'.
Proof. exact pinf_bracket_main. Qed.
Print Assumptions pinf_bracket.

Theorem pinf_sound :
  forall fn fuel a c,
  (c < fn a -> findinv_pinf fn true fuel a c = SNan) /\
  (forall a' b', findinv_pinf fn true fuel a c = SBracket a' b' -> a <= a' < b' /\ fn a' <= c <= fn b').
Proof. exact pinf_sound_main. Qed.
Print Assumptions pinf_sound.

(** C50 (finding): the branch for decreasing functions searches away from the crossing: for f(x) = -x and c = -1/2 the
    crossing lies in the very first interval, yet the search never ends. *)
Theorem pinf_decreasing_refuted :
  exists fn a c, (forall x y, x < y -> fn y < fn x) /\ c <= fn a /\ (exists r, a <= r <= a + 1 /\ fn r = c) /\
    forall fuel, findinv_pinf fn false fuel a c = SRunning.
Proof. exact pinf_decreasing_refuted_main. Qed.
Print Assumptions pinf_decreasing_refuted.

(** C50: the two searches followed by bisection find the place where a continuous function reaches c. *)
Theorem findinv_minf_root :
  forall fn b c xtol rtol, (forall x, continuity_pt fn x) -> c <= fn b -> (exists M, forall x, x < M -> fn x <= c) -> 0 < xtol -> 0 < rtol ->
  exists N, forall fuel, (N <= fuel)%nat -> exists n0, forall n, (n0 <= n)%nat ->
    exists x r, search_inv (bisect xtol rtol n) fn c (findinv_minf fn fuel b c) = Some (Ok x) /\ fn r = c /\ Rabs (x - r) <= xtol.
Proof. exact findinv_minf_root_main. Qed.
Print Assumptions findinv_minf_root.

Theorem findinv_pinf_root :
  forall fn a c xtol rtol, (forall x, continuity_pt fn x) -> fn a <= c -> (exists M, forall x, M < x -> c <= fn x) -> 0 < xtol -> 0 < rtol ->
  exists N, forall fuel, (N <= fuel)%nat -> exists n0, forall n, (n0 <= n)%nat ->
    exists x r, search_inv (bisect xtol rtol n) fn c (findinv_pinf fn true fuel a c) = Some (Ok x) /\ fn r = c /\ Rabs (x - r) <= xtol.
Proof. exact findinv_pinf_root_main. Qed.
Print Assumptions findinv_pinf_root.
