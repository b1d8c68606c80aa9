(** Property theorems (Inv). Proofs are in InvMain.v and the files it imports. *)
From Coq Require Import Reals Lra Lia List Bool Arith Sorted Permutation.
From Coquelicot Require Import Coquelicot.
From Verif Require Import Base Bisect Seg Piecewise PiecewiseSpec PiecewiseFacts PiecewiseFacts2 PiecewiseMain Integral IntegralFacts SegInt SegIntSpec SegIntFacts CumintFacts CumintFacts2
  Quant QuantSpec QuantFacts QuantFacts2 QuantMain Wide WideMain Std StdSpec StdFacts StdFacts2 StdMain Inv InvSpec InvFacts InvFacts2 InvFacts3.
From Verif Require Import InvMain.
Import List ListNotations.
Open Scope R_scope.

(** C73: when no value of the distribution function at an end of a piece lies within 1/10000 below one, the inverse is built,
    and it has the values of the inversion on [0,1] and 0 outside, called with a number or with an array. *)
Theorem invcdf_values :
  forall eps l vinf q, density l -> Forall nonneg_piece l -> total_mass l = 1 -> (forall c, cumint eps l = Ok c -> end_limits vinf (segs c)) ->
  (forall v, level l v -> v = 1 \/ v < 1 - 1 / 10000) ->
  exists p, invcdf eps vinf q l = Ok p /\
    forall y, (0 <= y <= 1 -> call_scalar (segs p) y = Ok (q y) /\ call_vec (segs p) y = q y) /\
              (y < 0 \/ 1 < y -> call_scalar (segs p) y = Ok 0 /\ call_vec (segs p) y = 0).
Proof. exact invcdf_values_main. Qed.
Print Assumptions invcdf_values.

(** C73: numbers sampled by inversion have the law they are sampled from: if U is uniformly distributed on [0,1] then the
    probability of rand_invcdf(U) <= x is the distribution function at x, for a root finder without rounding. *)
Theorem invcdf_law :
  forall eps l vinf solve q, density l -> Forall nonneg_piece l -> total_mass l = 1 -> (forall c, cumint eps l = Ok c -> end_limits vinf (segs c)) ->
  exact_solver solve -> inverts vinf solve eps l q -> (forall v, level l v -> v = 1 \/ v < 1 - 1 / 10000) ->
  exists p, invcdf eps vinf q l = Ok p /\ forall x, is_RInt (below (call_vec (segs p)) x) 0 1 (cdf_spec l x).
Proof. exact invcdf_law_main. Qed.
Print Assumptions invcdf_law.

(** C73: when the distribution function at 0 or at the left end of a piece lies within 1/10000 below one, the levels above some
    top < 1 are lost whatever the inversion computes: the value there is 0, or no inverse can be built at all. *)
Theorem invcdf_lost :
  forall eps l vinf q v, density l -> Forall nonneg_piece l -> total_mass l = 1 -> (forall c, cumint eps l = Ok c -> end_limits vinf (segs c)) ->
  (v = cdf_spec l 0 \/ exists s (a : R), In s l /\ isDirac s = false /\ sa s = a /\ v = cdf_spec l a) -> 1 - 1 / 10000 <= v < 1 ->
  invcdf eps vinf q l = Err EAssert \/
  exists p top, invcdf eps vinf q l = Ok p /\ 0 < top < 1 /\ (forall y, 0 <= y <= top -> call_scalar (segs p) y = Ok (q y)) /\
    forall y, top < y -> call_scalar (segs p) y = Ok 0 /\ call_vec (segs p) y = 0.
Proof. exact invcdf_lost_main. Qed.
Print Assumptions invcdf_lost.

(** C73: a density on a bounded support without atoms, cut into pieces of mass at most 1/10000, has no inverse: all break
    values but 0 are dropped and an assertion fails. *)
Theorem invcdf_fine :
  forall eps l vinf q, density l -> Forall nonneg_piece l -> total_mass l = 1 -> (forall c, cumint eps l = Ok c -> end_limits vinf (segs c)) ->
  Forall (fun s => isDirac s = false) l -> (forall s, In s l -> is_finite (sa s) /\ is_finite (sb s) /\ mass s <= 1 / 10000) ->
  invcdf eps vinf q l = Err EAssert.
Proof. exact invcdf_fine_main. Qed.
Print Assumptions invcdf_fine.

(** C73: the complementary distribution function is one minus the distribution function, everywhere. *)
Theorem ccdf_exact :
  forall eps l x, density l -> ccdf eps l x = Ok (1 - cdf_spec l x).
Proof. exact ccdf_exact_main. Qed.
Print Assumptions ccdf_exact.

(** C73: the method ccdf_value, which integrates the last piece when x lies on an unbounded one, gives the same value. *)
Theorem ccdf_value_exact :
  forall eps l x, density l -> total_mass l = 1 -> ccdf_value eps l x = Ok (1 - cdf_spec l x).
Proof. exact ccdf_value_exact_main. Qed.
Print Assumptions ccdf_value_exact.
