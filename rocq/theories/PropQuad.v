(** Property theorems (Quad). Proofs are in QuadMain.v and the files it imports. *)
From Coq Require Import Reals Lra Lia List Bool Arith.
From Coquelicot Require Import Coquelicot.
From Verif Require Import Base Conv ConvSpec InterpSpec Interp Grid Quad.
From Verif Require Import ChebFacts2 QuadFacts QuadFacts2 QuadFacts3 QuadFacts4 QuadFacts5 QuadFacts6.
From Verif Require Import QuadMain.
Import List ListNotations.
Open Scope R_scope.

(** The Clenshaw-Curtis weights with the Chebyshev nodes integrate every polynomial of degree below n exactly,
    and of degree n when n is odd (the code only uses odd n). *)
Theorem clenshaw_exact : forall n a b cs, (3 <= n)%nat -> (length cs <= n + n mod 2)%nat ->
  exists ws xs, clenshaw_coefficients n = Ok ws /\ cheb_nodes n a b = Ok xs /\ quad_sum (map (poly cs) xs) ws a b = Ok (RInt (poly cs) a b).
Proof. exact clenshaw_exact_main. Qed.
Print Assumptions clenshaw_exact.

(** Fejer's second weights with the inner Chebyshev nodes integrate every polynomial of degree below n-2 exactly,
    and of degree n-2 when n is odd. *)
Theorem fejer2_exact : forall n a b cs, (3 <= n)%nat -> (length cs <= n - 2 + n mod 2)%nat ->
  exists ws xs, fejer2_coefficients n = Ok ws /\ cheb_nodes n a b = Ok xs /\
    quad_sum (map (poly cs) (removelast (tl xs))) ws a b = Ok (RInt (poly cs) a b).
Proof. exact fejer2_exact_main. Qed.
Print Assumptions fejer2_exact.

(** All weights of both rules are positive, they add up to two and are the same read backwards. *)
Theorem weights_positive : forall n, (3 <= n)%nat ->
  (exists ws, clenshaw_coefficients n = Ok ws /\ length ws = n /\ Forall (fun w => 0 < w) ws /\ sumR ws = 2 /\ rev ws = ws) /\
  (exists ws, fejer2_coefficients n = Ok ws /\ length ws = (n - 2)%nat /\ Forall (fun w => 0 < w) ws /\ sumR ws = 2 /\ rev ws = ws).
Proof. exact weights_positive_main. Qed.
Print Assumptions weights_positive.

(** For every continuous function the values of both rules tend to the integral; Fejer's rule ignores the values at the ends. *)
Theorem quadrature_converges : forall (f g : R -> R) a b, a < b -> (forall t, a <= t <= b -> continuous g t) -> (forall t, a < t < b -> f t = g t) ->
  exists cc fe : nat -> R,
    (forall n ws xs, (3 <= n)%nat -> clenshaw_coefficients n = Ok ws -> cheb_nodes n a b = Ok xs -> quad_sum (map g xs) ws a b = Ok (cc n)) /\
    (forall n ws xs, (3 <= n)%nat -> fejer2_coefficients n = Ok ws -> cheb_nodes n a b = Ok xs -> quad_sum (map f (removelast (tl xs))) ws a b = Ok (fe n)) /\
    is_lim_seq cc (RInt f a b) /\ is_lim_seq fe (RInt f a b).
Proof. exact quadrature_converges_main. Qed.
Print Assumptions quadrature_converges.

(** integrate_fejer2 returns a number for every function, close to the integral: the error is at most 2(b-a) times the distance of
    the function from any polynomial of degree below 128; the reported error is at most 4(b-a) times the distance from any
    polynomial of degree below 64.  This holds whatever the tolerances are. *)
Theorem fejer2_accuracy : forall (f : R -> R) a b p big decr maxn cs d, a <= b -> 0 <= ratio p <= 1 -> 0 <= big -> 0 <= decr <= 1 -> (129 <= maxn)%nat ->
  ex_RInt f a b -> (forall t, a <= t <= b -> Rabs (f t - poly cs t) <= d) ->
  exists v e, integrate_fejer2 f a b p big decr maxn = Ok (v, e) /\
    ((length cs <= 128)%nat -> Rabs (v - RInt f a b) <= 2 * (b - a) * d) /\
    ((length cs <= 64)%nat -> e <= 4 * (b - a) * d).
Proof. exact fejer2_accuracy_main. Qed.
Print Assumptions fejer2_accuracy.

(** Polynomials: degree below 128 is integrated exactly; below 64 the reported error is zero as well. *)
Theorem fejer2_polynomial : forall a b p big decr maxn cs, 0 <= ratio p <= 1 -> 0 <= big -> 0 <= decr <= 1 -> (129 <= maxn)%nat -> (length cs <= 128)%nat ->
  exists e, integrate_fejer2 (poly cs) a b p big decr maxn = Ok (RInt (poly cs) a b, e) /\ ((length cs <= 64)%nat -> e = 0).
Proof. exact fejer2_polynomial_main. Qed.
Print Assumptions fejer2_polynomial.

(** The value lies between the bounds of the function times the length; a non-negative function never gets a negative integral. *)
Theorem fejer2_bounds : forall (f : R -> R) a b p big decr maxn lo hi, a <= b -> 0 <= ratio p <= 1 -> 0 <= big -> 0 <= decr <= 1 -> (129 <= maxn)%nat ->
  (forall t, a <= t <= b -> lo <= f t <= hi) ->
  exists v e, integrate_fejer2 f a b p big decr maxn = Ok (v, e) /\ lo * (b - a) <= v <= hi * (b - a) /\ 0 <= e <= (hi - lo) * (b - a).
Proof. exact fejer2_bounds_main. Qed.
Print Assumptions fejer2_bounds.

(** The value is that of one of the rules with 129, 257, 513, ... <= maxn nodes, the error the difference from the rule before it. *)
Theorem fejer2_is_a_rule : forall (f : R -> R) a b p big decr maxn, 0 <= ratio p <= 1 -> 0 <= big -> 0 <= decr <= 1 -> (129 <= maxn)%nat ->
  exists k n v v0, n = (64 * 2 ^ k + 1)%nat /\ (2 * n - 1 <= maxn)%nat /\ integrate_fejer2 f a b p big decr maxn = Ok (v, Rabs (v - v0)) /\
    forall m w ws xs, (m = n /\ w = v0 \/ m = (2 * n - 1)%nat /\ w = v) -> fejer2_coefficients m = Ok ws -> cheb_nodes m a b = Ok xs ->
      quad_sum (map f (removelast (tl xs))) ws a b = Ok w.
Proof. exact fejer2_is_a_rule_main. Qed.
Print Assumptions fejer2_is_a_rule.

(** With a bound on the number of nodes below 129 no error can be estimated and the integral raises. *)
Theorem fejer2_small_bound : forall (f : R -> R) a b p big decr maxn, (maxn < 129)%nat -> integrate_fejer2 f a b p big decr maxn = Err EIndex.
Proof. exact fejer2_small_bound_main. Qed.
Print Assumptions fejer2_small_bound.

(** A request for fewer than three nodes raises. *)
Theorem rules_need_three : forall n, (n < 3)%nat -> clenshaw_coefficients n = Err EIndex /\ fejer2_coefficients n = Err EIndex.
Proof. exact rules_need_three_main. Qed.
Print Assumptions rules_need_three.

(** integrate_clenshaw raises TypeError when the bound on the number of nodes ends the loop, although the value is at hand:
    the parameter debug_plot, true by default, hides the function it is meant to call. *)
Theorem clenshaw_limit_refuted : exists (f : R -> R) a b p maxn v e, ex_RInt f a b /\
  integrate_clenshaw f a b p maxn false = Ok (v, e) /\ v = RInt f a b /\ integrate_clenshaw f a b p maxn true = Err EType.
Proof. exact clenshaw_limit_refuted_main. Qed.
Print Assumptions clenshaw_limit_refuted.
