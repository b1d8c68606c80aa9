(** Property theorems (Comb). Proofs are in CombMain.v and the files it imports. *)
From Coq Require Import Reals ZArith Lra Lia List Bool Factorial Arith.
From Coquelicot Require Import Coquelicot.
From Verif Require Import Base Comb CombSpec CombFacts Integral IntegralFacts.
From Verif Require Import CombMain.
Import List ListNotations.
Open Scope R_scope.

(** C40: binomial_coeff counts the k-element subsets of an n-element set. *)
Theorem binomial_coeff_counts :
  forall n k, (k <= n)%nat -> binomial_coeff (Z.of_nat n) (Z.of_nat k) = INR (choose n k).
Proof. exact binomial_coeff_counts_main. Qed.
Print Assumptions binomial_coeff_counts.

(** C40: every intermediate value of the loop is itself a natural number, so the divisions are exact. *)
Theorem binomial_coeff_integral :
  forall n k, (k <= n)%nat ->
  fold_left (fun c i => c * IZR (Z.of_nat n - Z.of_nat i) / INR (i + 1)) (seq 0 k) 1 = INR (choose n k).
Proof. exact binomial_coeff_integral_main. Qed.
Print Assumptions binomial_coeff_integral.

(** C40 (finding): for k > n or k < 0 the result is 1 instead of 0. *)
Theorem binomial_coeff_outside_refuted :
  forall n k, (0 <= n)%Z -> (n < k \/ k < 0)%Z -> binomial_coeff n k = 1.
Proof. exact binomial_coeff_outside_refuted_main. Qed.
Print Assumptions binomial_coeff_outside_refuted.

(** C40: multinomial_coeff is n! / (k1! ... km!), provided the ks sum to n; otherwise it is an error. *)
Theorem multinomial_coeff_exact :
  forall n ks, fold_right Nat.add 0%nat ks = n ->
  exists c, multinomial_coeff (Z.of_nat n) (map Z.of_nat ks) = Ok c /\
    c * fold_right Rmult 1 (map (fun k => INR (fact k)) ks) = INR (fact n).
Proof. exact multinomial_coeff_exact_main. Qed.
Print Assumptions multinomial_coeff_exact.

Theorem multinomial_coeff_assert :
  forall n ks, zsum ks <> n -> multinomial_coeff n ks = Err EAssert.
Proof. exact multinomial_coeff_assert_main. Qed.
Print Assumptions multinomial_coeff_assert.

(** C41: BinomialDistr has the values 0..n with the binomial probabilities, which sum to one, for every
    p <> 1; p = 1 is a division by zero. *)
Theorem binomial_distr_law :
  forall n p, p <> 1 ->
  binomial_pairs n p = Ok (map (fun k => (INR k, binomial_law n p k)) (seq 0 (n + 1))) /\
  rsum (map snd (map (fun k => (INR k, binomial_law n p k)) (seq 0 (n + 1)))) = 1.
Proof. exact binomial_distr_law_main. Qed.
Print Assumptions binomial_distr_law.

Theorem binomial_distr_one :
  forall n, binomial_pairs n 1 = Err EZeroDiv.
Proof. exact binomial_distr_one_main. Qed.
Print Assumptions binomial_distr_one.

(** C54: PoissonDistr stops for every rate and every positive tolerance; the values are 0..m with the
    Poisson probabilities, m is the first index at which the tail is below the tolerance, and the total
    lies in (1 - eps, 1]. *)
Theorem poisson_distr_terminates :
  forall lam eps, 0 < eps -> exists N, forall fuel, (N <= fuel)%nat -> exists l, poisson_pairs fuel lam eps = Some l.
Proof. exact poisson_distr_terminates_main. Qed.
Print Assumptions poisson_distr_terminates.

Theorem poisson_distr_law :
  forall fuel lam eps l, 0 <= lam -> poisson_pairs fuel lam eps = Some l ->
  exists m, l = map (fun i => (INR i, poisson_law lam i)) (seq 0 (m + 1)) /\
    1 - eps < rsum (map snd l) <= 1 /\
    forall j, (j < m)%nat -> rsum_range 0 (j + 1) (poisson_law lam) <= 1 - eps.
Proof. exact poisson_distr_law_main. Qed.
Print Assumptions poisson_distr_law.

(** C54: a truncated law has total mass exactly one and probabilities proportional to the given function. *)
Theorem trunc_distr_law :
  forall fuel fn eps l, eps <= 1 -> trunc_pairs fuel fn eps = Some l ->
  rsum (map snd l) = 1 /\
  exists tot, Rabs (tot - 1) < eps /\ l = map (fun i => (INR i, fn (INR i) / tot)) (seq 0 (length l)).
Proof. exact trunc_distr_law_main. Qed.
Print Assumptions trunc_distr_law.

(** C42: the order statistic's density is the derivative of the probability that at least k of n
    observations are below x, at every point where the distribution function is differentiable. *)
Theorem order_stat_density :
  forall n k (F f : R -> R) x, (1 <= k <= n)%nat -> is_derive F x (f x) ->
  is_derive (fun x => at_least n k (F x)) x (order_stat_fun n k (f x) (F x)).
Proof. exact order_stat_density_main. Qed.
Print Assumptions order_stat_density.

(** C42: and it integrates to one over the line, for every distribution function with a continuous density. *)
Theorem order_stat_total :
  forall n k (F f : R -> R), (1 <= k <= n)%nat -> (forall x, is_derive F x (f x)) -> (forall x, continuous f x) ->
  is_lim F m_infty 0 -> is_lim F p_infty 1 ->
  is_RInt_gen (fun x => order_stat_fun n k (f x) (F x)) (Rbar_locally m_infty) (Rbar_locally p_infty) 1.
Proof. exact order_stat_total_main. Qed.
Print Assumptions order_stat_total.

(** C42: iid_unknown averages the order statistics k..n: its density is the derivative of the average of
    their distribution functions. *)
Theorem unknown_density :
  forall n k (F f : R -> R) x, (1 <= k <= n)%nat -> is_derive F x (f x) ->
  is_derive (fun x => rsum_range k (n + 1 - k) (fun i => at_least n i (F x)) / INR (n + 1 - k)) x (unknown_fun n k (f x) (F x)).
Proof. exact unknown_density_main. Qed.
Print Assumptions unknown_density.
