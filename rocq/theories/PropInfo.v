(** Property theorems (Info). Proofs are in InfoMain.v and the files it imports. *)
From Coq Require Import Reals Lra Lia List Bool Sorted Permutation.
From Coquelicot Require Import Coquelicot.
From Verif Require Import Base Seg Piecewise PiecewiseSpec PiecewiseFacts2 PiecewiseFacts4 Integral IntegralFacts SegInt SegIntSpec SegIntFacts IndepSpec AtomFacts AtomFacts3 CumintFacts OperationFacts CondFacts2 Std StdSpec Info InfoSpec InfoFacts InfoFacts2 InfoFacts3 InfoFacts4.
From Verif Require Import InfoMain.
Import List ListNotations.
Open Scope R_scope.

(** _function__ applies the function to the values on every piece and to the mass of every atom, and keeps all ends. *)
Theorem function_pointwise : forall eps fc fd (gd : R -> R) l, 0 <= eps -> admissible eps l ->
  (forall a m, In (DiracSeg a m) l -> fd m = Ok (gd m)) ->
  exists q, function_op eps fc fd l = Ok q /\ admissible eps (segs q) /\ (forall y, is_end (segs q) y <-> is_end l y) /\
    (forall s (x : R), In s l -> isDirac s = false -> Rbar_lt (sa s) x -> Rbar_lt x (sb s) -> dens (segs q) x = fc (sf s x)) /\
    (forall a m, In (DiracSeg a m) l -> pm (segs q) a = gd m).
Proof. exact function_pointwise_main. Qed.
Print Assumptions function_pointwise.

(** entropy: minus the integral of f ln f over every piece, minus the sum of m ln m over the atoms; the value chosen for log 0 does not matter. *)
Theorem entropy_exact : forall eps big l, 0 <= eps -> admissible eps l -> pos_atoms l -> entropy eps big l = Ok (sumR (map ent_piece l)).
Proof. exact entropy_exact_main. Qed.
Print Assumptions entropy_exact.

(** The entropy of a discrete distribution with n atoms lies between 0 and ln n. *)
Theorem entropy_discrete_bounds : forall eps big l, 0 <= eps -> admissible eps l -> (forall s, In s l -> isDirac s = true) ->
  pos_atoms l -> total_mass l = 1 -> exists h, entropy eps big l = Ok h /\ 0 <= h <= ln (INR (length l)).
Proof. exact entropy_discrete_bounds_main. Qed.
Print Assumptions entropy_discrete_bounds.

(** The entropy of a continuous distribution on [a,b] is at most ln (b-a), the entropy of the uniform distribution. *)
Theorem entropy_interval_bound : forall eps big l (a b : R), 0 <= eps -> admissible eps l -> (forall s, In s l -> isDirac s = false) ->
  Forall integrable_piece l -> Forall nonneg_piece l -> total_mass l = 1 ->
  a < b -> (forall s, In s l -> Rbar_le a (sa s) /\ Rbar_le (sb s) b) ->
  (forall s, In s l -> integrable (fun x => eta (sf s x)) (sa s) (sb s)) ->
  exists h, entropy eps big l = Ok h /\ h <= ln (b - a).
Proof. exact entropy_interval_bound_main. Qed.
Print Assumptions entropy_interval_bound.

(** The entropies of the uniform, normal and exponential distributions are those of the textbooks. *)
Theorem entropy_named :
  (forall eps a b : R, a < b -> has_entropy entropy (uniform_init eps a b) (ln (b - a))) /\
  (forall eps mu sigma, 0 < sigma -> has_entropy entropy (normal_init eps mu sigma) (ln (sigma * sqrt (2 * PI)) + 1 / 2)) /\
  (forall eps lmbda, 0 < lmbda -> has_entropy entropy (expo_init eps lmbda) (1 - ln lmbda)).
Proof. exact entropy_named_main. Qed.
Print Assumptions entropy_named.

(** L2 distance: the square root of the integral of the squared difference of the densities plus the squared differences of the atoms. *)
Theorem l2_exact : forall eps f g P A, 0 <= eps -> admissible eps f -> admissible eps g -> cross_sep eps f g -> ends_of [f; g] P -> atoms_of [f; g] A ->
  L2_distance eps f g = Ok (sqrt (cut_int (fun x => (dens f x - dens g x) ^ 2) P + sumR (map (fun x => (pm f x - pm g x) ^ 2) A))).
Proof. exact l2_exact_main. Qed.
Print Assumptions l2_exact.

(** The L2 distance is symmetric and is zero from a function to itself. *)
Theorem l2_symmetric : forall eps f g, 0 <= eps -> admissible eps f -> admissible eps g -> cross_sep eps f g ->
  L2_distance eps f g = L2_distance eps g f /\ L2_distance eps f f = Ok 0.
Proof. exact l2_symmetric_main. Qed.
Print Assumptions l2_symmetric.

(** Kullback-Leibler distance: when g is positive wherever f is and both have their atoms at the same places, the result is the integral of f ln (f/g) plus the sum over the atoms. *)
Theorem kl_exact : forall eps big f g P A, 0 <= eps -> admissible eps f -> admissible eps g -> Forall nonneg_piece f -> pos_atoms f -> pos_atoms g ->
  dominated f g -> ends_of [f; g] P -> atoms_of [f] A ->
  KL_distance eps big f g = Ok (cut_int (fun x => rel (dens f x) (dens g x)) P + sumR (map (fun x => rel (pm f x) (pm g x)) A)).
Proof. exact kl_exact_main. Qed.
Print Assumptions kl_exact.

(** Gibbs' inequality: under the same conditions the distance between two distributions is not negative; it is zero from a distribution to itself. *)
Theorem kl_gibbs : forall eps big f g P, 0 <= eps -> admissible eps f -> admissible eps g -> prob_density f -> prob_density g ->
  dominated f g -> ends_of [f; g] P -> cut_integrable (fun x => rel (dens f x) (dens g x)) P ->
  (exists d, KL_distance eps big f g = Ok d /\ 0 <= d) /\ KL_distance eps big f f = Ok 0.
Proof. exact kl_gibbs_main. Qed.
Print Assumptions kl_gibbs.

(** The Kullback-Leibler distance is wrong when g has no piece where f is positive: g is taken to be 1 there. Between two uniform distributions it comes out negative, ln (1/2), where the true value is infinite. *)
Theorem kl_support_refuted : exists f g d, forall eps big, 0 <= eps ->
  admissible eps f /\ admissible eps g /\ prob_density f /\ prob_density g /\ KL_distance eps big f g = Ok d /\ d < 0.
Proof. exact kl_support_refuted_main. Qed.
Print Assumptions kl_support_refuted.

(** The distance depends on how a distribution is written: with an explicit piece of density zero on [1,2] the uniform distribution on [0,1] is at distance ln (1/2) + big/2 from the one on [0,2] (big stands for infinity), without it at distance ln (1/2). *)
Theorem kl_zero_piece_refuted : exists f g h, (forall x, dens g x = dens h x) /\ forall eps big, 0 <= eps ->
  admissible eps f /\ admissible eps g /\ admissible eps h /\ prob_density f /\ prob_density g /\ prob_density h /\
  KL_distance eps big f g = Ok (ln (1 / 2)) /\ KL_distance eps big f h = Ok (ln (1 / 2) + big / 2).
Proof. exact kl_zero_piece_refuted_main. Qed.
Print Assumptions kl_zero_piece_refuted.

(** It is also wrong when g has an atom where f has none: the logarithm of its mass is added. The distance from a one-point distribution to a fair coin comes out 0, though the distributions differ and the true value is ln 2. *)
Theorem kl_atoms_refuted : exists f g, forall eps big, 0 <= eps < 1 ->
  admissible eps f /\ admissible eps g /\ prob_density f /\ prob_density g /\ KL_distance eps big f g = Ok 0 /\
  (exists x, pm f x <> pm g x) /\ (forall A, atoms_of [f] A -> sumR (map (fun x => rel (pm f x) (pm g x)) A) = ln 2).
Proof. exact kl_atoms_refuted_main. Qed.
Print Assumptions kl_atoms_refuted.
