(** Main lemmas: coefficients, discrete laws from recurrences, order statistics (C40, C41, C42, C54). *)
From Coq Require Import Reals ZArith Lra Lia List Bool Factorial Arith.
From Coquelicot Require Import Coquelicot.
From Verif Require Import Base Comb CombSpec CombFacts Integral IntegralFacts.
Import List ListNotations.
Open Scope R_scope.

(** C40: binomial_coeff counts the k-element subsets of an n-element set. *)
Lemma binomial_coeff_counts_main :
  forall n k, (k <= n)%nat -> binomial_coeff (Z.of_nat n) (Z.of_nat k) = INR (choose n k).
Proof. exact binomial_value. Qed.

(** C40: every intermediate value of the loop is itself a natural number, so the divisions are exact. *)
Lemma binomial_coeff_integral_main :
  forall n k, (k <= n)%nat ->
  fold_left (fun c i => c * IZR (Z.of_nat n - Z.of_nat i) / INR (i + 1)) (seq 0 k) 1 = INR (choose n k).
Proof. exact binom_fold. Qed.

(** C40 (finding): for k > n or k < 0 the result is 1 instead of 0. *)
Lemma binomial_coeff_outside_refuted_main :
  forall n k, (0 <= n)%Z -> (n < k \/ k < 0)%Z -> binomial_coeff n k = 1.
Proof.
  intros n k N H. unfold binomial_coeff. destruct (Z.ltb_spec (n - k) k).
  - replace (Z.to_nat (n - k)) with 0%nat by lia. reflexivity.
  - replace (Z.to_nat k) with 0%nat by lia. reflexivity.
Qed.

(** C40: multinomial_coeff is n! / (k1! ... km!), provided the ks sum to n; otherwise it is an error. *)
Lemma multinomial_coeff_exact_main :
  forall n ks, fold_right Nat.add 0%nat ks = n ->
  exists c, multinomial_coeff (Z.of_nat n) (map Z.of_nat ks) = Ok c /\
    c * fold_right Rmult 1 (map (fun k => INR (fact k)) ks) = INR (fact n).
Proof.
  intros n ks E. unfold multinomial_coeff. rewrite zsum_nat. unfold nsum. rewrite E, Z.eqb_refl. eexists. split; [reflexivity|].
  pose proof (multi_outer n ks 0 1) as M. cbv zeta in M. unfold nsum in M. rewrite E in M. specialize (M ltac:(lia)).
  rewrite Nat.sub_0_r, Nat.sub_diag in M. simpl (INR (fact 0)) in M. rewrite Rmult_1_r, Rmult_1_l in M. exact M.
Qed.
Lemma multinomial_coeff_assert_main :
  forall n ks, zsum ks <> n -> multinomial_coeff n ks = Err EAssert.
Proof. intros n ks H. unfold multinomial_coeff. destruct (Z.eqb_spec (zsum ks) n); tauto. Qed.

(** C41: BinomialDistr has the values 0..n with the binomial probabilities, which sum to one, for every
    p <> 1; p = 1 is a division by zero. *)
Lemma binomial_distr_law_main :
  forall n p, p <> 1 ->
  binomial_pairs n p = Ok (map (fun k => (INR k, binomial_law n p k)) (seq 0 (n + 1))) /\
  rsum (map snd (map (fun k => (INR k, binomial_law n p k)) (seq 0 (n + 1)))) = 1.
Proof.
  intros n p H. split.
  - unfold binomial_pairs. destruct (reqP (1 - p) 0); [lra|]. f_equal. rewrite Nat.add_1_r. cbn [seq map].
    assert (E : (1 - p) ^ n = binomial_law n p 0) by (unfold binomial_law; rewrite choose_0, Nat.sub_0_r; simpl; ring).
    rewrite <- E. f_equal. rewrite E. apply binom_loop_spec; auto.
  - rewrite map_map. apply binomial_total.
Qed.
Lemma binomial_distr_one_main :
  forall n, binomial_pairs n 1 = Err EZeroDiv.
Proof. intros n. unfold binomial_pairs. destruct (reqP (1 - 1) 0); auto. lra. Qed.

(** C54: PoissonDistr stops for every rate and every positive tolerance; the values are 0..m with the
    Poisson probabilities, m is the first index at which the tail is below the tolerance, and the total
    lies in (1 - eps, 1]. *)
Lemma poisson_distr_terminates_main :
  forall lam eps, 0 < eps -> exists N, forall fuel, (N <= fuel)%nat -> exists l, poisson_pairs fuel lam eps = Some l.
Proof.
  intros lam eps He. destruct (psum_lim lam eps He) as (N & HN). exists N. intros fuel Hf.
  unfold poisson_pairs. assert (E : exp (- lam) = poisson_law lam 0) by (unfold poisson_law; simpl; field).
  assert (E2 : exp (- lam) = psum lam 0) by (unfold psum, rsum_range; simpl; rewrite E; ring).
  replace (poisson_loop fuel lam eps 0 (exp (- lam)) (exp (- lam))) with (poisson_loop fuel lam eps (INR 0) (poisson_law lam 0) (psum lam 0)) by (f_equal; auto). apply (poisson_loop_runs lam eps N); try lia.
  specialize (HN N ltac:(lia)). apply Rabs_def2 in HN. lra.
Qed.
Lemma poisson_distr_law_main :
  forall fuel lam eps l, 0 <= lam -> poisson_pairs fuel lam eps = Some l ->
  exists m, l = map (fun i => (INR i, poisson_law lam i)) (seq 0 (m + 1)) /\
    1 - eps < rsum (map snd l) <= 1 /\
    forall j, (j < m)%nat -> rsum_range 0 (j + 1) (poisson_law lam) <= 1 - eps.
Proof.
  intros fuel lam eps l Hl E. unfold poisson_pairs in E.
  assert (E1 : exp (- lam) = poisson_law lam 0) by (unfold poisson_law; simpl; field).
  assert (E2 : exp (- lam) = psum lam 0) by (unfold psum, rsum_range; simpl; rewrite E1; ring).
  replace (poisson_loop fuel lam eps 0 (exp (- lam)) (exp (- lam))) with (poisson_loop fuel lam eps (INR 0) (poisson_law lam 0) (psum lam 0)) in E by (f_equal; auto). apply poisson_loop_spec in E.
  destruct E as (m & _ & -> & H1 & H2). exists m. rewrite Nat.sub_0_r, Nat.add_1_r. split; auto.
  rewrite map_map. simpl (fun x => snd _). change (rsum (map (fun x => poisson_law lam x) (seq 0 (S m)))) with (psum lam m).
  split; [split; [lra|apply psum_le1; auto]|]. intros j Hj. rewrite Nat.add_1_r. specialize (H2 j ltac:(lia)). unfold psum in H2. lra.
Qed.

(** C54: a truncated law has total mass exactly one and probabilities proportional to the given function. *)
Lemma trunc_distr_law_main :
  forall fuel fn eps l, eps <= 1 -> trunc_pairs fuel fn eps = Some l ->
  rsum (map snd l) = 1 /\
  exists tot, Rabs (tot - 1) < eps /\ l = map (fun i => (INR i, fn (INR i) / tot)) (seq 0 (length l)).
Proof.
  intros fuel fn eps l He E. unfold trunc_pairs in E.
  destruct (trunc_loop fuel fn eps 0 0) as [[l' tot]|] eqn:E'; try discriminate. injection E as <-.
  change (trunc_loop fuel fn eps 0 0) with (trunc_loop fuel fn eps (INR 0) 0) in E'. apply trunc_loop_spec in E'.
  destruct E' as (H1 & H2 & H3).
  assert (T : tot <> 0) by (apply Rabs_def2 in H2; lra). split.
  - rewrite map_map. simpl. transitivity (rsum (map snd l') / tot).
    + clear - T. induction l'; simpl; [field; auto|]. rewrite IHl'. field; auto.
    + rewrite Rplus_0_l in H1. rewrite <- H1. field; auto.
  - exists tot. split; auto. rewrite map_length. rewrite H3 at 1. rewrite map_map. reflexivity.
Qed.

(** C42: the order statistic's density is the derivative of the probability that at least k of n
    observations are below x, at every point where the distribution function is differentiable. *)
Lemma order_stat_density_main :
  forall n k (F f : R -> R) x, (1 <= k <= n)%nat -> is_derive F x (f x) ->
  is_derive (fun x => at_least n k (F x)) x (order_stat_fun n k (f x) (F x)).
Proof.
  intros n k F f x H D. unfold order_stat_fun. rewrite binomial_value by lia.
  evar_last.
  - apply (is_derive_comp (K := R_AbsRing) (V := R_NormedModule) (at_least n k) F x); [apply at_least_derive; auto|exact D].
  - unfold scal; simpl; unfold mult; simpl. ring.
Qed.
(** C42: and it integrates to one over the line, for every distribution function with a continuous density. *)
Lemma order_stat_total_main :
  forall n k (F f : R -> R), (1 <= k <= n)%nat -> (forall x, is_derive F x (f x)) -> (forall x, continuous f x) ->
  is_lim F m_infty 0 -> is_lim F p_infty 1 ->
  is_RInt_gen (fun x => order_stat_fun n k (f x) (F x)) (Rbar_locally m_infty) (Rbar_locally p_infty) 1.
Proof.
  intros n k F f H D C L0 L1.
  assert (CA : forall p, continuous (at_least n k) p).
  { intros p. apply (ex_derive_continuous (K := R_AbsRing) (V := R_NormedModule)). eexists. apply at_least_derive; auto. }
  assert (LIM : forall (b : Rbar) (y : R), is_lim F b y -> filterlim (fun x => at_least n k (F x)) (Rbar_locally' b) (locally (at_least n k y))).
  { intros b y L. eapply filterlim_comp; [exact L|]. apply CA. }
  replace 1 with (at_least n k 1 - at_least n k 0) by (rewrite at_least_0, at_least_1 by lia; ring).
  apply (is_RInt_gen_ext (Derive (fun x => at_least n k (F x)))).
  { apply (Filter_prod _ _ _ (fun _ => True) (fun _ => True)); [exists 0; auto|exists 0; auto|].
    intros a b _ _ x _. apply is_derive_unique. apply (order_stat_density_main n k F f x); auto. }
  apply is_RInt_gen_Derive.
  - apply (Filter_prod _ _ _ (fun _ => True) (fun _ => True)); [exists 0; auto|exists 0; auto|].
    intros a b _ _ x _. eexists. apply (order_stat_density_main n k F f x); auto.
  - apply (Filter_prod _ _ _ (fun _ => True) (fun _ => True)); [exists 0; auto|exists 0; auto|].
    intros a b _ _ x _. apply (continuous_ext (fun x => order_stat_fun n k (f x) (F x))).
    + intros t. symmetry. apply is_derive_unique. apply (order_stat_density_main n k F f t); auto.
    + assert (CF : continuous F x) by (apply (ex_derive_continuous (K := R_AbsRing) (V := R_NormedModule)); eexists; apply D).
      unfold order_stat_fun. apply (continuous_mult (K := R_AbsRing)).
      * apply (continuous_mult (K := R_AbsRing)); [apply continuous_const|apply C].
      * apply (continuous_comp F (fun p => p ^ (k - 1) * (1 - p) ^ (n - k))); auto.
        apply (ex_derive_continuous (K := R_AbsRing) (V := R_NormedModule)). auto_derive; auto.
  - apply (LIM m_infty 0 L0).
  - apply (LIM p_infty 1 L1).
Qed.
(** C42: iid_unknown averages the order statistics k..n: its density is the derivative of the average of
    their distribution functions. *)
Lemma unknown_density_main :
  forall n k (F f : R -> R) x, (1 <= k <= n)%nat -> is_derive F x (f x) ->
  is_derive (fun x => rsum_range k (n + 1 - k) (fun i => at_least n i (F x)) / INR (n + 1 - k)) x (unknown_fun n k (f x) (F x)).
Proof.
  intros n k F f x H D. unfold unknown_fun, Rdiv. rewrite Rmult_1_l.
  replace (1 + INR n - INR k) with (INR (n + 1 - k)) by (rewrite minus_INR, plus_INR by lia; simpl; ring).
  apply (is_derive_ext (fun x => / INR (n + 1 - k) * rsum_range k (n + 1 - k) (fun i => at_least n i (F x)))).
  { intros t. apply Rmult_comm. }
  apply is_derive_scal.
  assert (G : forall len lo s0, (1 <= lo)%nat -> (lo + len <= n + 1)%nat ->
     is_derive (fun x => rsum_range lo len (fun i => at_least n i (F x))) x
       (fold_left (fun s i => s + order_stat_fun n i (f x) (F x)) (seq lo len) s0 - s0)).
  { induction len; intros lo s0 H1 H2.
    - simpl. rewrite Rminus_diag_eq by auto. unfold rsum_range; simpl; apply (is_derive_const (K := R_AbsRing) (V := R_NormedModule)).
    - cbn [seq fold_left]. apply (is_derive_ext (fun x => at_least n lo (F x) + rsum_range (S lo) len (fun i => at_least n i (F x)))); [reflexivity|].
      specialize (IHlen (S lo) (s0 + order_stat_fun n lo (f x) (F x)) ltac:(lia) ltac:(lia)).
      evar_last; [apply (is_derive_plus (K := R_AbsRing) (V := R_NormedModule)); [apply (order_stat_density_main n lo F f x); auto; lia|exact IHlen]|].
      unfold plus; simpl. ring. }
  specialize (G (n + 1 - k)%nat k 0 ltac:(lia) ltac:(lia)). rewrite Rminus_0_r in G. exact G.
Qed.
