(** Main lemmas: quadrature rules and adaptive quadrature on a finite interval (C61). *)
From Coq Require Import Reals Lra Lia List Bool Arith.
From Coquelicot Require Import Coquelicot.
From Verif Require Import Base Conv ConvSpec InterpSpec Interp Grid Quad.
From Verif Require Import ChebFacts2 QuadFacts QuadFacts2 QuadFacts3 QuadFacts4 QuadFacts5 QuadFacts6.
Import List ListNotations.
Open Scope R_scope.

(** The Clenshaw-Curtis weights with the Chebyshev nodes integrate every polynomial of degree below n exactly,
    and of degree n when n is odd (the code only uses odd n). *)
Lemma clenshaw_exact_main : forall n a b cs, (3 <= n)%nat -> (length cs <= n + n mod 2)%nat ->
  exists ws xs, clenshaw_coefficients n = Ok ws /\ cheb_nodes n a b = Ok xs /\ quad_sum (map (poly cs) xs) ws a b = Ok (RInt (poly cs) a b).
Proof.
  intros n a b cs H L. exists (map (dft (n - 1) (f_u (n - 1))) (seq 0 n)), (nodes2 n a b). splits.
  - apply clenshaw_fun; auto.
  - apply cheb_nodes_eq; lia.
  - rewrite (quad_cc n a b (poly cs) _ _ H (clenshaw_fun n H) (cheb_nodes_eq n a b ltac:(lia))). rewrite cc_exact; auto.
Qed.
(** Fejer's second weights with the inner Chebyshev nodes integrate every polynomial of degree below n-2 exactly,
    and of degree n-2 when n is odd. *)
Lemma fejer2_exact_main : forall n a b cs, (3 <= n)%nat -> (length cs <= n - 2 + n mod 2)%nat ->
  exists ws xs, fejer2_coefficients n = Ok ws /\ cheb_nodes n a b = Ok xs /\
    quad_sum (map (poly cs) (removelast (tl xs))) ws a b = Ok (RInt (poly cs) a b).
Proof.
  intros n a b cs H L. exists (map (fun i => dft (n - 1) (f_v2 (n - 1)) (S i)) (seq 0 (n - 2))), (nodes2 n a b). splits.
  - apply fejer2_fun; auto.
  - apply cheb_nodes_eq; lia.
  - rewrite inner_eq, (quad_fe n a b (poly cs) _ H (fejer2_fun n H)), fe_exact; auto.
Qed.
(** All weights of both rules are positive, they add up to two and are the same read backwards. *)
Lemma weights_positive_main : forall n, (3 <= n)%nat ->
  (exists ws, clenshaw_coefficients n = Ok ws /\ length ws = n /\ Forall (fun w => 0 < w) ws /\ sumR ws = 2 /\ rev ws = ws) /\
  (exists ws, fejer2_coefficients n = Ok ws /\ length ws = (n - 2)%nat /\ Forall (fun w => 0 < w) ws /\ sumR ws = 2 /\ rev ws = ws).
Proof.
  intros n H. split.
  - exists (map (cc_w (n - 1)) (seq 0 n)). splits.
    + apply clenshaw_fun; auto.
    + rewrite map_length, seq_length. auto.
    + apply Forall_forall. intros w Hw. apply in_map_iff in Hw. destruct Hw as (j & <- & _). apply cc_pos. lia.
    + pose proof (cc_sum (n - 1) ltac:(lia)) as S2. replace (S (n - 1)) with n in S2 by lia. exact S2.
    + rewrite rev_fun. apply map_ext_in. intros j Hj. apply in_seq in Hj. apply dft_mirror; lia.
  - exists (map (fun i => fe_w (n - 1) (S i)) (seq 0 (n - 2))). splits.
    + apply fejer2_fun; auto.
    + rewrite map_length, seq_length. auto.
    + apply Forall_forall. intros w Hw. apply in_map_iff in Hw. destruct Hw as (j & <- & Hj). apply in_seq in Hj. apply fe_pos. lia.
    + pose proof (fe_sum (n - 1) ltac:(lia)) as S2. rewrite bsum_S, fe_w_N in S2 by lia. destruct (n - 1)%nat as [|m] eqn:E; [lia|]. rewrite bsum_shift, fe_w_0 in S2 by lia.
      replace (n - 2)%nat with m by lia. rewrite <- E in *. rewrite E in *. unfold bsum in S2. lra.
    + rewrite rev_fun. apply map_ext_in. intros j Hj. apply in_seq in Hj. unfold fe_w.
      replace (S (n - 2 - 1 - j)) with (n - 1 - S j)%nat by lia. apply dft_mirror; lia.
Qed.
(** For every continuous function the values of both rules tend to the integral; Fejer's rule ignores the values at the ends. *)
Lemma quadrature_converges_main : forall (f g : R -> R) a b, a < b -> (forall t, a <= t <= b -> continuous g t) -> (forall t, a < t < b -> f t = g t) ->
  exists cc fe : nat -> R,
    (forall n ws xs, (3 <= n)%nat -> clenshaw_coefficients n = Ok ws -> cheb_nodes n a b = Ok xs -> quad_sum (map g xs) ws a b = Ok (cc n)) /\
    (forall n ws xs, (3 <= n)%nat -> fejer2_coefficients n = Ok ws -> cheb_nodes n a b = Ok xs -> quad_sum (map f (removelast (tl xs))) ws a b = Ok (fe n)) /\
    is_lim_seq cc (RInt f a b) /\ is_lim_seq fe (RInt f a b).
Proof.
  intros f g a b AB C Ef. exists (fun n => cc_rule n a b g), (fun n => fe_rule n a b f). splits.
  - intros n ws xs H W X. apply (quad_cc n a b g); auto.
  - intros n ws xs H W X. rewrite cheb_nodes_eq in X by lia. injection X as <-. rewrite inner_eq by auto. apply quad_fe; auto.
  - replace (RInt f a b) with (RInt g a b); [apply cc_converges; auto|]. apply RInt_ext. intros x. rewrite Rmin_left, Rmax_right by lra. intros Hx. symmetry. auto.
  - apply (fe_converges f g); auto.
Qed.
(** integrate_fejer2 returns a number for every function, close to the integral: the error is at most 2(b-a) times the distance of
    the function from any polynomial of degree below 128; the reported error is at most 4(b-a) times the distance from any
    polynomial of degree below 64.  This holds whatever the tolerances are. *)
Lemma fejer2_accuracy_main : forall (f : R -> R) a b p big decr maxn cs d, a <= b -> 0 <= ratio p <= 1 -> 0 <= big -> 0 <= decr <= 1 -> (129 <= maxn)%nat ->
  ex_RInt f a b -> (forall t, a <= t <= b -> Rabs (f t - poly cs t) <= d) ->
  exists v e, integrate_fejer2 f a b p big decr maxn = Ok (v, e) /\
    ((length cs <= 128)%nat -> Rabs (v - RInt f a b) <= 2 * (b - a) * d) /\
    ((length cs <= 64)%nat -> e <= 4 * (b - a) * d).
Proof.
  intros f a b p big decr maxn cs d AB Ra Bi De H E D. destruct (fejer2_result f a b p big decr maxn Ra Bi De H) as (k & _ & Hk).
  exists (fe_seq f a b (S k)), (Rabs (fe_seq f a b (S k) - fe_seq f a b k)). splits; auto.
  - intros L. apply (fe_seq_bound a b f cs d); auto. apply len_up2. auto.
  - intros L. pose proof (fe_seq_bound a b f cs d (S k) AB (len_up (S k) cs L) E D) as B1. pose proof (fe_seq_bound a b f cs d k AB (len_up k cs L) E D) as B2.
    replace (fe_seq f a b (S k) - fe_seq f a b k) with ((fe_seq f a b (S k) - RInt f a b) + (RInt f a b - fe_seq f a b k)) by ring.
    pose proof (Rabs_triang (fe_seq f a b (S k) - RInt f a b) (RInt f a b - fe_seq f a b k)) as Tr. rewrite (Rabs_minus_sym (RInt f a b)) in Tr. lra.
Qed.
(** Polynomials: degree below 128 is integrated exactly; below 64 the reported error is zero as well. *)
Lemma fejer2_polynomial_main : forall a b p big decr maxn cs, 0 <= ratio p <= 1 -> 0 <= big -> 0 <= decr <= 1 -> (129 <= maxn)%nat -> (length cs <= 128)%nat ->
  exists e, integrate_fejer2 (poly cs) a b p big decr maxn = Ok (RInt (poly cs) a b, e) /\ ((length cs <= 64)%nat -> e = 0).
Proof.
  intros a b p big decr maxn cs Ra Bi De H L. destruct (fejer2_result (poly cs) a b p big decr maxn Ra Bi De H) as (k & _ & Hk).
  exists (Rabs (fe_seq (poly cs) a b (S k) - fe_seq (poly cs) a b k)). rewrite Hk. rewrite fe_seq_exact by (apply len_up2; auto). split; auto.
  intros L2. rewrite fe_seq_exact by (apply len_up; auto). rewrite Rminus_eq_0. apply Rabs_R0.
Qed.
(** The value lies between the bounds of the function times the length; a non-negative function never gets a negative integral. *)
Lemma fejer2_bounds_main : forall (f : R -> R) a b p big decr maxn lo hi, a <= b -> 0 <= ratio p <= 1 -> 0 <= big -> 0 <= decr <= 1 -> (129 <= maxn)%nat ->
  (forall t, a <= t <= b -> lo <= f t <= hi) ->
  exists v e, integrate_fejer2 f a b p big decr maxn = Ok (v, e) /\ lo * (b - a) <= v <= hi * (b - a) /\ 0 <= e <= (hi - lo) * (b - a).
Proof.
  intros f a b p big decr maxn lo hi AB Ra Bi De H HF. destruct (fejer2_result f a b p big decr maxn Ra Bi De H) as (k & _ & Hk).
  assert (G : forall i, lo * (b - a) <= fe_seq f a b i <= hi * (b - a)) by (intros i; apply fe_rule_range; auto; pose proof (level_ge 65 i); lia).
  exists (fe_seq f a b (S k)), (Rabs (fe_seq f a b (S k) - fe_seq f a b k)). splits; auto; try apply G; [apply Rabs_pos|].
  pose proof (G (S k)). pose proof (G k). apply Rabs_le. lra.
Qed.
(** The value is that of one of the rules with 129, 257, 513, ... <= maxn nodes, the error the difference from the rule before it. *)
Lemma fejer2_is_a_rule_main : forall (f : R -> R) a b p big decr maxn, 0 <= ratio p <= 1 -> 0 <= big -> 0 <= decr <= 1 -> (129 <= maxn)%nat ->
  exists k n v v0, n = (64 * 2 ^ k + 1)%nat /\ (2 * n - 1 <= maxn)%nat /\ integrate_fejer2 f a b p big decr maxn = Ok (v, Rabs (v - v0)) /\
    forall m w ws xs, (m = n /\ w = v0 \/ m = (2 * n - 1)%nat /\ w = v) -> fejer2_coefficients m = Ok ws -> cheb_nodes m a b = Ok xs ->
      quad_sum (map f (removelast (tl xs))) ws a b = Ok w.
Proof.
  intros f a b p big decr maxn Ra Bi De H. destruct (fejer2_result f a b p big decr maxn Ra Bi De H) as (k & Lk & Hk).
  exists k, (level 65 k), (fe_seq f a b (S k)), (fe_seq f a b k). splits; auto.
  - rewrite level_S. auto.
  - intros m w ws xs M W X. assert (M3 : (3 <= m)%nat) by (pose proof (level_ge 65 k); destruct M as [[-> _]|[-> _]]; lia).
    rewrite cheb_nodes_eq in X by lia. injection X as <-. rewrite inner_eq, (quad_fe m a b f ws M3 W) by auto. rewrite level_S in M. destruct M as [[-> ->]|[-> ->]]; reflexivity.
Qed.
(** With a bound on the number of nodes below 129 no error can be estimated and the integral raises. *)
Lemma fejer2_small_bound_main : forall (f : R -> R) a b p big decr maxn, (maxn < 129)%nat -> integrate_fejer2 f a b p big decr maxn = Err EIndex.
Proof. exact fejer2_small. Qed.
(** A request for fewer than three nodes raises. *)
Lemma rules_need_three_main : forall n, (n < 3)%nat -> clenshaw_coefficients n = Err EIndex /\ fejer2_coefficients n = Err EIndex.
Proof. intros n H. destruct n as [|[|[|n]]]; try lia; split; reflexivity. Qed.
(** integrate_clenshaw raises TypeError when the bound on the number of nodes ends the loop, although the value is at hand:
    the parameter debug_plot, true by default, hides the function it is meant to call. *)
Lemma clenshaw_limit_refuted_main : exists (f : R -> R) a b p maxn v e, ex_RInt f a b /\
  integrate_clenshaw f a b p maxn false = Ok (v, e) /\ v = RInt f a b /\ integrate_clenshaw f a b p maxn true = Err EType.
Proof.
  set (cs := [0; 0; 0; 0; 1]). set (f := poly cs).
  assert (I5 : RInt f (-1) 1 = 2 / 5).
  { apply is_RInt_unique. replace (2 / 5) with (minus ((fun x => x ^ 5 / 5) 1) ((fun x => x ^ 5 / 5) (-1))) by (unfold minus, plus, opp; simpl; lra).
    apply (is_RInt_derive (V := R_CompleteNormedModule) (fun x => x ^ 5 / 5) f); [|intros; apply poly_cont]. intros x _. auto_derive; auto. unfold f, cs. simpl. field. }
  assert (I3 : RInt (poly [0; 0; 1]) (-1) 1 = 2 / 3).
  { apply is_RInt_unique. replace (2 / 3) with (minus ((fun x => x ^ 3 / 3) 1) ((fun x => x ^ 3 / 3) (-1))) by (unfold minus, plus, opp; simpl; lra).
    apply (is_RInt_derive (V := R_CompleteNormedModule) (fun x => x ^ 3 / 3)); [|intros; apply poly_cont]. intros x _. auto_derive; auto. simpl. field. }
  assert (R5 : cc_rule 5 (-1) 1 f = 2 / 5) by (rewrite <- I5; apply cc_exact; simpl; lia).
  assert (R3 : cc_rule 3 (-1) 1 f = 2 / 3).
  { rewrite <- I3. rewrite <- (cc_exact 3) by (simpl; lia). unfold cc_rule. do 2 f_equal. apply bsum_ext. intros j Hj. f_equal.
    assert (X : cheb_raw 3 (-1) 1 j = -1 \/ cheb_raw 3 (-1) 1 j = 0 \/ cheb_raw 3 (-1) 1 j = 1).
    { destruct j as [|[|[|j]]]; try lia.
      - left. apply raw_first. lia.
      - right. left. unfold cheb_raw. simpl. replace (1 * PI / (1 + 1)) with (PI / 2) by lra. rewrite cos_PI2. lra.
      - right. right. apply (raw_last 3). lia. }
    unfold f, cs. simpl. destruct X as [->|[->| ->]]; ring. }
  set (p := MPar 0 0 2 2 (1 / 2) false).
  assert (T1 : mon_test p (mon_add (@mon_init unit) (4 / 15, 2 / 5, tt)) = (Mon [(4 / 15, 2 / 5, tt)] false 1 0, Ok Continue)).
  { unfold mon_test, mon_add, mon_init. cbn [hist length nth_error app Nat.sub]. unfold tol_met, e_ae, e_y. cbn [fst snd abstol reltol p force_nonzero last_good nth_error].
    replace (rle (4 / 15) (Rmax 0 (Rabs (2 / 5) * 0))) with false.
    2:{ symmetry. destruct (rle _ _) eqn:E; auto. apply rle_true in E. rewrite Rmult_0_r, Rmax_left in E; lra. }
    cbn [andb ratio p]. replace (rlt (4 / 15) (1 / 2 * (4 / 15))) with false; [reflexivity|]. symmetry. destruct (rlt _ _) eqn:E; auto. apply rlt_true in E. lra. }
  assert (Hl : forall dp, integrate_clenshaw f (-1) 1 p 8 dp = if dp then Err EType else Ok (2 / 5, 4 / 15)).
  { intros dp. unfold integrate_clenshaw. rewrite clen_first by lia. rewrite clen_second by lia. rewrite R5, R3. cbv zeta.
    replace (Rabs (2 / 5 - 2 / 3)) with (4 / 15) by (rewrite Rabs_left by lra; lra). rewrite T1. destruct dp; reflexivity. }
  exists f, (-1), 1, p, 8%nat, (2 / 5), (4 / 15). splits.
  - apply poly_ex.
  - apply (Hl false).
  - rewrite I5. reflexivity.
  - apply (Hl true).
Qed.
