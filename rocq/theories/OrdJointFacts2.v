(** Joint distribution of two order statistics: mixed derivative and marginals. *)
From Coq Require Import Reals ZArith Lra Lia List Bool Factorial Arith.
From Coquelicot Require Import Coquelicot.
From Verif Require Import Base Comb CombSpec CombFacts CombMain Integral IntegralFacts IntParts IntPartsFacts OrdJoint OrdJointSpec OrdJointFacts.
Import List ListNotations.
Open Scope R_scope.

Definition mid (i b : nat) (r s : nat) : R := if Nat.leb i r then (if Nat.eqb s b then 1 else 0) else 0.
Lemma both_dq n i j p (q : R) : (1 <= j)%nat -> is_derive (fun q => both_at_least n i j p q) q (INR n * trin (n - 1) p q (mid i (j - 1))).
Proof.
  intros J. evar_last; [apply trin_dq|]. cbv beta. f_equal. apply trin_ext. intros r s. unfold mid.
  destruct (Nat.leb i r); [|ring]. destruct (Nat.leb_spec j (S s)), (Nat.leb_spec j s), (Nat.eqb_spec s (j - 1)); try lia; ring.
Qed.
Lemma mid_dp n i b (p q : R) : (1 <= i)%nat -> (1 <= b)%nat -> is_derive (fun p => trin n p q (mid i b)) p (INR n * trin (n - 1) p q (exactly (i - 1) (b - 1))).
Proof.
  intros I B. evar_last; [apply trin_dp|]. cbv beta. f_equal. apply trin_ext. intros r s. unfold mid, exactly.
  destruct (Nat.leb_spec i (S r)), (Nat.leb_spec i r), (Nat.eqb_spec r (i - 1)), (Nat.eqb_spec (S s) b), (Nat.eqb_spec s (b - 1)); try lia; ring.
Qed.
Lemma comp_der (h F : R -> R) (x d fx : R) : is_derive h (F x) d -> is_derive F x fx -> is_derive (fun x => h (F x)) x (d * fx).
Proof.
  intros H K. evar_last; [apply (is_derive_comp (K := R_AbsRing) (V := R_NormedModule) h F x); eauto|]. unfold scal; simpl; unfold mult; simpl. ring.
Qed.
Lemma coef_trin n i j p q : (1 <= i)%nat -> (i < j)%nat -> (j <= n)%nat ->
  INR n * (INR (n - 1) * trin (n - 2) p q (exactly (i - 1) (j - 2))) = coef n i j * p ^ (i - 1) * (q - p) ^ (j - i - 1) * (1 - q) ^ (n - j).
Proof.
  intros H1 H2 H3. pose proof (trin_exact (n - 2) p q (i - 1) (j - 2) ltac:(lia)) as T.
  replace (j - 2 - (i - 1))%nat with (j - i - 1)%nat in T by lia. replace (n - 2 - (j - 2))%nat with (n - j)%nat in T by lia.
  assert (Fn : INR (fact n) = INR n * (INR (n - 1) * INR (fact (n - 2)))).
  { rewrite <- !mult_INR. f_equal. destruct n as [|[|n]]; try lia. replace (S (S n) - 1)%nat with (S n) by lia. replace (S (S n) - 2)%nat with n by lia.
    rewrite (fact_simpl (S n)), (fact_simpl n). reflexivity. }
  unfold coef. rewrite Fn. set (t := trin _ _ _ _) in *.
  assert (E : t = INR (fact (n - 2)) * (p ^ (i - 1) * (q - p) ^ (j - i - 1) * (1 - q) ^ (n - j)) / (INR (fact (i - 1)) * INR (fact (j - i - 1)) * INR (fact (n - j)))).
  { rewrite <- T. field. repeat split; apply fact_ne. }
  rewrite E. field. repeat split; apply fact_ne.
Qed.
Lemma mixed_ok n i j (F f : R -> R) x y : (1 <= i)%nat -> (i < j)%nat -> (j <= n)%nat -> x < y -> is_derive F x (f x) -> is_derive F y (f y) ->
  exists G v, (forall u, is_derive (fun y => both_at_least n i j (F u) (F y)) y (G u)) /\
    ij_call (Z.of_nat n) (Z.of_nat i) (Z.of_nat j) f F x y = Ok v /\ is_derive G x v.
Proof.
  intros H1 H2 H3 L Dx Dy. exists (fun u => (INR n * trin (n - 1) (F u) (F y) (mid i (j - 1))) * f y). eexists. splits.
  - intros u. apply (comp_der (fun q => both_at_least n i j (F u) q) F y); auto. apply both_dq. lia.
  - apply ij_value; auto.
  - evar_last.
    + apply (is_derive_ext (fun u => (INR n * f y) * trin (n - 1) (F u) (F y) (mid i (j - 1)))); [intros t; match goal with |- ?l = ?r => change (@eq R l r) end; ring|].
      apply (is_derive_scal (fun u => trin (n - 1) (F u) (F y) (mid i (j - 1))) x (INR n * f y)).
      apply (comp_der (fun p => trin (n - 1) p (F y) (mid i (j - 1))) F x); [|exact Dx]. apply mid_dp; lia.
    + destruct (rltP x y); [|lra]. replace (n - 1 - 1)%nat with (n - 2)%nat by lia. replace (j - 1 - 1)%nat with (j - 2)%nat by lia.
      pose proof (coef_trin n i j (F x) (F y) H1 H2 H3) as C.
      transitivity (INR n * (INR (n - 1) * trin (n - 2) (F x) (F y) (exactly (i - 1) (j - 2))) * f x * f y); [simpl; ring|]. rewrite C. ring.
Qed.

(** ** marginals *)
Section Beta.
Variables (a b : nat) (c d : R).
Hypothesis CD : c <> d.
Definition bet : R := INR (fact a) * INR (fact b) / INR (fact (a + b + 1)).
Definition W (u : R) : R := (d - c) ^ (a + b + 1) * bet * at_least (a + b + 1) (a + 1) ((u - c) / (d - c)).
Lemma W_der u : is_derive W u ((u - c) ^ a * (d - u) ^ b).
Proof.
  assert (DC : d - c <> 0) by lra. unfold W.
  evar_last.
  - apply (is_derive_scal (fun u => at_least (a + b + 1) (a + 1) ((u - c) / (d - c))) u).
    apply (comp_der (at_least (a + b + 1) (a + 1)) (fun u => (u - c) / (d - c))); [apply at_least_derive; lia|auto_derive; [auto|reflexivity]].
  - replace (a + 1 - 1)%nat with a by lia. replace (a + b + 1 - (a + 1))%nat with b by lia.
    replace (1 - (u - c) / (d - c)) with ((d - u) / (d - c)) by (field; auto). unfold Rdiv. rewrite !Rpow_mult_distr.
    assert (K : bet * (INR (a + 1) * INR (choose (a + b + 1) (a + 1))) = 1).
    { pose proof (choose_fact (a + b + 1) (a + 1) ltac:(lia)) as C. replace (a + b + 1 - (a + 1))%nat with b in C by lia.
      unfold bet. replace (fact (a + b + 1)) with (choose (a + b + 1) (a + 1) * (fact (a + 1) * fact b))%nat by exact C.
      replace (fact (a + 1)) with ((a + 1) * fact a)%nat by (replace (a + 1)%nat with (S a) by lia; rewrite fact_simpl; reflexivity).
      rewrite !mult_INR. field. repeat split; try apply fact_ne; apply not_0_INR; try lia.
      intros Z. rewrite Z in C. simpl in C. pose proof (fact_neq_0 (a + b + 1)). lia. }
    replace ((d - c) ^ (a + b + 1)) with ((d - c) ^ a * (d - c) ^ b * (d - c)) by (rewrite !pow_add, pow_1; ring).
    assert (P : forall k, (/ (d - c)) ^ k = / (d - c) ^ k) by (intros k; apply pow_inv). rewrite !P.
    assert (N : forall k, (d - c) ^ k <> 0) by (intros k; apply pow_nonzero; auto).
    transitivity ((bet * (INR (a + 1) * INR (choose (a + b + 1) (a + 1)))) * ((u - c) ^ a * (d - u) ^ b)); [|rewrite K; ring].
    field. repeat split; auto.
Qed.
Lemma W_c : W c = 0.
Proof. unfold W. replace ((c - c) / (d - c)) with 0 by (field; lra). rewrite at_least_0 by lia. ring. Qed.
Lemma W_d : W d = (d - c) ^ (a + b + 1) * bet.
Proof. unfold W. replace ((d - c) / (d - c)) with 1 by (field; lra). rewrite at_least_1 by lia. ring. Qed.
End Beta.

Lemma cdf_le1 F f x : smooth_cdf F f -> F x <= 1.
Proof.
  intros (_ & _ & M & _ & L). destruct (Rle_lt_dec (F x) 1) as [|K]; auto. exfalso.
  pose proof (L (fun y => y < F x)) as E. destruct E as (m & Hm).
  - assert (P : 0 < F x - 1) by lra. exists (mkposreal _ P). intros y B. unfold ball in B; simpl in B; unfold AbsRing_ball, abs, minus, plus, opp in B; simpl in B.
    apply Rabs_def2 in B. simpl in B. lra.
  - pose proof (Hm (Rmax m x + 1)) as Q1. pose proof (Rmax_l m x). pose proof (Rmax_r m x). specialize (Q1 ltac:(lra)). pose proof (M x (Rmax m x + 1) ltac:(lra)). lra.
Qed.
Lemma cdf_ge0 F f x : smooth_cdf F f -> 0 <= F x.
Proof.
  intros (_ & _ & M & L & _). destruct (Rle_lt_dec 0 (F x)) as [|K]; auto. exfalso.
  pose proof (L (fun y => F x < y)) as E. destruct E as (m & Hm).
  - assert (P : 0 < - F x) by lra. exists (mkposreal _ P). intros y B. unfold ball in B; simpl in B; unfold AbsRing_ball, abs, minus, plus, opp in B; simpl in B.
    apply Rabs_def2 in B. simpl in B. lra.
  - pose proof (Hm (Rmin m x - 1)) as Q1. pose proof (Rmin_l m x). pose proof (Rmin_r m x). specialize (Q1 ltac:(lra)). pose proof (M (Rmin m x - 1) x ltac:(lra)). lra.
Qed.
Lemma cdf_flat F f (c u v x : R) : smooth_cdf F f -> u < x < v -> (forall t, u < t < v -> F t = c) -> f x = 0.
Proof.
  intros (D & _) I E. rewrite <- (is_derive_unique _ _ _ (D x)). rewrite (Derive_ext_loc F (fun _ => c)); [apply Derive_const|].
  apply (locally_interval _ x u v); simpl; try tauto. intros t U V. apply E. auto.
Qed.
Lemma cdf_cont F f x : smooth_cdf F f -> continuous F x.
Proof. intros (D & _). apply (ex_derive_continuous (K := R_AbsRing) (V := R_NormedModule)). eexists. apply D. Qed.
Lemma W_cont a b c d u : c <> d -> continuous (W a b c d) u.
Proof. intros N. apply (ex_derive_continuous (K := R_AbsRing) (V := R_NormedModule)). eexists. apply W_der; auto. Qed.

(** the coefficient of one order statistic *)
Lemma coef_one n k : (1 <= k)%nat -> (k <= n)%nat -> INR k * INR (choose n k) = INR (fact n) / (INR (fact (k - 1)) * INR (fact (n - k))).
Proof.
  intros H1 H2. pose proof (choose_fact n k H2) as C. rewrite <- C. replace (fact k) with (k * fact (k - 1))%nat by (destruct k; [lia|]; replace (S k - 1)%nat with k by lia; rewrite fact_simpl; reflexivity).
  rewrite !mult_INR. field. repeat split; apply fact_ne.
Qed.

Lemma marg_first n i j F f x : (1 <= i)%nat -> (i < j)%nat -> (j <= n)%nat -> smooth_cdf F f ->
  exists g, (forall y, ij_call (Z.of_nat n) (Z.of_nat i) (Z.of_nat j) f F x y = Ok (g y)) /\ has_int g m_infty p_infty (order_stat_fun n i (f x) (F x)).
Proof.
  intros H1 H2 H3 S. eexists. split; [intros y; apply ij_value; auto|]. destruct (Req_dec (F x) 1) as [E|E].
  - replace (order_stat_fun n i (f x) (F x)) with 0 by (unfold order_stat_fun; rewrite E; replace (1 - 1) with 0 by ring; rewrite (pow_i (n - i)) by lia; ring).
    apply has_int_zero; simpl; auto. intros y _. destruct (rltP x y) as [L|L]; [|ring].
    rewrite (cdf_flat F f 1 x (y + 1) y S); [ring|lra|]. intros t T. apply Rle_antisym; [eapply cdf_le1; eauto|]. rewrite <- E. apply S. lra.
  - set (K := coef n i j * F x ^ (i - 1) * f x).
    set (h := fun y => K * ((F y - F x) ^ (j - i - 1) * (1 - F y) ^ (n - j) * f y)).
    destruct (ftc h (fun y => K * W (j - i - 1) (n - j) (F x) 1 (F y)) x p_infty 0 (K * ((1 - F x) ^ (j - i - 1 + (n - j) + 1) * bet (j - i - 1) (n - j)))) as (I & V).
    + exact I.
    + intros t _. apply (is_derive_scal (fun y => W (j - i - 1) (n - j) (F x) 1 (F y)) t K). apply (comp_der (W (j - i - 1) (n - j) (F x) 1) F t); [apply W_der; auto|apply S].
    + intros t _. unfold h. apply (continuous_mult (K := R_AbsRing)); [apply continuous_const|]. apply (continuous_mult (K := R_AbsRing)); [|apply S].
      apply (continuous_comp F (fun p => (p - F x) ^ (j - i - 1) * (1 - p) ^ (n - j))); [apply (cdf_cont F f t S)|].
      apply (ex_derive_continuous (K := R_AbsRing) (V := R_NormedModule)). auto_derive; auto.
    + replace 0 with (K * W (j - i - 1) (n - j) (F x) 1 (F x)) by (rewrite W_c by auto; ring).
      apply (filterlim_at_r_cont (fun y => K * W (j - i - 1) (n - j) (F x) 1 (F y))). apply (continuous_mult (K := R_AbsRing)); [apply continuous_const|].
      apply (continuous_comp F (W (j - i - 1) (n - j) (F x) 1)); [apply (cdf_cont F f x S)|apply W_cont; auto].
    + rewrite <- (W_d _ _ (F x) 1 E).
      apply (filterlim_comp _ _ _ F (fun u => K * W (j - i - 1) (n - j) (F x) 1 u) _ (locally 1)); [apply S|].
      apply (continuous_mult (K := R_AbsRing) (fun _ => K)); [apply continuous_const|apply W_cont; auto].
    + replace (order_stat_fun n i (f x) (F x)) with (Q h x p_infty).
      * apply (has_int_window _ h); simpl; auto.
        -- intros t (A & _). simpl in A. destruct (rltP x t); [|lra]. unfold h, K. ring.
        -- intros t N. destruct (rltP x t); [|ring]. exfalso. destruct N; auto. simpl in *. lra.
      * rewrite V. unfold order_stat_fun, K. rewrite binomial_value by lia. rewrite coef_one by lia.
        replace (j - i - 1 + (n - j) + 1)%nat with (n - i)%nat by lia. unfold bet, coef. replace (j - i - 1 + (n - j) + 1)%nat with (n - i)%nat by lia.
        field. repeat split; apply fact_ne.
Qed.
Lemma marg_second n i j F f y : (1 <= i)%nat -> (i < j)%nat -> (j <= n)%nat -> smooth_cdf F f ->
  exists g, (forall x, ij_call (Z.of_nat n) (Z.of_nat i) (Z.of_nat j) f F x y = Ok (g x)) /\ has_int g m_infty p_infty (order_stat_fun n j (f y) (F y)).
Proof.
  intros H1 H2 H3 S. eexists. split; [intros x; apply ij_value; auto|]. destruct (Req_dec (F y) 0) as [E|E].
  - replace (order_stat_fun n j (f y) (F y)) with 0 by (unfold order_stat_fun; rewrite E; rewrite (pow_i (j - 1)) by lia; ring).
    apply has_int_zero; simpl; auto. intros x _. destruct (rltP x y) as [L|L]; [|ring].
    rewrite (cdf_flat F f 0 (x - 1) y x S); [ring|lra|]. intros t T. apply Rle_antisym; [|eapply cdf_ge0; eauto]. rewrite <- E. apply S. lra.
  - set (K := coef n i j * (1 - F y) ^ (n - j) * f y).
    set (h := fun x => K * ((F x - 0) ^ (i - 1) * (F y - F x) ^ (j - i - 1) * f x)).
    destruct (ftc h (fun x => K * W (i - 1) (j - i - 1) 0 (F y) (F x)) m_infty y 0 (K * ((F y - 0) ^ (i - 1 + (j - i - 1) + 1) * bet (i - 1) (j - i - 1)))) as (I & V).
    + exact I.
    + intros t _. apply (is_derive_scal (fun x => W (i - 1) (j - i - 1) 0 (F y) (F x)) t K). apply (comp_der (W (i - 1) (j - i - 1) 0 (F y)) F t); [apply W_der; auto|apply S].
    + intros t _. unfold h. apply (continuous_mult (K := R_AbsRing)); [apply continuous_const|]. apply (continuous_mult (K := R_AbsRing)); [|apply S].
      apply (continuous_comp F (fun p => (p - 0) ^ (i - 1) * (F y - p) ^ (j - i - 1))); [apply (cdf_cont F f t S)|].
      apply (ex_derive_continuous (K := R_AbsRing) (V := R_NormedModule)). auto_derive; auto.
    + assert (Z : K * W (i - 1) (j - i - 1) 0 (F y) 0 = 0) by (rewrite W_c by auto; ring).
      cut (filterlim (fun x => K * W (i - 1) (j - i - 1) 0 (F y) (F x)) (at_r m_infty) (locally (K * W (i - 1) (j - i - 1) 0 (F y) 0))); [rewrite Z; auto|].
      apply (filterlim_comp _ _ _ F (fun u => K * W (i - 1) (j - i - 1) 0 (F y) u) _ (locally 0)); [apply S|].
      apply (continuous_mult (K := R_AbsRing) (fun _ => K)); [apply continuous_const|apply W_cont; auto].
    + rewrite <- (W_d _ _ 0 (F y)) by auto.
      apply (filterlim_at_l_cont (fun x => K * W (i - 1) (j - i - 1) 0 (F y) (F x))). apply (continuous_mult (K := R_AbsRing)); [apply continuous_const|].
      apply (continuous_comp F (W (i - 1) (j - i - 1) 0 (F y))); [apply (cdf_cont F f y S)|apply W_cont; auto].
    + replace (order_stat_fun n j (f y) (F y)) with (Q h m_infty y).
      * apply (has_int_window _ h); simpl; auto.
        -- intros t (_ & A). simpl in A. destruct (rltP t y); [|lra]. unfold h, K. replace (F t - 0) with (F t) by ring. ring.
        -- intros t N. destruct (rltP t y); [|ring]. exfalso. destruct N; auto. simpl in *. lra.
      * rewrite V. unfold order_stat_fun, K. rewrite binomial_value by lia. rewrite coef_one by lia.
        replace (i - 1 + (j - i - 1) + 1)%nat with (j - 1)%nat by lia. unfold bet, coef. replace (i - 1 + (j - i - 1) + 1)%nat with (j - 1)%nat by lia.
        replace (F y - 0) with (F y) by ring. field. repeat split; apply fact_ne.
Qed.
