(** Proofs about coefficients and recurrences. *)
From Coq Require Import Reals ZArith Lra Lia List Bool Factorial Arith.
From Coquelicot Require Import Coquelicot.
From Verif Require Import Base Comb CombSpec.
Import List ListNotations.
Open Scope R_scope.

Lemma subs_length {A B} k : forall (l : list A) (l' : list B), length l = length l' -> length (subs k l) = length (subs k l').
Proof.
  induction k as [|k IH]; intros l; [intros l' _; destruct l, l'; reflexivity|].
  induction l as [|x l IHl]; intros [|y l'] E; simpl in *; try discriminate; auto.
  rewrite !app_length, !map_length. rewrite (IH l l') by lia. f_equal. apply (IHl l'); lia.
Qed.
Lemma choose_0 n : choose n 0 = 1%nat.
Proof. unfold choose. try destruct n; reflexivity. Qed.
Lemma choose_0S k : choose 0 (S k) = 0%nat.
Proof. unfold choose. try destruct n; reflexivity. Qed.
Lemma choose_S n k : choose (S n) (S k) = (choose n k + choose n (S k))%nat.
Proof.
  unfold choose. cbn [seq subs]. rewrite app_length, map_length. f_equal; apply subs_length; rewrite !seq_length; auto.
Qed.
Lemma choose_big n : forall k, (n < k)%nat -> choose n k = 0%nat.
Proof.
  induction n; intros [|k] H; try lia; auto. rewrite choose_S, !IHn by lia. auto.
Qed.
Lemma choose_nn n : choose n n = 1%nat.
Proof. induction n; auto. rewrite choose_S, IHn, choose_big; lia. Qed.
Lemma choose_fact n : forall k, (k <= n)%nat -> (choose n k * (fact k * fact (n - k)) = fact n)%nat.
Proof.
  induction n; intros [|k] H; try lia.
  - reflexivity.
  - rewrite choose_0. simpl (S n - 0)%nat. change (fact 0) with 1%nat. lia.
  - rewrite choose_S. replace (S n - S k)%nat with (n - k)%nat by lia.
    destruct (Nat.eq_dec k n) as [->|N].
    + rewrite choose_nn, (choose_big n (S n)) by lia. rewrite Nat.sub_diag. change (fact 0) with 1%nat. lia.
    + assert (E1 := IHn k). assert (E2 := IHn (S k)).
      replace (n - k)%nat with (S (n - S k)) in * by lia.
      change (fact (S k)) with (S k * fact k)%nat in *. change (fact (S (n - S k))) with (S (n - S k) * fact (n - S k))%nat in *.
      specialize (E1 ltac:(lia)). specialize (E2 ltac:(lia)).
      change (fact (S n)) with (S n * fact n)%nat.
      set (a := choose n k) in *. set (b := choose n (S k)) in *. set (u := fact k) in *. set (w := fact (n - S k)) in *.
      set (m := (n - S k)%nat) in *. assert (EN : n = (S k + m)%nat) by (unfold m; lia).
      replace (S n * fact n)%nat with (S k * fact n + S m * fact n)%nat by lia.
      rewrite <- E1 at 1. rewrite <- E2. ring.
Qed.
Lemma choose_sym n k : (k <= n)%nat -> choose n (n - k) = choose n k.
Proof.
  intros H. pose proof (choose_fact n k H) as E1. pose proof (choose_fact n (n - k) ltac:(lia)) as E2.
  replace (n - (n - k))%nat with k in E2 by lia.
  assert (0 < fact k * fact (n - k))%nat by (pose proof (lt_O_fact k); pose proof (lt_O_fact (n - k)); nia).
  rewrite <- E1 in E2. rewrite (Nat.mul_comm (fact (n - k))) in E2. apply Nat.mul_cancel_r in E2; lia.
Qed.
Lemma choose_step n k : (k < n)%nat -> (choose n (S k) * S k = choose n k * (n - k))%nat.
Proof.
  intros H. pose proof (choose_fact n k ltac:(lia)) as E1. pose proof (choose_fact n (S k) ltac:(lia)) as E2.
  replace (n - k)%nat with (S (n - S k)) in * by lia.
  change (fact (S k)) with (S k * fact k)%nat in *. change (fact (S (n - S k))) with (S (n - S k) * fact (n - S k))%nat in *.
  assert (0 < fact k * fact (n - S k))%nat by (pose proof (lt_O_fact k); pose proof (lt_O_fact (n - S k)); nia).
  rewrite <- E1 in E2. apply (Nat.mul_cancel_r _ _ (fact k * fact (n - S k))); [lia|].
  transitivity (choose n (S k) * (S k * fact k * fact (n - S k)))%nat; [ring|]. rewrite E2. ring.
Qed.
Lemma choose_stepR n k : INR (choose n (S k)) * INR (S k) = INR (choose n k) * (INR n - INR k).
Proof.
  destruct (le_lt_dec n k) as [L|L].
  - rewrite (choose_big n (S k)) by lia. simpl (INR 0). destruct (Nat.eq_dec n k) as [->|].
    + rewrite choose_nn. simpl. lra.
    + rewrite (choose_big n k) by lia. simpl (INR 0). lra.
  - rewrite <- mult_INR, choose_step by auto. rewrite mult_INR, minus_INR by lia. auto.
Qed.

Lemma binom_fold n : forall k, (k <= n)%nat ->
  fold_left (fun c i => c * IZR (Z.of_nat n - Z.of_nat i) / INR (i + 1)) (seq 0 k) 1 = INR (choose n k).
Proof.
  induction k; intros H; [simpl; rewrite choose_0; auto|].
  rewrite seq_S, fold_left_app. simpl fold_left at 1. rewrite IHk by lia.
  replace (k + 1)%nat with (S k) by lia. rewrite minus_IZR, <- !INR_IZR_INZ. rewrite <- choose_stepR. field. apply not_0_INR; lia.
Qed.

Lemma binomial_value n k : (k <= n)%nat -> binomial_coeff (Z.of_nat n) (Z.of_nat k) = INR (choose n k).
Proof.
  intros H. unfold binomial_coeff. destruct (Z.ltb_spec (Z.of_nat n - Z.of_nat k) (Z.of_nat k)).
  - rewrite <- Nat2Z.inj_sub, Nat2Z.id by lia. rewrite binom_fold by lia. f_equal. apply choose_sym; auto.
  - rewrite Nat2Z.id. apply binom_fold; auto.
Qed.

(** multinomial *)
Lemma factR_pos n : 0 < INR (fact n).
Proof. apply lt_0_INR, lt_O_fact. Qed.
Lemma multi_inner n m : forall j c, (j + m <= n)%nat ->
  let st := fold_left (multi_step (Z.of_nat n)) (seq 0 m) (c, Z.of_nat j) in
  snd st = Z.of_nat (j + m) /\ fst st * INR (fact m) * INR (fact (n - j - m)) = c * INR (fact (n - j)).
Proof.
  induction m; intros j c H.
  - simpl. rewrite Nat.add_0_r, Nat.sub_0_r. split; auto. ring.
  - rewrite seq_S, fold_left_app. destruct (IHm j c ltac:(lia)) as (E1 & E2).
    set (st := fold_left (multi_step (Z.of_nat n)) (seq 0 m) (c, Z.of_nat j)) in *. cbv zeta. simpl fold_left. unfold multi_step at 1. cbn [fst snd].
    rewrite E1. split; [lia|].
    rewrite <- E2. unfold multi_step. cbn [fst snd]. rewrite E1, minus_IZR, <- !INR_IZR_INZ.
    replace (n - j - m)%nat with (S (n - j - S m)) by lia.
    change (fact (S m)) with (S m * fact m)%nat. change (fact (S (n - j - S m))) with (S (n - j - S m) * fact (n - j - S m))%nat.
    rewrite !mult_INR. replace (m + 1)%nat with (S m) by lia.
    replace (INR n - INR (j + m)) with (INR (S (n - j - S m))) by (rewrite <- minus_INR by lia; f_equal; lia).
    field. apply not_0_INR; lia.
Qed.
Definition nsum (l : list nat) : nat := fold_right Nat.add 0%nat l.
Definition fprod (l : list nat) : R := fold_right Rmult 1 (map (fun k => INR (fact k)) l).
Lemma multi_outer n ks : forall j c, (j + nsum ks <= n)%nat ->
  let st := fold_left (fun st k => fold_left (multi_step (Z.of_nat n)) (seq 0 (Z.to_nat k)) st) (map Z.of_nat ks) (c, Z.of_nat j) in
  fst st * fprod ks * INR (fact (n - j - nsum ks)) = c * INR (fact (n - j)).
Proof.
  induction ks as [|k ks IH]; intros j c H.
  - simpl. rewrite Nat.sub_0_r. unfold fprod. simpl. ring.
  - cbn [map fold_left]. rewrite Nat2Z.id. simpl in H.
    destruct (multi_inner n k j c ltac:(lia)) as (E1 & E2).
    set (st := fold_left (multi_step (Z.of_nat n)) (seq 0 k) (c, Z.of_nat j)) in *. 
    destruct st as [c1 j1]. simpl in E1, E2. subst j1.
    specialize (IH (j + k)%nat c1 ltac:(lia)). cbv zeta in IH |- *.
    set (r := fst (fold_left (fun st k => fold_left (multi_step (Z.of_nat n)) (seq 0 (Z.to_nat k)) st) (map Z.of_nat ks) (c1, Z.of_nat (j + k)))) in *.
    rewrite <- E2. unfold fprod in *. cbn [map fold_right nsum]. fold (nsum ks).
    replace (n - j - k)%nat with (n - (j + k))%nat by lia. replace (n - j - (k + nsum ks))%nat with (n - (j + k) - nsum ks)%nat by lia.
    transitivity (INR (fact k) * (c1 * INR (fact (n - (j + k))))); [|ring]. rewrite <- IH. ring.
Qed.
Lemma zsum_nat ks : zsum (map Z.of_nat ks) = Z.of_nat (nsum ks).
Proof. induction ks; simpl; auto. unfold zsum in *. rewrite IHks. lia. Qed.

(** ** binomial law *)
Lemma rsum_app l l' : rsum (l ++ l') = rsum l + rsum l'.
Proof. induction l; simpl; lra. Qed.
Lemma rsum_S lo len F : rsum_range lo (S len) F = rsum_range lo len F + F (lo + len)%nat.
Proof. unfold rsum_range. rewrite seq_S, map_app, rsum_app. simpl. lra. Qed.
Lemma rsum_cons lo len F : rsum_range lo (S len) F = F lo + rsum_range (S lo) len F.
Proof. unfold choose. try destruct n; reflexivity. Qed.
Lemma rsum_sum_f F n : rsum_range 0 (S n) F = sum_f_R0 F n.
Proof.
  induction n; [unfold rsum_range; simpl; lra|]. rewrite rsum_S, IHn. reflexivity.
Qed.
Lemma rsum_ext lo len F G : (forall i, (lo <= i < lo + len)%nat -> F i = G i) -> rsum_range lo len F = rsum_range lo len G.
Proof.
  revert lo. induction len; intros lo H; [reflexivity|]. rewrite !rsum_cons, H, (IHlen (S lo)); auto; [|lia]. intros; apply H; lia.
Qed.
Lemma choose_C n k : (k <= n)%nat -> INR (choose n k) = Binomial.C n k.
Proof.
  intros H. unfold Binomial.C. pose proof (choose_fact n k H) as E. apply (f_equal INR) in E. rewrite !mult_INR in E.
  rewrite <- E. field. split; apply Rgt_not_eq, factR_pos.
Qed.
Lemma binomial_total n p : rsum_range 0 (n + 1) (binomial_law n p) = 1.
Proof.
  rewrite Nat.add_1_r, rsum_sum_f. transitivity ((p + (1 - p)) ^ n).
  - rewrite binomial. apply sum_eq. intros i H. unfold binomial_law. rewrite choose_C by auto. auto.
  - replace (p + (1 - p)) with 1 by ring. apply pow1.
Qed.
Lemma binom_loop_spec n p : 1 - p <> 0 -> forall todo i, (i + todo = n)%nat ->
  binom_loop n (p / (1 - p)) (binomial_law n p i) i todo = map (fun k => (INR k, binomial_law n p k)) (seq (S i) todo).
Proof.
  intros Q. induction todo; intros i H; [reflexivity|]. cbn [binom_loop seq map].
  assert (E : binomial_law n p i * (INR n - INR i) / (INR i + 1) * (p / (1 - p)) = binomial_law n p (S i)).
  { unfold binomial_law. replace (n - i)%nat with (S (n - S i)) by lia. pose proof (choose_stepR n i) as ES. rewrite S_INR in ES.
    assert (INR i + 1 <> 0) by (rewrite <- S_INR; apply not_0_INR; lia).
    replace (INR (choose n (S i))) with (INR (choose n i) * (INR n - INR i) / (INR i + 1)) by (rewrite <- ES; field; auto).
    simpl pow. field. auto. }
  rewrite E, IHtodo by lia. rewrite S_INR. auto.
Qed.

(** ** order statistics *)
Definition os_term (n j : nat) (p : R) : R := INR j * INR (choose n j) * p ^ (j - 1) * (1 - p) ^ (n - j).
Lemma law_derive n j p : (j <= n)%nat -> is_derive (fun p => binomial_law n p j) p (os_term n j p - os_term n (S j) p).
Proof.
  intros H. unfold binomial_law, os_term.
  replace (S j - 1)%nat with j by lia.
  rewrite (Rmult_comm (INR (S j))), choose_stepR.
  evar_last.
  - apply (is_derive_mult (K := R_AbsRing) (fun p => INR (choose n j) * p ^ j) (fun p => (1 - p) ^ (n - j)) p); [| |intros; apply Rmult_comm].
    + apply is_derive_scal. apply (is_derive_pow (fun x => x) j p 1). apply (is_derive_id (K := R_AbsRing)).
    + apply (is_derive_pow (fun p => 1 - p) (n - j) p (-1)). evar_last; [apply (is_derive_minus (K := R_AbsRing) (V := R_NormedModule)); [apply is_derive_const|apply (is_derive_id (K := R_AbsRing))]|].
      unfold minus, plus, opp, zero, one; simpl. ring.
  - unfold plus, mult, scal; simpl. unfold mult; simpl. rewrite minus_INR by auto.
    replace (n - S j)%nat with (Init.Nat.pred (n - j)) by lia. replace (j - 1)%nat with (Init.Nat.pred j) by lia. ring.
Qed.
Lemma os_term_top n p : os_term n (S n) p = 0.
Proof. unfold os_term. rewrite choose_big by lia. simpl (INR 0). ring. Qed.
Lemma range_derive n p : forall len k, (k + len <= n + 1)%nat ->
  is_derive (fun p => rsum_range k len (binomial_law n p)) p (os_term n k p - os_term n (k + len) p).
Proof.
  induction len; intros k H.
  - unfold rsum_range. simpl. rewrite Nat.add_0_r. replace (os_term n k p - os_term n k p) with 0 by ring. apply (is_derive_const (K := R_AbsRing) (V := R_NormedModule)).
  - apply (is_derive_ext (fun p => rsum_range k len (binomial_law n p) + binomial_law n p (k + len))).
    + intros t. rewrite rsum_S. auto.
    + replace (k + S len)%nat with (S (k + len)) by lia.
      replace (os_term n k p - os_term n (S (k + len)) p) with ((os_term n k p - os_term n (k + len) p) + (os_term n (k + len) p - os_term n (S (k + len)) p)) by ring.
      apply (is_derive_plus (K := R_AbsRing) (V := R_NormedModule)); [apply IHlen; lia|apply law_derive; lia].
Qed.
Lemma at_least_derive n k p : (1 <= k <= n)%nat -> is_derive (at_least n k) p (INR k * INR (choose n k) * p ^ (k - 1) * (1 - p) ^ (n - k)).
Proof.
  intros H. unfold at_least. pose proof (range_derive n p (n + 1 - k) k ltac:(lia)) as D.
  replace (k + (n + 1 - k))%nat with (S n) in D by lia. rewrite os_term_top, Rminus_0_r in D. exact D.
Qed.
Lemma at_least_0 n k : (1 <= k)%nat -> at_least n k 0 = 0.
Proof.
  intros H. unfold at_least. transitivity (rsum_range k (n + 1 - k) (fun _ => 0)).
  - apply rsum_ext. intros i Hi. unfold binomial_law. rewrite (pow_i i) by lia. ring.
  - generalize (n + 1 - k)%nat as len. intros len. clear. revert k. induction len; intros; [reflexivity|]. rewrite rsum_cons, IHlen. lra.
Qed.
Lemma at_least_1 n k : (k <= n)%nat -> at_least n k 1 = 1.
Proof.
  intros H. unfold at_least. replace (n + 1 - k)%nat with (S (n - k)) by lia. rewrite rsum_S.
  replace (k + (n - k))%nat with n by lia.
  assert (E : rsum_range k (n - k) (binomial_law n 1) = 0).
  { transitivity (rsum_range k (n - k) (fun _ => 0)).
    - apply rsum_ext. intros i Hi. unfold binomial_law. replace (1 - 1) with 0 by ring. rewrite (pow_i (n - i)) by lia. ring.
    - generalize (n - k)%nat as len. intros len. clear. revert k. induction len; intros; [reflexivity|]. rewrite rsum_cons, IHlen. lra. }
  rewrite E. unfold binomial_law. rewrite choose_nn, Nat.sub_diag, pow1. simpl. ring.
Qed.

(** ** Poisson *)
Lemma poisson_step lam k : poisson_law lam k * lam / (INR k + 1) = poisson_law lam (S k).
Proof.
  unfold poisson_law. change (fact (S k)) with (S k * fact k)%nat. rewrite mult_INR, S_INR. simpl pow.
  field. split; [apply Rgt_not_eq, factR_pos|]. rewrite <- S_INR. apply not_0_INR; lia.
Qed.
Definition psum (lam : R) (m : nat) : R := rsum_range 0 (S m) (poisson_law lam).
Lemma psum_S lam m : psum lam (S m) = psum lam m + poisson_law lam (S m).
Proof. unfold psum. rewrite (rsum_S 0 (S m)). auto. Qed.
Lemma poisson_loop_spec lam eps : forall fuel k l, poisson_loop fuel lam eps (INR k) (poisson_law lam k) (psum lam k) = Some l ->
  exists m, (k <= m)%nat /\ l = map (fun i => (INR i, poisson_law lam i)) (seq k (S m - k)) /\ 1 - psum lam m < eps /\
    forall j, (k <= j < m)%nat -> eps <= 1 - psum lam j.
Proof.
  induction fuel; intros k l E; simpl in E; destruct (rleP eps (1 - psum lam k)) as [L|L]; try discriminate.
  - injection E as <-. exists k. splits; auto; try lra; try lia. replace (S k - k)%nat with 1%nat by lia. reflexivity.
  - rewrite poisson_step, <- psum_S, <- S_INR in E.
    destruct (poisson_loop fuel lam eps (INR (S k)) (poisson_law lam (S k)) (psum lam (S k))) as [l'|] eqn:E'; try discriminate.
    injection E as <-. destruct (IHfuel _ _ E') as (m & H1 & -> & H3 & H4). exists m. splits; auto; try lia.
    + replace (S m - k)%nat with (S (S m - S k)) by lia. reflexivity.
    + intros j Hj. destruct (Nat.eq_dec j k) as [->|]; auto. apply H4; lia.
  - injection E as <-. exists k. splits; auto; try lra; try lia. replace (S k - k)%nat with 1%nat by lia. reflexivity.
Qed.
Lemma poisson_loop_runs lam eps m : 1 - psum lam m < eps -> forall fuel k, (k <= m)%nat -> (m <= k + fuel)%nat ->
  exists l, poisson_loop fuel lam eps (INR k) (poisson_law lam k) (psum lam k) = Some l.
Proof.
  intros HM. induction fuel; intros k H1 H2; simpl; destruct (rleP eps (1 - psum lam k)) as [L|L]; eauto.
  - assert (k = m) by lia. subst. lra.
  - rewrite poisson_step, <- psum_S, <- S_INR. destruct (Nat.eq_dec k m) as [->|]; [lra|].
    destruct (IHfuel (S k)) as (l & ->); try lia. eauto.
Qed.
Lemma psum_exp lam m : psum lam m = exp (- lam) * sum_f_R0 (fun i => / INR (fact i) * lam ^ i) m.
Proof.
  unfold psum. rewrite rsum_sum_f. rewrite scal_sum. apply sum_eq. intros i _. unfold poisson_law. unfold Rdiv. ring.
Qed.
Lemma psum_lim lam e : 0 < e -> exists N, forall m, (N <= m)%nat -> Rabs (psum lam m - 1) < e.
Proof.
  intros He. pose proof (proj2_sig (exist_exp lam)) as H. change (proj1_sig (exist_exp lam)) with (exp lam) in H. unfold exp_in, infinite_sum in H.
  destruct (H (e * exp lam)) as (N & HN); [apply Rmult_gt_0_compat; auto; apply exp_pos|].
  exists N. intros m Hm. specialize (HN m Hm). unfold R_dist in HN. rewrite psum_exp.
  replace 1 with (exp (- lam) * exp lam) by (rewrite <- exp_plus, Rplus_opp_l; apply exp_0).
  rewrite <- Rmult_minus_distr_l, Rabs_mult, (Rabs_right (exp (- lam))) by (pose proof (exp_pos (- lam)); lra).
  replace e with (exp (- lam) * (e * exp lam)).
  - apply Rmult_lt_compat_l; auto. apply exp_pos.
  - transitivity (e * (exp (- lam) * exp lam)); [ring|]. rewrite <- exp_plus, Rplus_opp_l, exp_0. ring.
Qed.
Lemma poisson_nonneg lam k : 0 <= lam -> 0 <= poisson_law lam k.
Proof.
  intros H. unfold poisson_law. apply Rmult_le_pos; [apply Rmult_le_pos; [left; apply exp_pos|apply pow_le; auto]|].
  left. apply Rinv_0_lt_compat, factR_pos.
Qed.
Lemma psum_mono lam m n : 0 <= lam -> (m <= n)%nat -> psum lam m <= psum lam n.
Proof. intros H. induction 1; [lra|]. rewrite psum_S. pose proof (poisson_nonneg lam (S m0) H). lra. Qed.
Lemma psum_le1 lam m : 0 <= lam -> psum lam m <= 1.
Proof.
  intros H. apply Rnot_lt_le. intros L. destruct (psum_lim lam (psum lam m - 1)) as (N & HN); [lra|].
  pose proof (HN (Nat.max N m) ltac:(lia)) as B. pose proof (psum_mono lam m (Nat.max N m) H ltac:(lia)).
  rewrite Rabs_right in B by lra. lra.
Qed.

(** ** truncated laws *)
Lemma trunc_loop_spec fn eps : forall fuel k S l tot, trunc_loop fuel fn eps (INR k) S = Some (l, tot) ->
  tot = S + rsum (map snd l) /\ Rabs (tot - 1) < eps /\ l = map (fun i => (INR i, fn (INR i))) (seq k (length l)).
Proof.
  induction fuel; intros k S l tot E; simpl in E; destruct (rleP eps (Rabs (S - 1))) as [L|L]; try discriminate.
  - injection E as <- <-. simpl. splits; auto; lra.
  - rewrite <- S_INR in E. destruct (trunc_loop fuel fn eps (INR (Datatypes.S k)) (S + fn (INR k))) as [[l' t']|] eqn:E'; try discriminate.
    injection E as <- <-. destruct (IHfuel _ _ _ _ E') as (H1 & H2 & H3). splits; auto.
    + simpl. lra.
    + simpl. f_equal. exact H3.
  - injection E as <- <-. simpl. splits; auto; lra.
Qed.
