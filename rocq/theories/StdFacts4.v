(** Textbook distribution functions of the named distributions, part 2. *)
From Coq Require Import Reals Lra List Bool Sorted Arith Lia.
From Coquelicot Require Import Coquelicot.
From Verif Require Import Base Seg Piecewise PiecewiseSpec PiecewiseFacts2 Integral IntegralFacts SegIntSpec CumintFacts CumintFacts2 Std StdSpec StdFacts StdFacts2 StdFacts3.
Import List ListNotations.
Open Scope R_scope.

Lemma no_poles_flag bp i : flag (no_poles bp) i = false.
Proof. unfold flag, no_poles. revert i. induction bp; intros [|i]; simpl; auto. Qed.

Lemma law_make eps f H bp lp F : StronglySorted Rbar_lt bp -> (3 <= length bp)%nat -> length lp = length bp ->
  let a := nth 0 bp m_infty in let b := nth (length bp - 1) bp m_infty in
  (forall x : R, RbarIn a b x -> 0 <= f x) ->
  (forall x : R, RbarIn a b x -> is_derive H x (f x)) ->
  (forall x : R, RbarIn a b x -> continuous f x) ->
  filterlim H (at_r a) (locally 0) -> filterlim H (at_l b) (locally 1) ->
  (forall x : R, F x = within a b H x) -> law (make_pwf eps f bp lp (no_poles bp)) a b F.
Proof.
  intros S N L a b NN D C La Lb HF.
  destruct (make_ok eps f bp lp (no_poles bp) S L) as (q & E1 & E2 & E3 & P & W & PO).
  - unfold no_poles. rewrite map_length. auto.
  - intros i _ _ _. right. apply no_poles_flag.
  - intros i _ X. rewrite no_poles_flag in X. discriminate.
  - lia.
  - intros; lia.
  - apply (law_ftc _ (segs q) q f H a b F); auto.
    + intros X. rewrite X in E3. simpl in E3. lia.
    + apply Forall_forall. intros s Hs. rewrite Forall_forall in W. destruct (In_nth_error _ _ Hs) as (j & Hj).
      destruct (PO j s Hj) as (O1 & _ & _ & O4 & _ & O6). rewrite no_poles_flag, andb_false_r in O6.
      repeat split; auto. intros X. congruence.
    + apply sorted_nth; auto; lia.
Qed.

(** break points *)
Ltac bps := repeat first [apply SSorted_cons | apply SSorted_nil | apply Forall_cons | apply Forall_nil]; simpl; auto.

(** powers *)
Lemma Rpower_pos x y : 0 < Rpower x y.
Proof. apply exp_pos. Qed.

Lemma weibull_facts k lmbda : 0 < k -> 0 < lmbda ->
  (forall x : R, RbarIn 0 p_infty x -> 0 <= weibull_f k lmbda x) /\
  (forall x : R, RbarIn 0 p_infty x -> is_derive (fun x => 1 - exp (- Rpower (x / lmbda) k)) x (weibull_f k lmbda x)) /\
  (forall x : R, RbarIn 0 p_infty x -> continuous (weibull_f k lmbda) x) /\
  filterlim (fun x => 1 - exp (- Rpower (x / lmbda) k)) (at_r 0) (locally 0) /\
  filterlim (fun x => 1 - exp (- Rpower (x / lmbda) k)) (at_l p_infty) (locally 1).
Proof.
  intros K L.
  assert (E : forall x : R, RbarIn 0 p_infty x -> k / lmbda * exp (ln (x / lmbda) * (k - 1) - exp (k * ln (x / lmbda))) = weibull_f k lmbda x).
  { intros x (X & _). simpl in X. unfold weibull_f, weibull_pdf. destruct (rltP x 0); [lra|]. destruct (reqP x 0); [lra|]. auto. }
  splits.
  - intros x X. rewrite <- E by auto. apply Rlt_le, Rmult_lt_0_compat; [apply Rdiv_lt_0_compat; auto|apply exp_pos].
  - intros x X. rewrite <- E by auto. destruct X as (X & _). simpl in X. unfold Rpower.
    assert (Y : 0 < x / lmbda) by (apply Rdiv_lt_0_compat; auto).
    auto_derive; [exact Y|].
    replace (ln (x / lmbda) * (k - 1) - exp (k * ln (x / lmbda))) with ((k * ln (x / lmbda) + - ln (x / lmbda)) + - exp (k * ln (x / lmbda))) by ring.
    rewrite !exp_plus, (exp_Ropp (ln (x / lmbda))), exp_ln by auto. unfold Rdiv. field. lra.
  - intros x X. apply (loc_cont _ _ 0 p_infty x X E). destruct X as (X & _). simpl in X.
    assert (Y : 0 < x / lmbda) by (apply Rdiv_lt_0_compat; auto).
    apply der_cont. auto_derive. splits; auto; lra.
  - simpl. apply (lim_one_minus _ _ 1); [ring|].
    apply (lim_exp_0 (at_right 0)). unfold Rpower. apply (lim_exp_m (at_right 0)).
    apply (lim_aff_mm _ (fun x => ln ((x - 0) / lmbda)) _ 0 k); [|auto|apply lim_ln_shift; auto].
    intros x. rewrite Rminus_0_r. ring.
  - simpl. apply (lim_one_minus _ _ 0); [ring|]. apply (lim_exp_m (Rbar_locally p_infty)).
    apply (lim_aff_pm _ (fun x => Rpower (x / lmbda) k) _ 0 (-1)); [intros; ring|lra|].
    unfold Rpower. apply (lim_exp_p (Rbar_locally p_infty)).
    apply (lim_aff_pp _ (fun x => ln ((x - 0) / lmbda)) _ 0 k); [|auto|apply lim_ln_shift_p; auto].
    intros x. rewrite Rminus_0_r. ring.
Qed.

Lemma weibull_law eps k lmbda : 0 < k -> 0 < lmbda -> law (weibull_init eps k lmbda) 0 p_infty (weibull_cdf k lmbda).
Proof.
  intros K L. unfold weibull_init. cbv zeta. rewrite (proj2 (rlt_true _ _) K), (proj2 (rlt_true _ _) L). cbn [andb].
  destruct (weibull_facts k lmbda K L) as (F1 & F2 & F3 & F4 & F5).
  assert (G : forall b lp, 0 < b -> length lp = 3%nat ->
     law (make_pwf eps (weibull_f k lmbda) [Finite 0; Finite b; p_infty] lp (no_poles [Finite 0; Finite b; p_infty])) 0 p_infty (weibull_cdf k lmbda)).
  { intros b lp B Hl.
    apply (law_make eps (weibull_f k lmbda) (fun x => 1 - exp (- Rpower (x / lmbda) k)) [Finite 0; Finite b; p_infty] lp); auto. bps. }
  destruct (rleP k 1) as [H|H]; [apply G; auto|].
  assert (B : 0 < lmbda * Rpower ((k - 1) / k) (1 / k)) by (apply Rmult_lt_0_compat; auto; apply Rpower_pos).
  destruct (is_int k); apply G; auto.
Qed.

(** log-logistic *)
Lemma loglog_facts k s : 0 < k -> 0 < s ->
  (forall x : R, RbarIn 0 p_infty x -> 0 <= loglog_pdf k s x) /\
  (forall x : R, RbarIn 0 p_infty x -> is_derive (fun x => Rpower x k / (Rpower s k + Rpower x k)) x (loglog_pdf k s x)) /\
  (forall x : R, RbarIn 0 p_infty x -> continuous (loglog_pdf k s) x) /\
  filterlim (fun x => Rpower x k / (Rpower s k + Rpower x k)) (at_r 0) (locally 0) /\
  filterlim (fun x => Rpower x k / (Rpower s k + Rpower x k)) (at_l p_infty) (locally 1).
Proof.
  intros K S.
  assert (PP : forall x, 0 < exp (k * ln s) + exp (k * ln x)) by (intros x; apply Rplus_lt_0_compat; apply exp_pos).
  assert (E : forall x : R, RbarIn 0 p_infty x -> exp (ln k + k * ln s + (k - 1) * ln x - 2 * ln (exp (k * ln s) + exp (k * ln x))) = loglog_pdf k s x).
  { intros x (X & _). simpl in X. unfold loglog_pdf. destruct (rleP 0 x); [|lra]. auto. }
  splits.
  - intros x X. rewrite <- E by auto. apply Rlt_le, exp_pos.
  - intros x X. rewrite <- E by auto. destruct X as (X & _). simpl in X. unfold Rpower. specialize (PP x).
    auto_derive; [splits; auto; lra|].
    replace (ln k + k * ln s + (k - 1) * ln x - 2 * ln (exp (k * ln s) + exp (k * ln x)))
      with (ln k + k * ln s + k * ln x + - ln x + - ln (exp (k * ln s) + exp (k * ln x)) + - ln (exp (k * ln s) + exp (k * ln x))) by ring.
    rewrite !exp_plus, !exp_Ropp, !exp_ln by auto. field. split; lra.
  - intros x X. apply (loc_cont _ _ 0 p_infty x X E). destruct X as (X & _). simpl in X. specialize (PP x).
    apply der_cont. auto_derive. splits; auto; lra.
  - simpl.
    apply (filterlim_ext (fun x => 1 - Rpower s k / (Rpower s k + Rpower x k))).
    { intros x. unfold Rpower. specialize (PP x). field. lra. }
    apply (lim_one_minus _ _ 1); [ring|].
    apply (lim_der (at_right 0) (fun y => Rpower s k / (Rpower s k + y)) (fun x => Rpower x k) 0).
    + pose proof (Rpower_pos s k). auto_derive. lra.
    + pose proof (Rpower_pos s k). field. lra.
    + unfold Rpower. apply (lim_exp_m (at_right 0)).
      apply (lim_aff_mm _ ln _ 0 k); [intros; ring|auto|apply is_lim_ln_0].
  - simpl.
    apply (filterlim_ext (fun x => 1 / (1 + Rpower s k * exp (- k * ln x)))).
    { intros x. unfold Rpower. specialize (PP x). replace (- k * ln x) with (- (k * ln x)) by ring. rewrite exp_Ropp. field.
      pose proof (exp_pos (k * ln x)). lra. }
    apply (lim_der (Rbar_locally p_infty) (fun y => 1 / (1 + Rpower s k * y)) (fun x => exp (- k * ln x)) 0).
    + auto_derive. lra.
    + field.
    + apply (lim_exp_m (Rbar_locally p_infty)).
      apply (lim_aff_pm _ ln _ 0 (- k)); [intros; ring|lra|apply lim_ln_p].
Qed.

Lemma loglog_breaks_sorted k s : 0 < k -> 0 < s -> StronglySorted Rbar_lt (loglog_breaks k s).
Proof.
  intros K S. unfold loglog_breaks. cbv zeta.
  destruct (rltP 1 k) as [H|H]; [|bps; lra].
  set (p1 := 2 * (k ^ 2 - 1)). set (p2 := k * sqrt (3 * (k ^ 2 - 1))). set (p3 := (k + 1) * (k + 2)).
  assert (K2 : 1 < k ^ 2) by nra.
  assert (P3 : 0 < p3) by (unfold p3; nra).
  assert (SQ : 0 < sqrt (3 * (k ^ 2 - 1))) by (apply sqrt_lt_R0; lra).
  assert (P2 : 0 < p2) by (unfold p2; apply Rmult_lt_0_compat; auto; lra).
  assert (A : 0 < s * Rpower ((p1 + p2) / p3) (1 / k)) by (apply Rmult_lt_0_compat; auto; apply Rpower_pos).
  assert (B : 0 < s * Rpower ((p1 - p2) / p3) (1 / k)) by (apply Rmult_lt_0_compat; auto; apply Rpower_pos).
  destruct (rltP 2 k) as [H2|H2]; simpl app.
  - assert (PM : 0 < p1 - p2).
    { assert (Sq : sqrt (3 * (k ^ 2 - 1)) * sqrt (3 * (k ^ 2 - 1)) = 3 * (k ^ 2 - 1)) by (apply sqrt_sqrt; lra).
      assert (K4 : 4 < k ^ 2) by nra.
      assert (p2 * p2 < p1 * p1).
      { replace (p2 * p2) with (k ^ 2 * (3 * (k ^ 2 - 1))) by (transitivity (k ^ 2 * (sqrt (3 * (k ^ 2 - 1)) * sqrt (3 * (k ^ 2 - 1)))); [rewrite Sq; auto|unfold p2; ring]).
        replace (p1 * p1) with (4 * (k ^ 2 - 1) * (k ^ 2 - 1)) by (unfold p1; ring). nra. }
      assert (0 < p1) by (unfold p1; lra). nra. }
    assert (C : s * Rpower ((p1 - p2) / p3) (1 / k) < s * Rpower ((p1 + p2) / p3) (1 / k)).
    { apply Rmult_lt_compat_l; auto. unfold Rpower. apply exp_increasing. apply Rmult_lt_compat_l.
      - apply Rdiv_lt_0_compat; lra.
      - apply ln_increasing; [apply Rdiv_lt_0_compat; auto|].
        unfold Rdiv. apply Rmult_lt_compat_r; [apply Rinv_0_lt_compat; auto|lra]. }
    bps.
  - bps.
Qed.

Lemma loglog_law eps k s : 0 < k -> 0 < s -> law (loglog_init eps k s) 0 p_infty (loglog_cdf k s).
Proof.
  intros K S. unfold loglog_init. destruct (rleP k 0); [lra|]. destruct (rleP s 0); [lra|]. cbv zeta.
  destruct (loglog_facts k s K S) as (F1 & F2 & F3 & F4 & F5).
  pose proof (loglog_breaks_sorted k s K S) as SB.
  set (lp := (rlt k 1 || negb (is_int k))%bool :: map (fun _ => false) (tl (loglog_breaks k s))).
  assert (B0 : nth 0 (loglog_breaks k s) m_infty = Finite 0) by reflexivity.
  assert (BN : nth (length (loglog_breaks k s) - 1) (loglog_breaks k s) m_infty = p_infty).
  { unfold loglog_breaks. cbv zeta. destruct (rlt 1 k); [destruct (rlt 2 k)|]; reflexivity. }
  assert (L3 : (3 <= length (loglog_breaks k s))%nat).
  { unfold loglog_breaks. cbv zeta. destruct (rlt 1 k); [destruct (rlt 2 k)|]; simpl; lia. }
  pose proof (law_make eps (loglog_pdf k s) (fun x => Rpower x k / (Rpower s k + Rpower x k)) (loglog_breaks k s) lp (loglog_cdf k s) SB L3) as LM.
  cbv zeta in LM. rewrite B0, BN in LM. apply LM; auto.
  unfold lp. simpl. rewrite map_length. destruct (loglog_breaks k s); simpl in *; lia.
Qed.
