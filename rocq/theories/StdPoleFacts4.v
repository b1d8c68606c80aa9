(** Monotone pieces: the break points at the mode. *)
From Coq Require Import Reals Lra Lia List Bool Sorted Arith.
From Coquelicot Require Import Coquelicot.
From Verif Require Import Base Seg Piecewise PiecewiseSpec Integral SegIntSpec Std StdSpec StdPoleSpec.
From Verif Require Import PiecewiseFacts2 IntegralFacts CumintFacts CumintFacts2 StdFacts StdFacts2 StdFacts3 StdFacts4 StdPoleFacts.
Import List ListNotations.
Open Scope R_scope.

Lemma pm_add eps l a b : l <> [] -> Forall (fun s => isDirac s = false) l -> Forall wf_seg l -> path a l b ->
  Forall (fun s => rising (sf s) (sa s) (sb s) \/ falling (sf s) (sa s) (sb s)) l -> pieces_monotone (addAll eps empty_pwf l).
Proof. intros N D W P T. destruct (init_ok eps l a b D W P) as (q & E & S). exists q. rewrite S. auto. Qed.

Lemma pm_make eps f bp lp : StronglySorted Rbar_lt bp -> (3 <= length bp)%nat -> length lp = length bp ->
  (forall j, (S j < length bp)%nat -> rising f (nth j bp m_infty) (nth (S j) bp m_infty) \/ falling f (nth j bp m_infty) (nth (S j) bp m_infty)) ->
  pieces_monotone (make_pwf eps f bp lp (no_poles bp)).
Proof.
  intros HS N HL B.
  destruct (make_ok eps f bp lp (no_poles bp) HS HL) as (q & E1 & E2 & E3 & P & W & PO).
  - unfold no_poles. apply map_length.
  - intros i _ _ _. right. apply no_poles_flag.
  - intros i _ X. rewrite no_poles_flag in X. discriminate.
  - lia.
  - lia.
  - exists q. splits; auto. { intros E. rewrite E in E3. simpl in E3. lia. }
    apply Forall_forall. intros s Hs. apply In_nth_error in Hs. destruct Hs as (j & Hj). pose proof (PO j s Hj) as (O1 & O2 & O3 & O4 & O5 & O6).
    assert (J : (S j < length bp)%nat). { rewrite <- E3. apply -> Nat.succ_lt_mono. apply nth_error_Some. congruence. }
    destruct (B j J) as [H|H]; [left|right]; intros x y; rewrite O2, O3, !O4; apply H.
Qed.

Lemma rise_exp (f g dg : R -> R) (K : R) (a b : Rbar) : 0 < K -> (forall x : R, Rbar_lt a x -> Rbar_lt x b -> f x = K * exp (g x)) ->
  (forall x : R, Rbar_lt a x -> Rbar_lt x b -> is_derive g x (dg x)) -> (forall x : R, Rbar_lt a x -> Rbar_lt x b -> 0 < dg x) -> rising f a b.
Proof.
  intros HK E D P x y X XY Y. rewrite !E by (auto; try (eapply Rbar_lt_trans; [exact X|exact XY]); try (eapply Rbar_lt_trans; [|exact Y]; exact XY)).
  apply Rmult_lt_compat_l; auto. apply exp_increasing. apply (incr_function g a b dg); auto.
Qed.
Lemma fall_exp (f g dg : R -> R) (K : R) (a b : Rbar) : 0 < K -> (forall x : R, Rbar_lt a x -> Rbar_lt x b -> f x = K * exp (g x)) ->
  (forall x : R, Rbar_lt a x -> Rbar_lt x b -> is_derive g x (dg x)) -> (forall x : R, Rbar_lt a x -> Rbar_lt x b -> dg x < 0) -> falling f a b.
Proof.
  intros HK E D P x y X XY Y. rewrite !E by (auto; try (eapply Rbar_lt_trans; [exact X|exact XY]); try (eapply Rbar_lt_trans; [|exact Y]; exact XY)).
  apply Rmult_lt_compat_l; auto. apply exp_increasing.
  assert (- g x < - g y); [|lra]. apply (incr_function (fun x => - g x) a b (fun x => - dg x)); auto.
  - intros z Z1 Z2. apply (is_derive_opp g z (dg z)). auto.
  - intros z Z1 Z2. specialize (P z Z1 Z2). lra.
Qed.

Lemma gamma_pm lg eps k theta : 0 < k -> 0 < theta -> pieces_monotone (gamma_init lg eps k theta).
Proof.
  intros K T. unfold gamma_init. rewrite (proj2 (rlt_true _ _) K), (proj2 (rlt_true _ _) T). cbn [andb]. cbv zeta.
  set (f := gamma_f lg k theta).
  assert (EF : forall x : R, 0 < x -> f x = 1 * exp (gamma_log_pdf lg k theta x)).
  { intros x X. unfold f, gamma_f, gamma_pdf. destruct (rltP x 0); [lra|]. destruct (reqP x 0); [lra|]. cbn [real]. ring. }
  assert (DF : forall x : R, 0 < x -> is_derive (fun x => gamma_log_pdf lg k theta x) x ((k - 1) / x - 1 / theta)).
  { intros x X. unfold gamma_log_pdf. auto_derive; auto. field. lra. }
  assert (SG : forall x : R, 0 < x -> (k - 1) / x - 1 / theta = ((k - 1) * theta - x) * (/ (x * theta))) by (intros; field; lra).
  assert (IV : forall x : R, 0 < x -> 0 < / (x * theta)) by (intros; apply Rinv_0_lt_compat, Rmult_lt_0_compat; auto).
  assert (UP : forall a b : R, 0 <= a -> b <= (k - 1) * theta -> rising f a b).
  { intros a b A B. apply (rise_exp f (fun x => gamma_log_pdf lg k theta x) (fun x => (k - 1) / x - 1 / theta) 1); [lra|..]; simpl; intros x X1 X2.
    - apply EF; lra.
    - apply DF; lra.
    - rewrite SG by lra. apply Rmult_lt_0_compat; [lra|apply IV; lra]. }
  assert (DN : forall (a : R) b, 0 <= a -> (k - 1) * theta <= a -> falling f a b).
  { intros a b A B. apply (fall_exp f (fun x => gamma_log_pdf lg k theta x) (fun x => (k - 1) / x - 1 / theta) 1); [lra|..]; intros x X1 X2; simpl in X1.
    - apply EF; lra.
    - apply DF; lra.
    - rewrite SG by lra. assert (0 < (x - (k - 1) * theta) * / (x * theta)); [apply Rmult_lt_0_compat; [lra|apply IV; lra]|lra]. }
  assert (M0 : k <= 1 -> (k - 1) * theta <= 0) by (intros; nra).
  destruct (rltP k 1) as [H|H]; [|destruct (reqP k 1) as [E|E]].
  - apply (pm_add _ _ (Finite 0) p_infty); [discriminate|repeat constructor|repeat constructor; simpl; lra|repeat split; simpl; auto|].
    repeat apply Forall_cons; try apply Forall_nil; right; apply DN; simpl; lra.
  - apply (pm_add _ _ (Finite 0) p_infty); [discriminate|repeat constructor|repeat constructor; simpl; lra|repeat split; simpl; auto|].
    repeat apply Forall_cons; try apply Forall_nil; right; apply DN; simpl; lra.
  - set (m := (k - 1) * theta) in *. assert (0 < m) by (apply Rmult_lt_0_compat; lra).
    apply (pm_add _ _ (Finite 0) p_infty); [discriminate|repeat constructor|repeat constructor; simpl; lra|repeat split; simpl; auto|].
    repeat apply Forall_cons; try apply Forall_nil; [left; apply UP|left; apply UP|right; apply DN|right; apply DN]; simpl; lra.
Qed.

Lemma fdist_pm lg eps d1 d2 : 0 < d1 -> 0 < d2 -> pieces_monotone (fdist_init lg eps d1 d2).
Proof.
  intros D1 D2. unfold fdist_init. cbv zeta. set (f := fdist_f lg d1 d2).
  set (c0 := d2 / 2 * ln d2 + lg ((d1 + d2) / 2) - lg (d1 / 2) - lg (d2 / 2)).
  set (g := fun x : R => c0 + 0.5 * (d1 * ln (d1 * x) - (d1 + d2) * ln (d1 * x + d2)) - ln x).
  set (dg := fun x : R => ((d1 - 2) * d2 - d1 * (d2 + 2) * x) * / (2 * x * (d1 * x + d2))).
  assert (EF : forall x : R, 0 < x -> f x = 1 * exp (g x)).
  { intros x X. unfold f, fdist_f, fdist_pdf. cbv zeta. destruct (rltP x 0); [lra|]. destruct (reqP x 0); [lra|]. cbn [real]. unfold g, c0. ring. }
  assert (PX : forall x : R, 0 < x -> 0 < d1 * x) by (intros; apply Rmult_lt_0_compat; auto).
  assert (DF : forall x : R, 0 < x -> is_derive g x (dg x)).
  { intros x X. specialize (PX x X). unfold g, dg. auto_derive; [splits; auto; lra|]. replace 0.5 with (/ 2) by lra. field. lra. }
  assert (IV : forall x : R, 0 < x -> 0 < / (2 * x * (d1 * x + d2))).
  { intros x X. specialize (PX x X). apply Rinv_0_lt_compat, Rmult_lt_0_compat; lra. }
  assert (UP : forall a b : R, 0 <= a -> d1 * (d2 + 2) * b <= (d1 - 2) * d2 -> rising f a b).
  { intros a b A B. apply (rise_exp f g dg 1); [lra|..]; simpl; intros x X1 X2.
    - apply EF; lra.
    - apply DF; lra.
    - unfold dg. apply Rmult_lt_0_compat; [|apply IV; lra].
      assert (d1 * (d2 + 2) * x < d1 * (d2 + 2) * b); [|lra]. apply Rmult_lt_compat_l; [apply Rmult_lt_0_compat; lra|auto]. }
  assert (DN : forall (a : R) b, 0 <= a -> (d1 - 2) * d2 <= d1 * (d2 + 2) * a -> falling f a b).
  { intros a b A B. apply (fall_exp f g dg 1); [lra|..]; intros x X1 X2; simpl in X1.
    - apply EF; lra.
    - apply DF; lra.
    - unfold dg. assert (0 < (d1 * (d2 + 2) * x - (d1 - 2) * d2) * / (2 * x * (d1 * x + d2))); [|lra].
      apply Rmult_lt_0_compat; [|apply IV; lra].
      assert (d1 * (d2 + 2) * a < d1 * (d2 + 2) * x); [|lra]. apply Rmult_lt_compat_l; [apply Rmult_lt_0_compat; lra|auto]. }
  assert (M0 : d1 <= 2 -> forall a, 0 <= a -> (d1 - 2) * d2 <= d1 * (d2 + 2) * a).
  { intros L a A. assert (0 <= d1 * (d2 + 2) * a) by (apply Rmult_le_pos; auto; apply Rmult_le_pos; lra). nra. }
  destruct (rltP d1 2) as [H|H]; [|destruct (reqP d1 2) as [E|E]].
  - apply (pm_add _ _ (Finite 0) p_infty); [discriminate|repeat constructor|repeat constructor; simpl; lra|repeat split; simpl; auto|].
    repeat apply Forall_cons; try apply Forall_nil; right; apply DN; try apply M0; simpl; lra.
  - apply (pm_add _ _ (Finite 0) p_infty); [discriminate|repeat constructor|repeat constructor; simpl; lra|repeat split; simpl; auto|].
    repeat apply Forall_cons; try apply Forall_nil; right; apply DN; try apply M0; simpl; lra.
  - set (m := (d1 - 2) / d1 * d2 / (d2 + 2)).
    assert (0 < m). { unfold m. apply Rdiv_lt_0_compat; [|lra]. apply Rmult_lt_0_compat; [|lra]. apply Rdiv_lt_0_compat; lra. }
    assert (MM : d1 * (d2 + 2) * m = (d1 - 2) * d2) by (unfold m; field; lra).
    assert (MP : d1 * (d2 + 2) * m <= d1 * (d2 + 2) * (m + 1)) by (apply Rmult_le_compat_l; [apply Rmult_le_pos; lra|lra]).
    apply (pm_add _ _ (Finite 0) p_infty); [discriminate|repeat constructor|repeat constructor; simpl; lra|repeat split; simpl; auto|].
    repeat apply Forall_cons; try apply Forall_nil; [left; apply UP|right; apply DN|right; apply DN]; simpl; lra.
Qed.

Lemma weibull_pm eps k lmbda : 0 < k -> 0 < lmbda -> pieces_monotone (weibull_init eps k lmbda).
Proof.
  intros K L. unfold weibull_init. rewrite (proj2 (rlt_true _ _) K), (proj2 (rlt_true _ _) L). cbn [andb]. cbv zeta.
  set (f := weibull_f k lmbda). set (g := fun x : R => ln (x / lmbda) * (k - 1) - Rpower (x / lmbda) k).
  set (dg := fun x : R => (k - 1 - k * Rpower (x / lmbda) k) * / x).
  assert (PX : forall x : R, 0 < x -> 0 < x / lmbda) by (intros; apply Rdiv_lt_0_compat; auto).
  assert (EF : forall x : R, 0 < x -> f x = k / lmbda * exp (g x)).
  { intros x X. unfold f, weibull_f, weibull_pdf. destruct (rltP x 0); [lra|]. destruct (reqP x 0); [lra|]. reflexivity. }
  assert (DF : forall x : R, 0 < x -> is_derive g x (dg x)).
  { intros x X. specialize (PX x X). unfold g, dg, Rpower, Rdiv. auto_derive; [splits; auto|]. set (e := exp (k * ln (x * / lmbda))). field. lra. }
  assert (KL : 0 < k / lmbda) by (apply Rdiv_lt_0_compat; auto).
  assert (MO : forall x y, 0 < x -> x < y -> Rpower (x / lmbda) k < Rpower (y / lmbda) k).
  { intros x y X XY. unfold Rpower. apply exp_increasing. apply Rmult_lt_compat_l; auto. apply ln_increasing; auto.
    apply Rmult_lt_compat_r; auto. apply Rinv_0_lt_compat; auto. }
  assert (DN : forall (a : R) b, 0 <= a -> k <= 1 \/ (0 < a /\ k - 1 <= k * Rpower (a / lmbda) k) -> falling f a b).
  { intros a b A B. apply (fall_exp f g dg (k / lmbda)); [auto|..]; intros x X1 X2; simpl in X1.
    - apply EF; lra.
    - apply DF; lra.
    - unfold dg. assert (0 < (k * Rpower (x / lmbda) k - (k - 1)) * / x); [|lra].
      apply Rmult_lt_0_compat; [|apply Rinv_0_lt_compat; lra]. pose proof (Rpower_pos (x / lmbda) k). destruct B as [B|(B0 & B)]; [nra|].
      pose proof (MO a x B0 X1). nra. }
  assert (UP : forall b : R, k - 1 = k * Rpower (b / lmbda) k -> rising f 0 b).
  { intros b B. apply (rise_exp f g dg (k / lmbda)); [auto|..]; simpl; intros x X1 X2.
    - apply EF; lra.
    - apply DF; lra.
    - unfold dg. apply Rmult_lt_0_compat; [|apply Rinv_0_lt_compat; lra]. pose proof (MO x b X1 X2). nra. }
  assert (G : forall b lp, 0 < b -> length lp = 3%nat -> k <= 1 \/ (1 < k /\ k - 1 = k * Rpower (b / lmbda) k) ->
     pieces_monotone (make_pwf eps f [Finite 0; Finite b; p_infty] lp (no_poles [Finite 0; Finite b; p_infty]))).
  { intros b lp B HL H. apply pm_make; [bps|simpl; lia|auto|]. intros [|[|[|j]]] J; simpl in J; try lia; cbn [nth].
    - destruct H as [H|(H1 & H2)]; [right; apply DN; auto; lra|left; apply UP; auto].
    - right. apply DN; [lra|]. destruct H as [H|(H1 & H2)]; auto. right. split; auto. lra. }
  destruct (rleP k 1) as [H|H]; [apply G; auto|].
  set (m := lmbda * Rpower ((k - 1) / k) (1 / k)).
  assert (P : 0 < m) by (apply Rmult_lt_0_compat; auto; apply Rpower_pos).
  assert (E : k - 1 = k * Rpower (m / lmbda) k).
  { assert (0 < (k - 1) / k) by (apply Rdiv_lt_0_compat; lra).
    replace (m / lmbda) with (Rpower ((k - 1) / k) (1 / k)) by (unfold m; field; lra). rewrite Rpower_mult.
    replace (1 / k * k) with 1 by (field; lra). rewrite Rpower_1 by auto. field. lra. }
  destruct (is_int k); apply G; auto; right; split; auto; lra.
Qed.
