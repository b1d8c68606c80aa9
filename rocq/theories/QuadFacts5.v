(** Facts: continuous functions are approximated by polynomials (Bernstein), hence both rules converge. *)
From Coq Require Import Reals Lra Lia List Bool Arith.
From Coquelicot Require Import Coquelicot.
From Verif Require Import Base InterpSpec PolyFacts Interp QuadFacts QuadFacts2 QuadFacts3 QuadFacts4.
Import List ListNotations.
Open Scope R_scope.

(** mean of g over a binomial number of successes *)
Fixpoint E (n : nat) (g : nat -> R) (x : R) : R :=
  match n with O => g 0%nat | S n' => (1 - x) * E n' g x + x * E n' (fun k => g (S k)) x end.
Lemma E_ext n : forall g h x, (forall k, (k <= n)%nat -> g k = h k) -> E n g x = E n h x.
Proof. induction n; intros g h x H; simpl; [apply H; lia|]. rewrite (IHn g h), (IHn (fun k => g (S k)) (fun k => h (S k))); auto. intros. apply H. lia. Qed.
Lemma E_const n c x : E n (fun _ => c) x = c.
Proof. induction n; simpl; auto. rewrite IHn. ring. Qed.
Lemma E_plus n : forall g h x, E n (fun k => g k + h k) x = E n g x + E n h x.
Proof. induction n; intros; simpl; auto. rewrite !IHn. ring. Qed.
Lemma E_scal n c : forall g x, E n (fun k => c * g k) x = c * E n g x.
Proof. induction n; intros; simpl; auto. rewrite !IHn. ring. Qed.
Lemma E_le n : forall g h x, 0 <= x <= 1 -> (forall k, (k <= n)%nat -> g k <= h k) -> E n g x <= E n h x.
Proof.
  induction n; intros g h x X H; simpl; [apply H; lia|].
  pose proof (IHn g h x X ltac:(intros; apply H; lia)). pose proof (IHn (fun k => g (S k)) (fun k => h (S k)) x X ltac:(intros; apply H; lia)). nra.
Qed.
Lemma E_abs n g x : 0 <= x <= 1 -> Rabs (E n g x) <= E n (fun k => Rabs (g k)) x.
Proof.
  intros X. apply Rabs_le. split.
  - replace (- E n (fun k => Rabs (g k)) x) with (E n (fun k => -1 * Rabs (g k)) x) by (rewrite E_scal; ring). apply E_le; auto. intros k _. pose proof (Rle_abs (- g k)) as P. rewrite Rabs_Ropp in P. lra.
  - apply E_le; auto. intros k _. apply Rle_abs.
Qed.
Lemma E_var n x : forall s, E n (fun k => (INR k - s) ^ 2) x = INR n * (x * (1 - x)) + (INR n * x - s) ^ 2.
Proof.
  induction n; intros s; [simpl; ring|]. cbn [E]. rewrite IHn. rewrite (E_ext n (fun k => (INR (S k) - s) ^ 2) (fun k => (INR k - (s - 1)) ^ 2)).
  - rewrite IHn, S_INR. ring.
  - intros k _. rewrite S_INR. f_equal. ring.
Qed.
Lemma E_poly n c d : forall g, poly_lt (S n) (fun t => E n g (c * t - d)).
Proof.
  induction n; intros g; [exact (poly_lt_const 0 (g 0%nat))|]. cbn [E].
  apply (poly_lt_ext (S (S n)) (fun t => (- c * t - (- (1 + d))) * E n g (c * t - d) + (c * t - d) * E n (fun k => g (S k)) (c * t - d))); [intros; ring|].
  apply poly_lt_plus; apply poly_lt_lin; apply IHn.
Qed.
Lemma weierstrass (f : R -> R) a b eps : a < b -> 0 < eps -> (forall t, a <= t <= b -> continuous f t) ->
  exists cs, forall t, a <= t <= b -> Rabs (f t - poly cs t) <= eps.
Proof.
  intros AB EP C.
  assert (CP : forall t, a <= t <= b -> continuity_pt f t) by (intros; apply continuity_pt_filterlim; apply C; auto).
  destruct (@Heine_cor2 f a b CP (mkposreal (eps / 2) ltac:(lra))) as [[de De] U]. simpl in U.
  assert (CA : forall t, a <= t <= b -> continuity_pt (fun z => Rabs (f z)) t).
  { intros t Ht. apply (continuity_pt_comp f Rabs); [apply CP; auto|]. apply Rcontinuity_abs. }
  destruct (continuity_ab_maj (fun z => Rabs (f z)) a b ltac:(lra) CA) as [z [Mz Hz]]. set (M := Rabs (f z)) in *. assert (M0 : 0 <= M) by apply Rabs_pos.
  set (K := 2 * M * (b - a) ^ 2 / de ^ 2). assert (K0 : 0 <= K). { unfold K. apply Rmult_le_pos; [|left; apply Rinv_0_lt_compat; apply pow_lt; lra]. apply Rmult_le_pos; [lra|apply pow2_ge_0]. }
  destruct (archimed_cor1 (eps / (2 * (K + 1))) ltac:(apply Rdiv_lt_0_compat; lra)) as [n [An N0]].
  assert (P : 0 < INR n) by (apply lt_0_INR; auto).
  set (g := fun k => f (a + (b - a) * (INR k / INR n))).
  destruct (E_poly n (/ (b - a)) (a / (b - a)) g) as [cs [_ Hcs]]. exists cs. intros t Ht. rewrite <- Hcs.
  set (x := / (b - a) * t - a / (b - a)). assert (Ex : t = a + (b - a) * x) by (unfold x; field; lra).
  assert (X : 0 <= x <= 1). { replace x with ((t - a) * / (b - a)) by (unfold x; field; lra). split; [apply Rmult_le_pos; [lra|left; apply Rinv_0_lt_compat; lra]|]. apply (Rmult_le_reg_r (b - a)); [lra|]. rewrite Rmult_assoc, Rinv_l by lra. lra. }
  replace (f t - E n g x) with (E n (fun k => f t + -1 * g k) x) by (rewrite E_plus, E_const, E_scal; ring).
  eapply Rle_trans; [apply E_abs; auto|].
  apply Rle_trans with (E n (fun k => eps / 2 + K / INR n ^ 2 * (INR k - INR n * x) ^ 2) x).
  - apply E_le; auto. intros k Hk. apply le_INR in Hk. pose proof (pos_INR k) as Pk. set (y := a + (b - a) * (INR k / INR n)).
    assert (Y : a <= y <= b).
    { assert (0 <= INR k / INR n <= 1). { split; [apply Rmult_le_pos; [lra|left; apply Rinv_0_lt_compat; lra]|]. apply (Rmult_le_reg_r (INR n)); [lra|]. unfold Rdiv. rewrite Rmult_assoc, Rinv_l by lra. lra. }
      unfold y. nra. }
    assert (Q : K / INR n ^ 2 * (INR k - INR n * x) ^ 2 = 2 * M * ((y - t) / de) ^ 2). { unfold K, y. rewrite Ex. field. lra. }
    rewrite Q. unfold g. fold y. replace (f t + -1 * f y) with (f t - f y) by ring. assert (S0 : 0 <= 2 * M * ((y - t) / de) ^ 2) by (pose proof (pow2_ge_0 ((y - t) / de)); nra).
    destruct (Rlt_le_dec (Rabs (t - y)) de) as [L|G].
    + pose proof (U t y Ht Y L). lra.
    + pose proof (Mz t Ht) as M1. pose proof (Mz y Y) as M2. simpl in M1, M2. pose proof (Rabs_triang (f t) (- f y)) as Tr. rewrite Rabs_Ropp in Tr. fold (f t - f y) in Tr.
      assert (1 <= ((y - t) / de) ^ 2).
      { rewrite <- Rsqr_pow2. replace 1 with (Rsqr 1) by (unfold Rsqr; ring). apply Rsqr_le_abs_1. rewrite Rabs_R1. unfold Rdiv. rewrite Rabs_mult, Rabs_minus_sym, (Rabs_right (/ de)) by (left; apply Rinv_0_lt_compat; lra).
        apply (Rmult_le_reg_r de); [lra|]. rewrite Rmult_assoc, Rinv_l by lra. lra. }
      nra.
  - rewrite E_plus, E_const, E_scal, E_var. replace (INR n * x - INR n * x) with 0 by ring.
    replace (K / INR n ^ 2 * (INR n * (x * (1 - x)) + 0 ^ 2)) with (K * (x * (1 - x)) * / INR n) by (field; lra).
    assert (x * (1 - x) <= 1) by nra. assert (0 <= x * (1 - x)) by nra. assert (I0 : 0 < / INR n) by (apply Rinv_0_lt_compat; auto).
    assert (B1 : K * (x * (1 - x)) * / INR n <= (K + 1) * (eps / (2 * (K + 1)))).
    { apply Rmult_le_compat; [nra|lra|nra|lra]. }
    replace ((K + 1) * (eps / (2 * (K + 1)))) with (eps / 2) in B1 by (field; lra). lra.
Qed.
(** both rules converge for every continuous function; Fejer's rule does not look at the ends *)
Lemma rule_converges (rule : nat -> (R -> R) -> R) (deg : nat -> nat) a b f : a < b -> (forall t, a <= t <= b -> continuous f t) ->
  (forall n cs d, (3 <= n)%nat -> (length cs <= deg n)%nat -> (forall t, a <= t <= b -> Rabs (f t - poly cs t) <= d) -> Rabs (rule n f - RInt f a b) <= 2 * (b - a) * d) ->
  (forall n, (n <= deg n + 3)%nat) -> is_lim_seq (fun n => rule n f) (RInt f a b).
Proof.
  intros AB C B D. apply is_lim_seq_spec. intros [eps EP]. simpl.
  destruct (weierstrass f a b (eps / (4 * (b - a))) AB) as [cs Hcs]; auto; [apply Rdiv_lt_0_compat; lra|].
  exists (length cs + 3)%nat. intros n Hn. specialize (D n).
  eapply Rle_lt_trans; [apply (B n cs (eps / (4 * (b - a)))); auto; lia|].
  replace (2 * (b - a) * (eps / (4 * (b - a)))) with (eps / 2) by (field; lra). lra.
Qed.
Lemma cont_ex (f : R -> R) a b : a <= b -> (forall t, a <= t <= b -> continuous f t) -> ex_RInt f a b.
Proof. intros AB C. apply (ex_RInt_continuous (V := R_CompleteNormedModule)). intros z. rewrite Rmin_left, Rmax_right by auto. auto. Qed.
Lemma cc_converges (f : R -> R) a b : a < b -> (forall t, a <= t <= b -> continuous f t) -> is_lim_seq (fun n => cc_rule n a b f) (RInt f a b).
Proof.
  intros AB C. apply (rule_converges (fun n => cc_rule n a b) (fun n => n + n mod 2)%nat); auto; [|intros; lia].
  intros n cs d H L Hd. apply (cc_bound n a b f cs d); auto; [lra|]. apply cont_ex; auto. lra.
Qed.
Lemma fe_inner n a b f g : (3 <= n)%nat -> a < b -> (forall t, a < t < b -> f t = g t) -> fe_rule n a b f = fe_rule n a b g.
Proof.
  intros H AB Ef. unfold fe_rule. do 2 f_equal. apply bsum_ext. intros j Hj. destruct (Nat.eq_dec j 0) as [->|D0]; [rewrite fe_w_0 by lia; ring|].
  destruct (Nat.eq_dec j (n - 1)) as [->|D1]; [rewrite fe_w_N by lia; ring|]. rewrite Ef; [reflexivity|]. rewrite raw_t. unfold half.
  assert (0 < INR (n - 1)) by (apply lt_0_INR; lia). assert (0 < INR j) by (apply lt_0_INR; lia). assert (INR j < INR (n - 1)) by (apply lt_INR; lia). pose proof PI_RGT_0.
  assert (A0 : 0 < INR j * PI / INR (n - 1)) by (apply Rdiv_lt_0_compat; nra).
  assert (A1 : INR j * PI / INR (n - 1) < PI). { apply (Rmult_lt_reg_r (INR (n - 1))); auto. unfold Rdiv. rewrite Rmult_assoc, Rinv_l by lra. nra. }
  assert (cos (INR j * PI / INR (n - 1)) < 1) by (rewrite <- cos_0; apply cos_decreasing_1; lra).
  assert (-1 < cos (INR j * PI / INR (n - 1))) by (rewrite <- cos_PI; apply cos_decreasing_1; lra). nra.
Qed.
Lemma fe_converges (f g : R -> R) a b : a < b -> (forall t, a <= t <= b -> continuous g t) -> (forall t, a < t < b -> f t = g t) -> is_lim_seq (fun n => fe_rule n a b f) (RInt f a b).
Proof.
  intros AB C Ef. apply (is_lim_seq_ext_loc (fun n => fe_rule n a b g)).
  - exists 3%nat. intros n H. symmetry. apply fe_inner; auto.
  - replace (RInt f a b) with (RInt g a b).
    + apply (rule_converges (fun n => fe_rule n a b) (fun n => n - 2 + n mod 2)%nat); auto; [|intros; lia].
      intros n cs d H L Hd. apply (fe_bound n a b g cs d); auto; [lra|]. apply cont_ex; auto. lra.
    + apply RInt_ext. intros x. rewrite Rmin_left, Rmax_right by lra. intros Hx. symmetry. auto.
Qed.
