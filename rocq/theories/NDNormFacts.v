(** Algebra of positive definite matrices and the Gaussian integral of one coordinate. *)
From Coq Require Import Reals List Arith Lra Lia.
From Coquelicot Require Import Coquelicot.
From Verif Require Import Base ND NDSpec QuadFacts RMx RMxFacts IntegralFacts Std StdSpec StdFacts7 NDNorm NDNormSpec.
Import List ListNotations.
Open Scope R_scope.

Lemma skip_bound n k i : (i < n)%nat -> (skip k i < S n)%nat.
Proof. unfold skip. destruct (Nat.ltb_spec i k); lia. Qed.
Lemma skip_neq k i : skip k i <> k.
Proof. unfold skip. destruct (Nat.ltb_spec i k); lia. Qed.
Lemma skip_inj k i j : skip k i = skip k j -> i = j.
Proof. unfold skip. destruct (Nat.ltb_spec i k), (Nat.ltb_spec j k); lia. Qed.
Lemma bsum_skip n k F : (k < S n)%nat -> bsum (S n) F = F k + bsum n (fun i => F (skip k i)).
Proof.
  revert F. induction n; intros F H.
  - replace k with O by lia. rewrite bsum_S, !bsum_0. lra.
  - destruct (Nat.eq_dec k (S n)).
    + subst. rewrite bsum_S. rewrite Rplus_comm. f_equal. apply bsum_ext. intros. unfold skip. destruct (Nat.ltb_spec i (S n)); [reflexivity|lia].
    + rewrite bsum_S, (IHn F) by lia. rewrite bsum_S. unfold skip at 3. destruct (Nat.ltb_spec n k); [lia|]. lra.
Qed.
Lemma delta_skip k i j : delta (skip k i) (skip k j) = delta i j.
Proof. unfold delta. destruct (Nat.eqb_spec i j) as [->|N]. rewrite Nat.eqb_refl; auto. destruct (Nat.eqb_spec (skip k i) (skip k j)) as [E|E]; auto. apply skip_inj in E; congruence. Qed.
Lemma delta_ne i j : i <> j -> delta i j = 0.
Proof. intros. unfold delta. destruct (Nat.eqb_spec i j); [congruence|reflexivity]. Qed.
Lemma delta_eq i : delta i i = 1.
Proof. unfold delta. rewrite Nat.eqb_refl. reflexivity. Qed.
Lemma bsum_delta n j F : (j < n)%nat -> bsum n (fun k => F k * delta k j) = F j.
Proof. intros. rewrite (bsum_one n j); auto. rewrite delta_eq; lra. intros. rewrite delta_ne by auto. lra. Qed.

Lemma quad_ext n A B v w : (forall i j, (i < n)%nat -> (j < n)%nat -> A i j = B i j) -> (forall i, (i < n)%nat -> v i = w i) -> quad n A v = quad n B w.
Proof. intros H G. unfold quad. apply bsum_ext. intros. apply bsum_ext. intros. rewrite H, !G by auto. reflexivity. Qed.

Definition minor (k : nat) (A : nat -> nat -> R) : nat -> nat -> R := fun i j => A (skip k i) (skip k j).

Lemma pd_det_ne n A : pos_def n A -> mdet n A <> 0.
Proof.
  intros [_ P] E. apply mdet_zero in E. destruct E as (v & Nz & Z). specialize (P v Nz).
  assert (quad n A v = 0); [|lra]. unfold quad. rewrite bsum_swap. apply bsum_zero. intros j Hj.
  rewrite (bsum_scal_r n (v j) (fun i => v i * A i j)). rewrite (Z j Hj). lra.
Qed.
Lemma inv_sym n A i j : pos_def n A -> (i < n)%nat -> (j < n)%nat -> minv n A i j = minv n A j i.
Proof.
  intros P Hi Hj. destruct (minv_unique n A (fun i j => minv n A j i)) as [_ U]; [|apply U; auto].
  intros a b Ha Hb. transitivity (delta b a); [|unfold delta; rewrite Nat.eqb_sym; reflexivity].
  rewrite <- (minv_l n A b a); auto. 2: apply pd_det_ne; auto.
  apply bsum_ext. intros k Hk. rewrite (proj1 P a k) by auto. apply Rmult_comm.
Qed.
Lemma inv_diag_pos n A k : pos_def n A -> (k < n)%nat -> 0 < minv n A k k.
Proof.
  intros P Hk. pose proof (pd_det_ne n A P) as D.
  replace (minv n A k k) with (quad n A (fun i => minv n A i k)).
  - apply (proj2 P). destruct (Classical_Prop.classic (exists i, (i < n)%nat /\ minv n A i k <> 0)) as [E|E]; auto. exfalso.
    assert (bsum n (fun j => A k j * minv n A j k) = 0).
    { apply bsum_zero. intros j Hj. destruct (Req_dec (minv n A j k) 0) as [Z|Z]; [rewrite Z; lra|]. exfalso; apply E; eauto. }
    rewrite minv_r in H by auto. rewrite delta_eq in H. lra.
  - unfold quad. rewrite (bsum_ext _ _ (fun i => minv n A i k * delta i k)).
    + rewrite (bsum_delta n k (fun i => minv n A i k)); auto.
    + intros i Hi. rewrite (bsum_ext _ _ (fun j => minv n A i k * (A i j * minv n A j k))) by (intros; ring).
      rewrite bsum_scal, minv_r by auto. reflexivity.
Qed.
Lemma quad_skip n k A v : (k < S n)%nat -> (forall i j, (i < S n)%nat -> (j < S n)%nat -> A i j = A j i) ->
  quad (S n) A v = A k k * (v k * v k) + 2 * v k * bsum n (fun i => A k (skip k i) * v (skip k i)) + quad n (minor k A) (fun i => v (skip k i)).
Proof.
  intros Hk Sy. unfold quad. rewrite (bsum_skip n k) by auto. rewrite (bsum_skip n k) by auto.
  rewrite (bsum_ext n (fun i => bsum (S n) (fun j => v (skip k i) * A (skip k i) j * v j))
    (fun i => v k * (A k (skip k i) * v (skip k i)) + bsum n (fun j => v (skip k i) * minor k A i j * v (skip k j)))).
  - rewrite bsum_plus, bsum_scal. rewrite (bsum_ext n (fun i => v k * A k (skip k i) * v (skip k i)) (fun i => v k * (A k (skip k i) * v (skip k i)))) by (intros; ring).
    rewrite bsum_scal. ring.
  - intros i Hi. rewrite (bsum_skip n k) by auto. rewrite (Sy (skip k i) k); auto using skip_bound. unfold minor. ring.
Qed.
Lemma pd_minor n k A : pos_def (S n) A -> (k < S n)%nat -> pos_def n (minor k A).
Proof.
  intros P Hk. split.
  - intros. unfold minor. apply P; auto using skip_bound.
  - intros v (i & Hi & Nz).
    set (w := fun j => if Nat.eqb j k then 0 else v (if Nat.ltb j k then j else (j - 1)%nat)).
    assert (W : forall j, w (skip k j) = v j).
    { intros j. unfold w. destruct (Nat.eqb_spec (skip k j) k) as [E|E]; [now apply skip_neq in E|]. f_equal.
      unfold skip. destruct (Nat.ltb_spec j k) as [L|L]. destruct (Nat.ltb_spec j k); lia. destruct (Nat.ltb_spec (S j) k); lia. }
    assert (W0 : w k = 0) by (unfold w; rewrite Nat.eqb_refl; reflexivity).
    assert (H : 0 < quad (S n) A w). { apply (proj2 P). exists (skip k i). split; auto using skip_bound. rewrite W. auto. }
    rewrite (quad_skip n k A w Hk (proj1 P)), W0 in H.
    rewrite (quad_ext n (minor k A) (minor k A) (fun i => w (skip k i)) v) in H; auto. lra.
Qed.
Lemma pd_det_pos n A : pos_def n A -> 0 < mdet n A.
Proof.
  revert A. induction n; intros A P. rewrite mdet_0. lra.
  pose proof (minv_diag n A 0 (pd_det_ne _ _ P) ltac:(lia)) as E. pose proof (inv_diag_pos _ A 0 P ltac:(lia)) as H.
  pose proof (IHn _ (pd_minor n 0 A P ltac:(lia))) as H1. unfold minor in H1. rewrite <- E in H1.
  pose proof (pd_det_ne _ _ P). destruct (Rtotal_order 0 (mdet (S n) A)) as [G|[G|G]]; auto. lra. nra.
Qed.
(** the inverse of the matrix without row and column k is the Schur complement *)
Lemma schur n k A i j : pos_def (S n) A -> (k < S n)%nat -> (i < n)%nat -> (j < n)%nat ->
  minv n (minor k A) i j = minv (S n) A (skip k i) (skip k j) - minv (S n) A (skip k i) k * minv (S n) A k (skip k j) / minv (S n) A k k.
Proof.
  intros P Hk Hi Hj. pose proof (pd_det_ne _ _ P) as D. pose proof (inv_diag_pos _ A k P Hk) as H. set (L := minv (S n) A) in *.
  destruct (minv_unique n (minor k A) (fun i j => L (skip k i) (skip k j) - L (skip k i) k * L k (skip k j) / L k k)) as [_ U]; [|apply U; auto].
  clear i j Hi Hj. intros i j Hi Hj.
  pose proof (minv_r (S n) A (skip k i) (skip k j) D ltac:(auto using skip_bound) ltac:(auto using skip_bound)) as E1.
  pose proof (minv_r (S n) A (skip k i) k D ltac:(auto using skip_bound) Hk) as E2.
  rewrite (bsum_skip n k) in E1, E2 by auto. fold L in E1, E2. rewrite delta_skip in E1. rewrite (delta_ne _ _ (skip_neq k i)) in E2.
  match goal with |- bsum n ?F = _ => rewrite (bsum_ext n F (fun c => A (skip k i) (skip k c) * L (skip k c) (skip k j) +
    - (L k (skip k j) / L k k) * (A (skip k i) (skip k c) * L (skip k c) k))) end.
  - rewrite bsum_plus, bsum_scal. rewrite <- E1.
    match type of E2 with _ + ?s = 0 => replace s with (- (A (skip k i) k * L k k)) by lra end. field. lra.
  - intros. unfold minor. field. lra.
Qed.
Lemma quad_schur n k A y : pos_def (S n) A -> (k < S n)%nat ->
  quad (S n) (minv (S n) A) y = minv (S n) A k k * Rsqr (y k + bsum n (fun i => minv (S n) A k (skip k i) * y (skip k i)) / minv (S n) A k k)
    + quad n (minv n (minor k A)) (fun i => y (skip k i)).
Proof.
  intros P Hk. pose proof (inv_diag_pos _ A k P Hk) as H. set (L := minv (S n) A) in *.
  assert (Sy : forall i j, (i < S n)%nat -> (j < S n)%nat -> L i j = L j i) by (intros; apply inv_sym; auto).
  rewrite (quad_skip n k L y Hk Sy). set (b := bsum n _).
  assert (E : quad n (minv n (minor k A)) (fun i => y (skip k i)) = quad n (minor k L) (fun i => y (skip k i)) + - (b * b / L k k)).
  { unfold quad. rewrite (bsum_ext n (fun i => bsum n (fun j => y (skip k i) * minv n (minor k A) i j * y (skip k j)))
      (fun i => bsum n (fun j => y (skip k i) * minor k L i j * y (skip k j)) + (- b / L k k) * (L k (skip k i) * y (skip k i)))).
    - rewrite bsum_plus, bsum_scal. fold b. f_equal. field. lra.
    - intros i Hi. rewrite (bsum_ext n _ (fun j => y (skip k i) * minor k L i j * y (skip k j) + - (y (skip k i) * L k (skip k i) / L k k) * (L k (skip k j) * y (skip k j)))).
      + rewrite bsum_plus, bsum_scal. fold b. field. lra.
      + intros j Hj. rewrite schur by auto. fold L. unfold minor. rewrite (Sy (skip k i) k) by auto using skip_bound. field. lra. }
  rewrite E. unfold Rsqr. field. lra.
Qed.
Lemma gauss_integral (al c : R) : 0 < al ->
  is_RInt_gen (fun t => exp (- (al * Rsqr (t + c) / 2))) (Rbar_locally m_infty) (Rbar_locally p_infty) (sqrt (2 * PI / al)).
Proof.
  intros H. pose proof PI_RGT_0. assert (S0 : 0 < sqrt al) by (apply sqrt_lt_R0; auto). assert (S1 : 0 < sqrt (2 * PI)) by (apply sqrt_lt_R0; lra).
  set (G := fun t : R => sqrt (2 * PI / al) * Phi (sqrt al * (t + c))).
  replace (sqrt (2 * PI / al)) with (sqrt (2 * PI / al) * 1 - sqrt (2 * PI / al) * 0) by ring.
  apply (is_RInt_gen_lim _ _ _ G).
  - apply filter_forall. intros [u v]. simpl. apply (is_RInt_derive (V := R_CompleteNormedModule) G (fun t => exp (- (al * Rsqr (t + c) / 2)))).
    + intros x _. unfold G. evar_last. apply is_derive_scal. apply (is_derive_comp Phi (fun t => sqrt al * (t + c))). apply Phi_der.
      auto_derive; auto. unfold gker, scal; simpl; unfold mult; simpl.
      rewrite sqrt_div_alt by lra. replace (- (sqrt al * (x + c) * (sqrt al * (x + c))) / 2) with (- (al * Rsqr (x + c) / 2)).
      field; split; lra. unfold Rsqr. rewrite <- (sqrt_sqrt al) at 1 by lra. field.
    + intros x _. apply (ex_derive_continuous (V := R_NormedModule)). unfold Rsqr. auto_derive; auto.
  - unfold G. apply (filterlim_comp _ _ _ (fun t => Phi (sqrt al * (t + c))) (fun x => sqrt (2 * PI / al) * x) _ (locally 0)).
    + apply (filterlim_comp _ _ _ (fun t => sqrt al * (t + c)) Phi _ (Rbar_locally m_infty)); [|apply Phi_m].
      intros P [M HM]. exists (M / sqrt al - c). intros x Hx. apply HM. apply (Rmult_lt_compat_l (sqrt al)) in Hx; auto. 
      replace (sqrt al * (M / sqrt al - c)) with (M - sqrt al * c) in Hx by (field; lra). lra.
    + apply (filterlim_scal_r (K := R_AbsRing) (V := R_NormedModule) (sqrt (2 * PI / al)) 0).
  - unfold G. apply (filterlim_comp _ _ _ (fun t => Phi (sqrt al * (t + c))) (fun x => sqrt (2 * PI / al) * x) _ (locally 1)).
    + apply (filterlim_comp _ _ _ (fun t => sqrt al * (t + c)) Phi _ (Rbar_locally p_infty)); [|apply Phi_p].
      intros P [M HM]. exists (M / sqrt al - c). intros x Hx. apply HM. apply (Rmult_lt_compat_l (sqrt al)) in Hx; auto.
      replace (sqrt al * (M / sqrt al - c)) with (M - sqrt al * c) in Hx by (field; lra). lra.
    + apply (filterlim_scal_r (K := R_AbsRing) (V := R_NormedModule) (sqrt (2 * PI / al)) 1).
Qed.
(** integrating one coordinate of the Gaussian density leaves the Gaussian density of the other coordinates *)
Definition gdens (n : nat) (A : nat -> nat -> R) (y : nat -> R) : R := 1 / sqrt (mdet n A * (2 * PI) ^ n) * exp (- (quad n (minv n A) y / 2)).
Lemma gdens_ext n A B v w : (forall i j, (i < n)%nat -> (j < n)%nat -> A i j = B i j) -> (forall i, (i < n)%nat -> v i = w i) -> gdens n A v = gdens n B w.
Proof. intros H G. unfold gdens. rewrite (mdet_ext n A B) by auto. rewrite (quad_ext n (minv n A) (minv n B) v w); auto. intros; apply minv_ext; auto. Qed.
Lemma gdens_step n k A y m : pos_def (S n) A -> (k < S n)%nat ->
  is_RInt_gen (fun t => gdens (S n) A (fun i => if Nat.eqb i k then t - m else y i)) (Rbar_locally m_infty) (Rbar_locally p_infty)
    (gdens n (minor k A) (fun i => y (skip k i))).
Proof.
  intros P Hk. pose proof PI_RGT_0. pose proof (inv_diag_pos _ A k P Hk) as Ha. set (L := minv (S n) A) in *. set (al := L k k) in *.
  set (b := bsum n (fun i => L k (skip k i) * y (skip k i))).
  set (C := 1 / sqrt (mdet (S n) A * (2 * PI) ^ (S n)) * exp (- (quad n (minv n (minor k A)) (fun i => y (skip k i)) / 2))).
  apply (is_RInt_gen_ext (fun t => scal C (exp (- (al * Rsqr (t + (b / al - m)) / 2))))).
  - apply filter_forall. intros [u v] t _. unfold gdens. rewrite (quad_schur n k A) by auto. fold L. fold al. rewrite Nat.eqb_refl.
    rewrite (bsum_ext n _ (fun i => L k (skip k i) * y (skip k i))).
    2:{ intros i Hi. destruct (Nat.eqb_spec (skip k i) k) as [E|E]; auto. now apply skip_neq in E. }
    rewrite (quad_ext n _ (minv n (minor k A)) _ (fun i => y (skip k i))); auto.
    2:{ intros i Hi. destruct (Nat.eqb_spec (skip k i) k) as [E|E]; auto. now apply skip_neq in E. }
    fold b. unfold C. unfold scal; simpl; unfold mult; simpl. rewrite Rmult_assoc, <- exp_plus. f_equal. f_equal.
    replace (t + (b / al - m)) with (t - m + b / al) by ring. lra.
  - evar_last. apply (is_RInt_gen_scal (V := R_NormedModule)). apply gauss_integral; auto.
    unfold gdens, C, scal; simpl; unfold mult; simpl.
    pose proof (minv_diag n A k (pd_det_ne _ _ P) Hk) as E. fold L in E. fold al in E.
    unfold minor at 2. change (fun i j => A (skip k i) (skip k j)) with (minor k A) in *. rewrite <- E.
    pose proof (pd_det_pos _ _ P) as D. set (p := (2 * PI) ^ n). assert (0 < p) by (apply pow_lt; lra).
    replace (mdet (S n) A * (2 * PI * p)) with ((al * mdet (S n) A * p) * (2 * PI / al)) by (field; lra).
    assert (0 < 2 * PI / al) by (apply Rdiv_lt_0_compat; lra).
    assert (0 < al * mdet (S n) A * p) by (apply Rmult_lt_0_compat; auto; apply Rmult_lt_0_compat; auto).
    rewrite sqrt_mult by lra. field. split; apply Rgt_not_eq, sqrt_lt_R0; auto.
Qed.
