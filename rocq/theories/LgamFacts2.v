(** The branch x >= 13 against Stirling's series, and the gamma integral. *)
From Coq Require Import Reals Lra Lia List Bool Arith.
From Coquelicot Require Import Coquelicot.
From Verif Require Import Base StdSpec StdFacts9 MStdFacts2 MStdMain Lgam LgamSpec LgamFacts.
Import List ListNotations.
Open Scope R_scope.

Lemma lgamma_right_of x : 13 <= x -> lgamma x = lgamma_big x.
Proof. intros X. unfold lgamma, lgamma_right. destruct (rltP x (- 34)); [lra|]. destruct (rltP x 13); [lra|auto]. Qed.

Definition ser (p : R) : R := 1 / 12 - p / 360 + p ^ 2 / 1260 - p ^ 3 / 1680 + p ^ 4 / 1188.
Lemma stirling_ser x : 0 < x -> stirling x = (x - 1 / 2) * ln x - x + ln (2 * PI) / 2 + ser (1 / (x * x)) / x.
Proof. intros X. unfold stirling, ser. f_equal. f_equal. field. lra. Qed.

Lemma diff_bound (q c s t x e : R) : 0 < x -> Rabs (s - t) <= e * x -> Rabs (q + c + s / x - (q + ln (2 * PI) / 2 + t / x)) <= Rabs (c - ln (2 * PI) / 2) + e.
Proof.
  intros X H. replace (q + c + s / x - (q + ln (2 * PI) / 2 + t / x)) with ((c - ln (2 * PI) / 2) + (s - t) / x) by (field; lra).
  eapply Rle_trans; [apply Rabs_triang|]. apply Rplus_le_compat_l. unfold Rdiv. rewrite Rabs_mult, (Rabs_pos_eq (/ x)) by (left; apply Rinv_0_lt_compat; auto).
  apply Rmult_le_reg_r with x; auto. rewrite Rmult_assoc, Rinv_l by lra. lra.
Qed.

Lemma pows p c : 0 <= p <= c -> c <= 1 -> 0 <= p ^ 2 <= c ^ 2 /\ 0 <= p ^ 3 <= c ^ 3 /\ 0 <= p ^ 4 <= c ^ 4.
Proof. intros P C. splits; first [apply pow_le; lra|apply pow_incr; lra]. Qed.

Lemma inv_sq x c : 0 < c -> c <= x -> 0 < 1 / (x * x) <= 1 / (c * c).
Proof.
  intros C X. split; [apply Rdiv_lt_0_compat; [lra|apply Rmult_lt_0_compat; lra]|]. unfold Rdiv. rewrite !Rmult_1_l. apply Rinv_le_contravar; [apply Rmult_lt_0_compat; lra|].
  apply Rmult_le_compat; lra.
Qed.

Lemma big_small x : 13 <= x < 1000 -> exists v, lgamma x = Ok (Finite v) /\ Rabs (v - stirling x) <= Rabs (LS2PI - ln (2 * PI) / 2) + 1e-14.
Proof.
  intros (X1 & X2). rewrite lgamma_right_of by auto. unfold lgamma_big.
  assert (M : 1000 <= MAXLGM) by (unfold MAXLGM; lra).
  destruct (rltP MAXLGM x); [lra|]. unfold pylog. destruct (rleP x 0); [lra|]. cbn [rbind]. cbv zeta.
  destruct (rltP 1e8 x); [lra|]. destruct (rleP 1000 x); [lra|]. rewrite polevl_ok by reflexivity. cbn [rbind].
  eexists; split; [reflexivity|]. rewrite stirling_ser by lra. replace (0.5) with (1 / 2) by lra.
  apply diff_bound; [lra|]. set (p := 1 / (x * x)).
  assert (P : 0 < p <= 1 / (13 * 13)) by (apply inv_sq; lra). destruct (pows p (1 / (13 * 13))) as (P2 & P3 & P4); [lra|lra|].
  unfold cA. rewrite !poly_cons. cbn [length]. unfold poly. cbn [length seq map sumR fold_right]. rewrite pow_O, pow_1. unfold ser.
  apply Rabs_le. split; simpl in P2, P3, P4 |- *; lra.
Qed.

Lemma big_mid x : 1000 <= x <= 1e8 -> exists v, lgamma x = Ok (Finite v) /\ Rabs (v - stirling x) <= Rabs (LS2PI - ln (2 * PI) / 2) + 1e-23.
Proof.
  intros (X1 & X2). rewrite lgamma_right_of by lra. unfold lgamma_big.
  assert (M : 1e8 <= MAXLGM) by (unfold MAXLGM; lra).
  destruct (rltP MAXLGM x); [lra|]. unfold pylog. destruct (rleP x 0); [lra|]. cbn [rbind]. cbv zeta.
  destruct (rltP 1e8 x); [lra|]. destruct (rleP 1000 x); [|lra]. 
  eexists; split; [reflexivity|]. rewrite stirling_ser by lra. replace (0.5) with (1 / 2) by lra.
  apply diff_bound; [lra|]. set (p := 1 / (x * x)).
  assert (P : 0 < p <= 1 / (1000 * 1000)) by (apply inv_sq; lra). destruct (pows p (1 / (1000 * 1000))) as (P2 & P3 & P4); [lra|lra|].
  unfold ser. apply Rle_trans with (1e-23 * 1000); [|apply Rmult_le_compat_l; lra]. apply Rabs_le. split; simpl in P2, P3, P4 |- *; lra.
Qed.

Lemma big_large x : 1e8 < x <= MAXLGM -> exists v, lgamma x = Ok (Finite v) /\ Rabs (v - stirling x) <= Rabs (LS2PI - ln (2 * PI) / 2) + 1 / (12 * x).
Proof.
  intros (X1 & X2). rewrite lgamma_right_of by lra. unfold lgamma_big.
  destruct (rltP MAXLGM x); [lra|]. unfold pylog. destruct (rleP x 0); [lra|]. cbn [rbind]. cbv zeta.
  destruct (rltP 1e8 x); [|lra]. 
  eexists; split; [reflexivity|]. rewrite stirling_ser by lra. replace (0.5) with (1 / 2) by lra.
  replace ((x - 1 / 2) * ln x - x + LS2PI) with ((x - 1 / 2) * ln x - x + LS2PI + 0 / x) by (field; lra).
  apply diff_bound; [lra|]. set (p := 1 / (x * x)).
  assert (P : 0 < p <= 1 / (1000 * 1000)) by (apply inv_sq; lra). destruct (pows p (1 / (1000 * 1000))) as (P2 & P3 & P4); [lra|lra|].
  unfold ser. replace (1 / (12 * x) * x) with (1 / 12) by (field; lra).
  assert (Q : p ^ 2 <= p * (1 / (1000 * 1000))). { replace (p ^ 2) with (p * p) by ring. apply Rmult_le_compat_l; lra. }
  assert (Q3 : p ^ 3 <= p * (1 / (1000 * 1000)) ^ 2). { replace (p ^ 3) with (p * p ^ 2) by ring. apply Rmult_le_compat_l; lra. }
  assert (Q4 : p ^ 4 <= p * (1 / (1000 * 1000)) ^ 3). { replace (p ^ 4) with (p * p ^ 3) by ring. apply Rmult_le_compat_l; lra. }
  apply Rabs_le. split; simpl in P2, P3, P4, Q, Q3, Q4 |- *; lra.
Qed.

Lemma big_inf x : MAXLGM < x -> lgamma x = Ok p_infty.
Proof.
  intros X. assert (13 <= MAXLGM) by (unfold MAXLGM; lra). rewrite lgamma_right_of by lra. unfold lgamma_big. destruct (rltP MAXLGM x); [auto|lra].
Qed.

(** the gamma integral *)
Lemma Gamma_2 : Gamma 2 = 1.
Proof. replace 2 with (1 + 1) by ring. rewrite Gamma_succ by lra. rewrite Gamma_1. ring. Qed.
Lemma Gamma_like : gamma_like 0 Gamma.
Proof.
  split; [apply Gamma_2|split].
  - intros x X NP. apply Gamma_succ. destruct X as [X|X]; auto. exfalso. apply NP. exists 0%nat. simpl. lra.
  - intros x X. apply Gamma_pos. lra.
Qed.
Lemma gamma_error (x : R) : 0 < x < 13 -> exists v, lgamma x = Ok (Finite v) /\ v - ln (Gamma x) = rat (frac_part x) - ln (Gamma (2 + frac_part x)).
Proof.
  intros X. destruct (lgamma_mid_ok 0 Gamma x Gamma_like) as (v & E & D); try lra; [apply pos_no_pole; lra|].
  exists v. split; auto. rewrite Rabs_pos_eq in D by (left; apply Gamma_pos; lra). auto.
Qed.
Lemma lgamma_factorial n : (n <= 11)%nat -> lgamma (INR n + 1) = Ok (Finite (ln (INR (fact n)))).
Proof.
  intros N. apply le_INR in N. replace (INR 11) with 11 in N by (rewrite INR_IZR_INZ; reflexivity). pose proof (pos_INR n).
  destruct (gamma_error (INR n + 1)) as (v & E & D); [lra|]. rewrite E. f_equal. f_equal.
  assert (FR : frac_part (INR n + 1) = 0).
  { replace 0 with (2 - 2) by ring. apply (frac_of _ 2 (1 - Z.of_nat n)); [rewrite minus_IZR, <- INR_IZR_INZ; lra|lra]. }
  rewrite FR, rat_0, Rplus_0_r, Gamma_2, ln_1, gamma_factorial_main in D. lra.
Qed.
