(** Main lemmas on the estimates of exponents and the detection of singular ends. *)
From Coq Require Import Reals Lra List Bool Sorted Lia.
From Coquelicot Require Import Coquelicot.
From Verif Require Import Base Seg Piecewise Expo ExpoSpec ExpoFacts ExpoFacts2.
Import List ListNotations.
Open Scope R_scope.

Lemma default_exact f x pos c d N : 0 < c -> power_near (beside f x pos) c d -> estimateDegreeOfPole f x pos None (S (S N)) = Ok d.
Proof. intros C H. rewrite degree_default. destruct (pole_from_to_ok x) as (q & -> & Hq). apply (degree_exact f x pos (-1) q N c d); auto; lra. Qed.

(** C72: the degree of a pure power is found exactly: if next to x, on the side asked for, |f| = c h^d at the distance h
    (up to 1/10), then estimateDegreeOfPole returns d, for every exponent d, by default and for every decreasing scale of
    distances that starts at 1/10 or closer, with any number of points from two on. *)
Lemma degree_power_main : forall f x pos c d N, 0 < c -> power_near (beside f x pos) c d -> (2 <= N)%nat ->
  estimateDegreeOfPole f x pos None N = Ok d /\ (forall p q, q < p -> p <= -1 -> estimateDegreeOfPole f x pos (Some (p, q)) N = Ok d).
Proof.
  intros f x pos c d N C H HN. destruct N as [|[|N]]; try lia. split; [eapply default_exact; eauto|]. intros p q Q P. eapply degree_exact; eauto.
Qed.

(** C72: the estimate is stable: if |f| is c h^d only up to a relative error delta < 1, the estimate differs from d by at
    most (ln(1 + delta) - ln(1 - delta)) (N - 1) / ((p - q) ln 10) on the scale from 10^p to 10^q with N points, so that
    longer steps give better estimates. *)
Lemma degree_stable_main : forall f x pos c d delta p q N, q < p -> p <= -1 -> 0 < c -> 0 <= delta < 1 -> (2 <= N)%nat ->
  power_near_about (beside f x pos) c d delta ->
  exists r, estimateDegreeOfPole f x pos (Some (p, q)) N = Ok r /\
    Rabs (r - d) <= (ln (1 + delta) - ln (1 - delta)) * INR (N - 1) / ((p - q) * ln 10).
Proof.
  intros f x pos c d delta p q N Q P C D HN H. destruct N as [|[|N]]; try lia. replace (S (S N) - 1)%nat with (S N) by lia. eapply degree_about; eauto.
Qed.

(** C72: a function that vanishes beside x has degree 0 there, and is never called singular. *)
Lemma degree_zero_main : forall f x pos N deriv, (forall h, 0 < h -> beside f x pos h = 0) ->
  estimateDegreeOfPole f x pos None N = Ok 0 /\ testPole f x pos max_pole_exponent deriv = Ok false.
Proof.
  intros f x pos N deriv H. split; [apply degree_zero; auto|].
  assert (E : Rabs max_pole_exponent = 1 / 100) by (unfold max_pole_exponent; rewrite Rabs_left1; lra).
  destruct (testPole_deg f x pos max_pole_exponent deriv 0 (degree_zero f x pos 10 H) ltac:(rewrite E; lra)) as ([|] & B1 & B2); auto.
  exfalso. destruct B2 as (B2 & _). specialize (B2 eq_refl). rewrite E in B2. unfold max_pole_exponent in B2. destruct deriv; lra.
Qed.

(** C72: detection on pure powers, with the default threshold 1/100. The test without derivatives says yes exactly for
    d < -1/100, hence never for a bounded function. The test with derivatives (the default) says yes for every d at least
    1/100 away from 0, 1 and 2, and no for d = 0, 1 and 2, the exponents of functions that are smooth there. *)
Lemma test_pole_power_main : forall f x pos c d, 0 < c -> power_near (beside f x pos) c d ->
  (exists b, testPole f x pos max_pole_exponent false = Ok b /\ (b = true <-> d < - (1 / 100))) /\
  ((forall k, In k [0; 1; 2] -> 1 / 100 <= Rabs (d - k)) -> testPole f x pos max_pole_exponent true = Ok true) /\
  (In d [0; 1; 2] -> testPole f x pos max_pole_exponent true = Ok false).
Proof.
  intros f x pos c d C H. pose proof (default_exact f x pos c d 8 C H) as D.
  assert (E : Rabs max_pole_exponent = 1 / 100) by (unfold max_pole_exponent; rewrite Rabs_left1; lra).
  assert (E1 : 0 <= Rabs max_pole_exponent <= 1) by (rewrite E; lra).
  destruct (testPole_deg f x pos max_pole_exponent false d D E1) as (b & B1 & B2). destruct (testPole_deg f x pos max_pole_exponent true d D E1) as (b' & B1' & B2').
  cbv iota in B2, B2'. rewrite E in B2'. splits.
  - exists b. split; auto.
  - intros K. rewrite B1'. f_equal. apply B2'. pose proof (K 0 ltac:(simpl; auto)) as K0. pose proof (K 1 ltac:(simpl; auto)) as K1. pose proof (K 2 ltac:(simpl; auto)) as K2.
    unfold Rabs in K0, K1, K2. destruct (Rcase_abs (d - 0)), (Rcase_abs (d - 1)), (Rcase_abs (d - 2)); lra.
  - intros K. rewrite B1'. f_equal. destruct b'; auto. exfalso. destruct B2' as (B2' & _). specialize (B2' eq_refl).
    destruct K as [K|[K|[K|[]]]]; subst d; lra.
Qed.

(** C72: the default test calls smooth functions singular: the powers t^n with n >= 3 have all derivatives everywhere, and
    the default test reports a singularity of them at 0, on both sides; of t and t^2 it does not. *)
Lemma smooth_pole_refuted_main : forall n pos, (3 <= n)%nat ->
  (forall k x, ex_derive_n (fun t => t ^ n) k x) /\ testPole (fun t => t ^ n) 0 pos max_pole_exponent true = Ok true /\
  testPole (fun t => t ^ 2) 0 pos max_pole_exponent true = Ok false /\ testPole (fun t => t ^ 1) 0 pos max_pole_exponent true = Ok false.
Proof.
  intros n pos HN.
  assert (P : forall m, power_near (beside (fun t => t ^ m) 0 pos) 1 (INR m)).
  { intros m h Hh. unfold beside. rewrite Rmult_1_l, Rpower_pow by lra. rewrite <- RPow_abs. f_equal. destruct pos; [rewrite Rplus_0_l, Rabs_pos_eq; lra|].
    replace (0 - h) with (- h) by ring. rewrite Rabs_Ropp, Rabs_pos_eq; lra. }
  splits.
  - intros k x. apply ex_derive_n_pow.
  - apply (test_pole_power_main _ _ _ 1 (INR n) ltac:(lra) (P n)). apply le_INR in HN. replace (INR 3) with 3 in HN by (simpl; lra).
    intros k [<-|[<-|[<-|[]]]]; rewrite Rabs_pos_eq; lra.
  - apply (test_pole_power_main _ _ _ 1 (INR 2) ltac:(lra) (P 2%nat)). simpl. auto.
  - apply (test_pole_power_main _ _ _ 1 (INR 1) ltac:(lra) (P 1%nat)). simpl. auto.
Qed.

Lemma log_degree f pos s : 0 < s -> (forall h, 0 < h <= 1 / 10 -> Rabs (beside f 0 pos h) = Rpower (- ln h) s) ->
  estimateDegreeOfPole f 0 pos None 10 = Ok (- (s * ln (10 / 9) / ln 10)).
Proof.
  intros S0 H. pose proof ln10 as L10. rewrite degree_default. unfold pole_from_to. destruct (reqP 0 0); [|lra]. unfold estimateDegreeOfPole, slope_down.
  destruct (near_points (-1) (-10) 8 ltac:(lra) ltac:(lra)) as (N1 & N2). set (a := log_point (-1) (-10) 10 8) in *. set (b := log_point (-1) (-10) 10 9) in *.
  assert (La : ln a = - 9 * ln 10) by (unfold a; rewrite (point_prev (-1) (-10) 8); simpl; field).
  assert (Lb : ln b = - 10 * ln 10) by (unfold b; rewrite (point_last (-1) (-10) 8); simpl; ring).
  pose proof (H a (conj (point_pos _ _ _ _) N1)) as Ha. pose proof (H b (conj (point_pos _ _ _ _) N2)) as Hb.
  rewrite (pairs_end _ _ (-1) (-10) 8).
  - fold a b. unfold np_quot. unfold beside in Ha, Hb. rewrite Ha, Hb, !ln_rpower.
    rewrite (Rabs_pos_eq a), (Rabs_pos_eq b) by (left; apply point_pos). rewrite La, Lb.
    assert (E : Rabs (-10 * ln 10 - -9 * ln 10) = ln 10) by (rewrite Rabs_left1; lra). rewrite E. destruct (reqP (ln 10) 0); [lra|]. f_equal.
    replace (- (-9 * ln 10)) with (9 * ln 10) by ring. replace (- (-10 * ln 10)) with (10 * ln 10) by ring.
    rewrite !ln_mult, ln_div by lra. field. lra.
  - fold a. intros K. unfold beside in Ha. rewrite K, Rabs_R0 in Ha. pose proof (exp_pos (s * ln (- ln a))). unfold Rpower in Ha. lra.
  - fold b. intros K. unfold beside in Hb. rewrite K, Rabs_R0 in Hb. pose proof (exp_pos (s * ln (- ln b))). unfold Rpower in Hb. lra.
Qed.

Lemma ln109 : 1 / 10 <= ln (10 / 9) <= 1 / 9.
Proof.
  split.
  - replace (10 / 9) with (/ (9 / 10)) by field. rewrite ln_Rinv by lra. pose proof (exp_ineq1_le (ln (9 / 10))) as K. rewrite exp_ln in K by lra. lra.
  - pose proof (exp_ineq1_le (ln (10 / 9))) as K. rewrite exp_ln in K by lra. lra.
Qed.
Lemma ln10_bounds : 2 <= ln 10 <= 9.
Proof.
  split.
  - rewrite <- (ln_exp 2). apply ln_le; [apply exp_pos|]. replace 2 with (1 + 1) by ring. rewrite exp_plus. pose proof exp_le_3. pose proof (exp_pos 1). nra.
  - pose proof (exp_ineq1_le (ln 10)) as K. rewrite exp_ln in K by lra. lra.
Qed.

(** C72: logarithmic singularities: beside a function that behaves like (-ln h)^s, s > 0, at the distance h from 0, the
    tests with and without derivatives agree: they say yes exactly if s ln(10/9) > ln(10)/100 or equal for the former;
    so a logarithm itself (s = 1) is recognised as singular. *)
Lemma log_pole_main : forall f pos s, 0 < s -> (forall h, 0 < h <= 1 / 10 -> Rabs (beside f 0 pos h) = Rpower (- ln h) s) ->
  (exists b, testPole f 0 pos max_pole_exponent true = Ok b /\ (b = true <-> ln 10 / 100 <= s * ln (10 / 9))) /\
  (exists b, testPole f 0 pos max_pole_exponent false = Ok b /\ (b = true <-> ln 10 / 100 < s * ln (10 / 9))) /\
  (1 <= s -> forall deriv, testPole f 0 pos max_pole_exponent deriv = Ok true).
Proof.
  intros f pos s S0 H. pose proof (log_degree f pos s S0 H) as D. set (d := - (s * ln (10 / 9) / ln 10)) in *.
  assert (E : Rabs max_pole_exponent = 1 / 100) by (unfold max_pole_exponent; rewrite Rabs_left1; lra).
  assert (E1 : 0 <= Rabs max_pole_exponent <= 1) by (rewrite E; lra).
  pose proof ln109 as L9. pose proof ln10_bounds as L10.
  assert (DD : d * ln 10 = - (s * ln (10 / 9))) by (unfold d; field; lra). assert (DN : d < 0) by nra.
  destruct (testPole_deg f 0 pos max_pole_exponent false d D E1) as (b & B1 & B2). destruct (testPole_deg f 0 pos max_pole_exponent true d D E1) as (b' & B1' & B2').
  cbv iota in B2, B2'. rewrite E in B2'. unfold max_pole_exponent in B2.
  assert (G1 : b' = true <-> ln 10 / 100 <= s * ln (10 / 9)) by (rewrite B2'; split; intros; [nra|left; nra]).
  assert (G2 : b = true <-> ln 10 / 100 < s * ln (10 / 9)) by (rewrite B2; split; intros; nra).
  splits.
  - exists b'. auto.
  - exists b. auto.
  - intros S1 [|]; [rewrite B1'|rewrite B1]; f_equal; [apply G1|apply G2]; nra.
Qed.

(** C72: a slow singularity is missed: the function (-ln h)^(1/10) is unbounded next to 0, and both tests say that there is
    no singularity. *)
Lemma slow_pole_refuted_main : exists f, unbounded_near (beside f 0 true) /\ forall deriv, testPole f 0 true max_pole_exponent deriv = Ok false.
Proof.
  exists (fun x => Rpower (- ln x) (1 / 10)).
  assert (H : forall h, 0 < h <= 1 / 10 -> Rabs (beside (fun x => Rpower (- ln x) (1 / 10)) 0 true h) = Rpower (- ln h) (1 / 10)).
  { intros h Hh. unfold beside. rewrite Rplus_0_l. apply Rabs_pos_eq. left. apply exp_pos. }
  split.
  - intros M e He. set (m := Rmax 1 M + 1). assert (M1 : 1 <= Rmax 1 M) by apply Rmax_l. assert (M2 : M <= Rmax 1 M) by apply Rmax_r.
    set (t := Rmax (Rpower m 10) (1 - ln e)). assert (T1 : Rpower m 10 <= t) by apply Rmax_l. assert (T2 : 1 - ln e <= t) by apply Rmax_r.
    exists (exp (- t)). split.
    + split; [apply exp_pos|]. rewrite <- (exp_ln e) by auto. apply exp_increasing. lra.
    + unfold beside. rewrite Rplus_0_l, ln_exp, Ropp_involutive. rewrite Rabs_pos_eq by (left; apply exp_pos).
      apply (Rlt_le_trans _ (Rpower (Rpower m 10) (1 / 10))).
      * rewrite Rpower_mult. replace (10 * (1 / 10)) with 1 by field. rewrite Rpower_1; unfold m; lra.
      * apply Rle_Rpower_l; [lra|]. split; auto. apply exp_pos.
  - destruct (log_pole_main _ true (1 / 10) ltac:(lra) H) as ((b & B1 & B2) & (b' & B1' & B2') & _). pose proof ln109 as L9. pose proof ln10_bounds as L10.
    intros [|]; [rewrite B1|rewrite B1']; f_equal; [destruct b|destruct b']; auto; exfalso; [destruct B2 as (K & _)|destruct B2' as (K & _)]; specialize (K eq_refl); lra.
Qed.

(** C72: the exponent of a tail that is a pure power: if |f| = c t^d at t (or at -t for the left tail) from T on, with d at
    most 50, and T is not beyond the last but one point of the scale, then estimateTailExponent returns d and
    estimateAtInfExponent returns -d; the scales are increasing, with any number of points from two on. *)
Lemma tail_power_main : forall (f : R -> R) (pos : bool) p q N T c d, p < q -> (2 <= N)%nat -> 0 < c ->
  T <= Rpower 10 (q - (q - p) / INR (N - 1)) -> power_tail (fun t => f (if pos then t else - t)) T c d ->
  estimateAtInfExponent f pos (Some (p, q)) N = Ok (- d) /\ (d <= 50 -> estimateTailExponent f pos (Some (p, q)) N = Ok (Finite d)).
Proof.
  intros f pos p q N T c d Q HN C HT H. destruct N as [|[|N]]; try lia. replace (S (S N) - 1)%nat with (S N) in HT by lia. split.
  - apply (at_inf_exact f pos p q N T c d); auto.
  - intros D. apply (tail_exact f pos p q N T c d); auto.
Qed.

(** C72: a tail that does not grow never gets the exponent inf: if |f| is nonincreasing from 10^p on, the estimate is a
    finite number, at most 0. The value inf is reported only for functions that grow. *)
Lemma tail_never_inf_main : forall (f : R -> R) (pos : bool) p q N, p < q ->
  (forall s t, Rpower 10 p <= s -> s <= t -> Rabs (f (if pos then t else - t)) <= Rabs (f (if pos then s else - s))) ->
  exists e, estimateTailExponent f pos (Some (p, q)) N = Ok (Finite e) /\ e <= 0.
Proof. exact tail_finite. Qed.

Lemma light_tail d : is_lim (fun x => exp (- x) * Rpower x d) p_infty 0.
Proof.
  apply (is_lim_ext_loc (fun x => exp (x * (-1 + d * (ln x / x))))).
  - exists 1. intros x Hx. unfold Rpower. rewrite <- exp_plus. f_equal. field. lra.
  - apply (is_lim_comp exp (fun x => x * (-1 + d * (ln x / x))) p_infty 0 m_infty).
    + apply is_lim_exp_m.
    + replace m_infty with (Rbar_mult p_infty (-1)) by (simpl; destruct (Rle_dec 0 (-1)) as [K|K]; [exfalso; lra|reflexivity]). apply is_lim_mult.
      * apply is_lim_id.
      * evar_last; [apply (is_lim_plus _ _ _ (-1) 0); [apply is_lim_const| |reflexivity]|simpl; f_equal; ring].
        evar_last; [apply (is_lim_scal_l _ d _ 0), is_lim_div_ln_p|simpl; f_equal; ring].
      * simpl. lra.
    + exists 0. intros x _. discriminate.
Qed.

(** C72: light tails are not told apart: the density exp(-x) decreases faster than every power, and the exponent reported
    for it by default is a finite number below -50, not inf. *)
Lemma tail_light_refuted_main : exists e, estimateTailExponent (fun x => exp (- x)) true None 300 = Ok (Finite e) /\ e < -50 /\
  (forall d, is_lim (fun x => exp (- x) * Rpower x d) p_infty 0).
Proof.
  change (estimateTailExponent (fun x => exp (- x)) true None 300) with (estimateTailExponent (fun x => exp (- x)) true (Some (1, 100)) 300).
  rewrite (tail_eq (fun x => exp (- x)) true 1 100 298) by (try lra; pose proof (exp_pos (- log_point 1 100 300 298)); pose proof (exp_pos (- log_point 1 100 300 299)); simpl; lra).
  cbv zeta iota. rewrite !(Rabs_pos_eq (exp _)) by (left; apply exp_pos). rewrite !ln_exp.
  set (a := log_point 1 100 300 298). set (b := log_point 1 100 300 299).
  assert (A : 100 <= a).
  { unfold a. destruct (far_points 1 100 298 100 ltac:(lra)) as (K & _); auto. replace 100 with (Rpower 10 2) at 1; [|replace 2 with (INR 2) by (simpl; lra); rewrite Rpower_pow by lra; simpl; lra].
    apply rpow_le. replace (INR 299) with 299 by (rewrite INR_IZR_INZ; simpl; lra). lra. }
  assert (AB : a < b) by (apply (far_lt 1 100 298); lra). assert (LL : ln a < ln b) by (apply ln_increasing; lra).
  assert (S1 : ln b - ln a <= (b - a) / a).
  { rewrite <- ln_div by lra. pose proof (exp_ineq1_le (ln (b / a))) as K. rewrite exp_ln in K by (apply Rdiv_lt_0_compat; lra).
    replace ((b - a) / a) with (b / a - 1) by (field; lra). lra. }
  assert (S2 : a * (ln b - ln a) <= b - a). { apply (Rmult_le_compat_l a) in S1; [|lra]. replace (a * ((b - a) / a)) with (b - a) in S1 by (field; lra). exact S1. }
  assert (S3 : (- b - - a) / (ln b - ln a) < -50).
  { apply (Rmult_lt_reg_r (ln b - ln a)); [lra|]. unfold Rdiv. rewrite Rmult_assoc, Rinv_l, Rmult_1_r by lra. nra. }
  destruct (rltP 50 ((- b - - a) / (ln b - ln a))); [lra|]. eexists. splits; [reflexivity|auto|].
  intros d. apply light_tail.
Qed.

(** C72: the tail exponents of a list of pieces: the left one belongs to the first piece if that is unbounded to the left,
    the right one to the last piece if that is unbounded to the right, and there is none otherwise; where the tail is c t^d
    with d at most 50 (from some T up to 10^99 on) the value is d. *)
Lemma tailexp_power_main : forall l, l <> [] -> exists L R0, tailexp l = Ok (L, R0) /\
  (forall b f T c d, hd_error l = Some (MInfSeg b f) -> 0 < c -> d <= 50 -> T <= Rpower 10 99 -> power_tail (fun t => f (- t)) T c d -> L = Some (Ok (Finite d))) /\
  (forall a f T c d l', l = l' ++ [PInfSeg a f] -> 0 < c -> d <= 50 -> T <= Rpower 10 99 -> a <= T -> power_tail f T c d -> R0 = Some (Ok (Finite d))) /\
  ((forall b f, hd_error l <> Some (MInfSeg b f)) -> L = None) /\ ((forall a f l', l <> l' ++ [PInfSeg a f]) -> R0 = None).
Proof.
  intros [|s l] NE; [congruence|]. cbn [tailexp]. eexists. eexists. splits; [reflexivity| | | |].
  - intros b f T c d [= ->] C D HT H. cbn [seg_tailexp]. f_equal. 
    change (estimateTailExponent f false None 300) with (estimateTailExponent f false (Some (1, 100)) 300).
    apply (tail_exact f false 1 100 298 T c d); auto; try lra. apply (Rle_trans _ _ _ HT), rpow_le. replace (INR 299) with 299 by (rewrite INR_IZR_INZ; simpl; lra). lra.
  - intros a f T c d l' El C D HT A H. 
    assert (E : last l s = PInfSeg a f).
    { replace (last l s) with (last (s :: l) s) by (destruct l; auto). rewrite El. apply last_last. }
    rewrite E. cbn [seg_tailexp]. f_equal. set (g := fun x => if rle a x then f x else 0).
    change (estimateTailExponent g true None 300) with (estimateTailExponent g true (Some (1, 100)) 300).
    apply (tail_exact g true 1 100 298 T c d); auto; try lra.
    + apply (Rle_trans _ _ _ HT), rpow_le. replace (INR 299) with 299 by (rewrite INR_IZR_INZ; simpl; lra). lra.
    + intros t Ht. unfold g. destruct (rleP a t); [auto|lra].
  - intros K. destruct s; auto. exfalso. eapply K. reflexivity.
  - intros K. destruct (last l s) eqn:E; auto. exfalso. apply (K a f (removelast (s :: l))). 
    rewrite (app_removelast_last s) at 1 by discriminate. f_equal. f_equal. rewrite <- E. destruct l; auto.
Qed.
