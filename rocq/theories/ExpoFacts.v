(** Proofs about exponents. *)
From Coq Require Import Reals Lra List Bool Lia.
From Coquelicot Require Import Coquelicot.
From Verif Require Import Base Seg Expo ExpoSpec.
Import List ListNotations.
Open Scope R_scope.

Lemma last2_app {A} (l : list A) a b : last2 (l ++ [a; b]) = Some (a, b).
Proof.
  induction l as [|x l IH]; auto. cbn [app last2]. destruct (l ++ [a; b]) as [|y r] eqn:E; [destruct l; discriminate|].
  destruct r; [destruct l as [|? [|? ?]]; discriminate|]. exact IH.
Qed.
Lemma logspace_end p q n : exists l, logspace p q (S (S n)) = l ++ [log_point p q (S (S n)) n; log_point p q (S (S n)) (S n)].
Proof.
  unfold logspace. exists (map (log_point p q (S (S n))) (seq 0 n)). replace (S (S n)) with (n + 2)%nat at 2 by lia. rewrite seq_app, map_app. reflexivity.
Qed.
Lemma pairs_end lx y p q n : y (log_point p q (S (S n)) n) <> 0 -> y (log_point p q (S (S n)) (S n)) <> 0 ->
  let a := log_point p q (S (S n)) n in let b := log_point p q (S (S n)) (S n) in
  last2 (log_pairs lx y (logspace p q (S (S n)))) = Some ((lx a, ln (Rabs (y a))), (lx b, ln (Rabs (y b)))).
Proof.
  intros A B. cbv zeta. destruct (logspace_end p q n) as (l & E). rewrite E. unfold log_pairs. rewrite flat_map_app. cbn [flat_map].
  destruct (rltP 0 (Rabs (y (log_point p q (S (S n)) n)))) as [_|K]; [|exfalso; apply K, Rabs_pos_lt; auto].
  destruct (rltP 0 (Rabs (y (log_point p q (S (S n)) (S n))))) as [_|K]; [|exfalso; apply K, Rabs_pos_lt; auto].
  cbn [app]. apply last2_app.
Qed.
Lemma point_pos p q N i : 0 < log_point p q N i. Proof. apply exp_pos. Qed.
Lemma point_ln p q N i : ln (log_point p q N i) = (p + INR i * ((q - p) / INR (N - 1))) * ln 10.
Proof. unfold log_point, Rpower. rewrite ln_exp. ring. Qed.
Lemma ln10 : 0 < ln 10. Proof. rewrite <- ln_1. apply ln_increasing; lra. Qed.
Lemma step_ln p q n : ln (log_point p q (S (S n)) (S n)) - ln (log_point p q (S (S n)) n) = (q - p) / INR (S n) * ln 10.
Proof. rewrite !point_ln. replace (S (S n) - 1)%nat with (S n) by lia. rewrite (S_INR n) at 1. ring. Qed.
Lemma point_last p q n : ln (log_point p q (S (S n)) (S n)) = q * ln 10.
Proof. rewrite point_ln. replace (S (S n) - 1)%nat with (S n) by lia. field. apply not_0_INR. discriminate. Qed.
Lemma point_prev p q n : ln (log_point p q (S (S n)) n) = (q - (q - p) / INR (S n)) * ln 10.
Proof. pose proof (step_ln p q n) as H. rewrite point_last in H. lra. Qed.

Lemma ln_rpower h d : ln (Rpower h d) = d * ln h.
Proof. unfold Rpower. apply ln_exp. Qed.
(** between two values with a relative error *)
Lemma ln_between c P delta y : 0 < c -> 0 < P -> 0 <= delta < 1 -> c * P * (1 - delta) <= y <= c * P * (1 + delta) ->
  0 < y /\ ln c + ln P + ln (1 - delta) <= ln y <= ln c + ln P + ln (1 + delta).
Proof.
  intros C HP D (Y1 & Y2). assert (K : 0 < c * P) by (apply Rmult_lt_0_compat; auto). assert (K1 : 0 < c * P * (1 - delta)) by (apply Rmult_lt_0_compat; lra).
  split; [lra|]. rewrite <- (ln_mult c P), <- !ln_mult by lra. split; apply ln_le; lra.
Qed.

Lemma slope_about lx y p q n d s1 s2 lc e1 e2 : let a := log_point p q (S (S n)) n in let b := log_point p q (S (S n)) (S n) in
  y a <> 0 -> y b <> 0 -> lx b - lx a = s1 * (ln b - ln a) -> s1 = 1 \/ s1 = -1 -> p <> q ->
  lc + d * ln a + e1 <= ln (Rabs (y a)) <= lc + d * ln a + e2 -> lc + d * ln b + e1 <= ln (Rabs (y b)) <= lc + d * ln b + e2 ->
  s2 = (if Rlt_dec p q then -1 else 1) ->
  exists r, slope_down (log_pairs lx y (logspace p q (S (S n)))) = Ok r /\ Rabs (r - s2 * d) <= (e2 - e1) * INR (S n) / (Rabs (q - p) * ln 10).
Proof.
  intros a b A B L S1 NE Ha Hb S2. unfold slope_down. rewrite pairs_end by auto. fold a b. unfold np_quot. rewrite L.
  assert (HN : 0 < INR (S n)) by (apply lt_0_INR; lia). pose proof ln10 as L10. unfold a, b in *. rewrite step_ln in *.
  assert (AB : Rabs (s1 * ((q - p) / INR (S n) * ln 10)) = Rabs (q - p) / INR (S n) * ln 10).
  { unfold Rdiv. rewrite !Rabs_mult. rewrite (Rabs_pos_eq (ln 10)), (Rabs_pos_eq (/ INR (S n))) by (left; auto using Rinv_0_lt_compat).
    replace (Rabs s1) with 1 by (destruct S1 as [-> | ->]; [rewrite Rabs_R1|rewrite Rabs_left1]; lra). ring. }
  assert (QP : 0 < Rabs (q - p)) by (apply Rabs_pos_lt; lra).
  assert (D0 : 0 < Rabs (q - p) / INR (S n) * ln 10) by (apply Rmult_lt_0_compat; auto; apply Rdiv_lt_0_compat; auto).
  rewrite AB. destruct (reqP (Rabs (q - p) / INR (S n) * ln 10) 0) as [K|_]; [lra|]. eexists. split; [reflexivity|].
  set (D := Rabs (q - p) / INR (S n) * ln 10) in *.
  assert (SD : - s2 * D = ln (log_point p q (S (S n)) (S n)) - ln (log_point p q (S (S n)) n)).
  { rewrite step_ln, S2. unfold D. destruct (Rlt_dec p q); [rewrite Rabs_pos_eq by lra|rewrite Rabs_left1 by lra]; unfold Rdiv; ring. }
  replace ((e2 - e1) * INR (S n) / (Rabs (q - p) * ln 10)) with ((e2 - e1) / D) by (unfold D; field; repeat split; lra).
  set (u := ln (Rabs (y (log_point p q (S (S n)) n)))) in *. set (v := ln (Rabs (y (log_point p q (S (S n)) (S n))))) in *.
  replace ((u - v) / D - s2 * d) with ((u - v - s2 * d * D) / D) by (field; lra).
  unfold Rdiv at 1 2. rewrite Rabs_mult, (Rabs_pos_eq (/ D)) by (left; apply Rinv_0_lt_compat; auto).
  apply Rmult_le_compat_r; [left; apply Rinv_0_lt_compat; auto|]. 
  replace (s2 * d * D) with (- d * (ln (log_point p q (S (S n)) (S n)) - ln (log_point p q (S (S n)) n))) by (rewrite <- SD; ring).
  apply Rabs_le. lra.
Qed.

Lemma rpower_ln c h d : 0 < c -> ln (c * Rpower h d) = ln c + d * ln h.
Proof. intros C. rewrite ln_mult; auto; [|apply exp_pos]. unfold Rpower. rewrite ln_exp. ring. Qed.

(** the sampled distances: at most 1/10 *)
Lemma near_points p q n : q <= p -> p <= -1 -> log_point p q (S (S n)) n <= 1 / 10 /\ log_point p q (S (S n)) (S n) <= 1 / 10.
Proof.
  intros Q P. assert (HN : 1 <= INR (S n)) by (rewrite S_INR; pose proof (pos_INR n); lra).
  assert (T : forall t, t <= -1 -> Rpower 10 t <= 1 / 10).
  { intros t Ht. replace (1 / 10) with (Rpower 10 (-1)).
    - unfold Rpower. destruct (Req_dec t (-1)) as [->|]; [lra|]. left. apply exp_increasing. pose proof ln10. nra.
    - replace (-1) with (- (1)) by lra. rewrite Rpower_Ropp, Rpower_1 by lra. lra. }
  split; apply T; replace (S (S n) - 1)%nat with (S n) by lia.
  - assert (K : INR n * ((q - p) / INR (S n)) <= 0); [|lra]. unfold Rdiv. pose proof (pos_INR n). assert (0 < / INR (S n)) by (apply Rinv_0_lt_compat; lra). 
    assert (0 <= INR n * / INR (S n)) by (apply Rmult_le_pos; lra). nra.
  - replace (INR (S n) * ((q - p) / INR (S n))) with (q - p) by (field; lra). lra.
Qed.

Lemma degree_about f x pos p q n c d delta : q < p -> p <= -1 -> 0 < c -> 0 <= delta < 1 -> power_near_about (beside f x pos) c d delta ->
  exists r, estimateDegreeOfPole f x pos (Some (p, q)) (S (S n)) = Ok r /\
    Rabs (r - d) <= (ln (1 + delta) - ln (1 - delta)) * INR (S n) / ((p - q) * ln 10).
Proof.
  intros Q P C D H. destruct (near_points p q n ltac:(lra) P) as (N1 & N2). unfold estimateDegreeOfPole.
  pose proof (H _ (conj (point_pos p q (S (S n)) n) N1)) as H1. pose proof (H _ (conj (point_pos p q (S (S n)) (S n)) N2)) as H2.
  destruct (ln_between c (Rpower (log_point p q (S (S n)) n) d) delta _ C (exp_pos _) D H1) as (A1 & A2). destruct (ln_between c (Rpower (log_point p q (S (S n)) (S n)) d) delta _ C (exp_pos _) D H2) as (B1 & B2).
  rewrite ln_rpower in A2, B2.
  destruct (slope_about (fun e => ln (Rabs e)) (fun e => f (if pos then x + e else x - e)) p q n d 1 1 (ln c) (ln (1 - delta)) (ln (1 + delta))) as (r & R1 & R2); auto.
  - intros K. unfold beside in A1. rewrite K, Rabs_R0 in A1. lra.
  - intros K. unfold beside in B1. rewrite K, Rabs_R0 in B1. lra.
  - rewrite !Rabs_pos_eq by (left; apply point_pos). ring.
  - lra.
  - destruct (Rlt_dec p q); lra.
  - exists r. split; auto. rewrite Rmult_1_l in R2. rewrite (Rabs_left1 (q - p)) in R2 by lra. replace (p - q) with (- (q - p)) by ring. exact R2.
Qed.
Lemma near_exact g c d : power_near g c d -> power_near_about g c d 0.
Proof. intros H h Hh. rewrite (H h Hh). lra. Qed.
Lemma degree_exact f x pos p q n c d : q < p -> p <= -1 -> 0 < c -> power_near (beside f x pos) c d ->
  estimateDegreeOfPole f x pos (Some (p, q)) (S (S n)) = Ok d.
Proof.
  intros Q P C H. destruct (degree_about f x pos p q n c d 0 Q P C ltac:(lra) (near_exact _ _ _ H)) as (r & R1 & R2).
  rewrite R1. f_equal. replace (1 + 0) with 1 in R2 by ring. replace (1 - 0) with 1 in R2 by ring. rewrite ln_1 in R2.
  replace ((0 - 0) * INR (S n) / ((p - q) * ln 10)) with 0 in R2 by (unfold Rdiv; ring).
  pose proof (Rabs_pos (r - d)). assert (K : Rabs (r - d) = 0) by lra. destruct (Req_dec (r - d) 0) as [|E]; [lra|]. apply Rabs_no_R0 in E. lra.
Qed.
Lemma degree_default f x pos N : estimateDegreeOfPole f x pos None N = estimateDegreeOfPole f x pos (Some (pole_from_to x)) N.
Proof. reflexivity. Qed.
Lemma pole_from_to_ok x : exists q, pole_from_to x = (-1, q) /\ q <= -7.
Proof. unfold pole_from_to. destruct (req x 0); eexists; split; try reflexivity; lra. Qed.

Lemma degree_zero f x pos N : (forall h, 0 < h -> beside f x pos h = 0) -> estimateDegreeOfPole f x pos None N = Ok 0.
Proof.
  intros H. unfold estimateDegreeOfPole. destruct (pole_from_to_ok x) as (q & -> & _).
  assert (E : forall l, (forall h, In h l -> 0 < h) -> log_pairs (fun e => ln (Rabs e)) (fun e => f (if pos then x + e else x - e)) l = []).
  { induction l as [|h l IH]; intros HL; auto. unfold log_pairs in *. cbn [flat_map]. rewrite IH by (intros; apply HL; simpl; auto).
    pose proof (H h (HL h (or_introl eq_refl))) as K. unfold beside in K. rewrite K, Rabs_R0. destruct (rltP 0 0); [lra|auto]. }
  rewrite E; auto. intros h Hh. unfold logspace in Hh. apply in_map_iff in Hh. destruct Hh as (i & <- & _). apply point_pos.
Qed.

Lemma testPole_deg f x pos e deriv d : estimateDegreeOfPole f x pos None 10 = Ok d -> 0 <= Rabs e <= 1 ->
  exists b, testPole f x pos e deriv = Ok b /\
    (b = true <-> if deriv then d <= - Rabs e \/ Rabs e <= d <= 1 - Rabs e \/ 1 + Rabs e <= d <= 2 - Rabs e \/ 2 < d else d < e).
Proof.
  intros D E. unfold testPole. rewrite D. cbn [rmap]. eexists. split; [reflexivity|]. destruct deriv.
  - rewrite !orb_true_iff, !andb_true_iff.
    assert (K : (rle (Rabs e) (Rabs d) = true <-> Rabs e <= Rabs d) /\ (rle d (1 - Rabs e) = true <-> d <= 1 - Rabs e) /\ (rle (1 + Rabs e) d = true <-> 1 + Rabs e <= d) /\
                (rle d (2 - Rabs e) = true <-> d <= 2 - Rabs e) /\ (rlt 2 d = true <-> 2 < d)).
    { splits; match goal with |- rle ?a ?b = true <-> _ => destruct (rleP a b) | |- rlt ?a ?b = true <-> _ => destruct (rltP a b) end; split; auto; try discriminate; lra. }
    destruct K as (-> & -> & -> & -> & ->). unfold Rabs at 2. destruct (Rcase_abs d); lra.
  - destruct (rleP e d); simpl; split; intros; try lra; try discriminate; auto.
Qed.
