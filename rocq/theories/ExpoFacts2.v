(** Proofs about exponents at infinity, and the functions on which detection fails. *)
From Coq Require Import Reals Lra List Bool Lia Sorted.
From Coquelicot Require Import Coquelicot.
From Verif Require Import Base Seg Expo ExpoSpec ExpoFacts.
Import List ListNotations.
Open Scope R_scope.

Lemma rpow_le (u v : R) : u <= v -> Rpower 10 u <= Rpower 10 v.
Proof. intros H. destruct (Req_dec u v) as [->|]; [lra|]. left. unfold Rpower. apply exp_increasing. pose proof ln10. nra. Qed.
Lemma rpow_lt (u v : R) : u < v -> Rpower 10 u < Rpower 10 v.
Proof. intros H. unfold Rpower. apply exp_increasing. pose proof ln10. nra. Qed.
(** the last two points of an increasing scale *)
Lemma far_points p q n T : p < q -> T <= Rpower 10 (q - (q - p) / INR (S n)) -> T <= log_point p q (S (S n)) n /\ T <= log_point p q (S (S n)) (S n).
Proof.
  intros Q H. assert (HN : 0 < INR (S n)) by (apply lt_0_INR; lia). 
  assert (E1 : log_point p q (S (S n)) n = Rpower 10 (q - (q - p) / INR (S n))).
  { unfold log_point. f_equal. replace (S (S n) - 1)%nat with (S n) by lia. rewrite S_INR in *. field. lra. }
  assert (E2 : log_point p q (S (S n)) (S n) = Rpower 10 q).
  { unfold log_point. f_equal. replace (S (S n) - 1)%nat with (S n) by lia. field. lra. }
  rewrite E1, E2. split; auto. apply (Rle_trans _ _ _ H), rpow_le. assert (0 < (q - p) / INR (S n)) by (apply Rdiv_lt_0_compat; lra). lra.
Qed.
Lemma far_lt p q n : p < q -> log_point p q (S (S n)) n < log_point p q (S (S n)) (S n).
Proof.
  intros Q. unfold log_point. apply rpow_lt. replace (S (S n) - 1)%nat with (S n) by lia. assert (HN : 0 < INR (S n)) by (apply lt_0_INR; lia).
  assert (0 < (q - p) / INR (S n)) by (apply Rdiv_lt_0_compat; lra). rewrite (S_INR n) at 2. nra.
Qed.

Lemma at_inf_exact (f : R -> R) (pos : bool) p q n T c d : p < q -> 0 < c -> T <= Rpower 10 (q - (q - p) / INR (S n)) -> power_tail (fun t => f (if pos then t else - t)) T c d ->
  estimateAtInfExponent f pos (Some (p, q)) (S (S n)) = Ok (- d).
Proof.
  intros Q C HT H. destruct (far_points p q n T Q HT) as (F1 & F2). unfold estimateAtInfExponent.
  pose proof (H _ F1) as H1. pose proof (H _ F2) as H2.
  assert (P1 : forall h, 0 < c * Rpower h d) by (intros h; apply Rmult_lt_0_compat; auto; apply exp_pos).
  destruct (slope_about (fun e => ln (Rabs e)) (fun e => f (if pos then e else - e)) p q n d 1 (-1) (ln c) 0 0) as (r & R1 & R2).
  - intros K. pose proof (P1 (log_point p q (S (S n)) n)) as PP. rewrite <- H1, K, Rabs_R0 in PP. lra.
  - intros K. pose proof (P1 (log_point p q (S (S n)) (S n))) as PP. rewrite <- H2, K, Rabs_R0 in PP. lra.
  - rewrite !Rabs_pos_eq by (left; apply point_pos). ring.
  - auto.
  - lra.
  - cbv beta. rewrite H1, rpower_ln by auto. lra.
  - cbv beta. rewrite H2, rpower_ln by auto. lra.
  - destruct (Rlt_dec p q); lra.
  - rewrite R1. f_equal. replace ((0 - 0) * INR (S n) / (Rabs (q - p) * ln 10)) with 0 in R2 by (unfold Rdiv; ring).
    pose proof (Rabs_pos (r - -1 * d)). assert (K : Rabs (r - -1 * d) = 0) by lra. destruct (Req_dec (r - -1 * d) 0) as [|E]; [lra|]. apply Rabs_no_R0 in E. lra.
Qed.

Lemma slope_up_eq lx y p q n (s : R) : let a := log_point p q (S (S n)) n in let b := log_point p q (S (S n)) (S n) in
  p < q -> y a <> 0 -> y b <> 0 -> s = 1 \/ s = -1 -> (forall e, lx e = s * ln e) ->
  slope_up (log_pairs lx y (logspace p q (S (S n)))) =
    Ok (let e := (ln (Rabs (y b)) - ln (Rabs (y a))) / (ln b - ln a) in if rlt 50 e then p_infty else Finite e).
Proof.
  intros a b Q A B S1 L. unfold slope_up. rewrite pairs_end by auto. fold a b. unfold np_quot. rewrite !L.
  assert (AB : ln a < ln b) by (apply ln_increasing; [apply point_pos|apply far_lt; auto]).
  assert (E : Rabs (s * ln b - s * ln a) = ln b - ln a).
  { destruct S1 as [-> | ->]; [rewrite Rabs_pos_eq; lra|rewrite Rabs_left1; lra]. }
  rewrite E. destruct (reqP (ln b - ln a) 0); [lra|]. reflexivity.
Qed.
Lemma tail_eq (f : R -> R) (pos : bool) p q n : let a := log_point p q (S (S n)) n in let b := log_point p q (S (S n)) (S n) in let g := fun t => f (if pos then t else - t) in
  p < q -> g a <> 0 -> g b <> 0 ->
  estimateTailExponent f pos (Some (p, q)) (S (S n)) =
    Ok (let e := (ln (Rabs (g b)) - ln (Rabs (g a))) / (ln b - ln a) in if rlt 50 e then p_infty else Finite e).
Proof.
  intros a b g Q A B. unfold estimateTailExponent.
  apply (slope_up_eq (fun e => if pos then ln e else - ln e) g p q n (if pos then 1 else -1)); auto; destruct pos; auto; intros; ring.
Qed.
Lemma tail_exact (f : R -> R) (pos : bool) p q n T c d : p < q -> 0 < c -> d <= 50 -> T <= Rpower 10 (q - (q - p) / INR (S n)) -> power_tail (fun t => f (if pos then t else - t)) T c d ->
  estimateTailExponent f pos (Some (p, q)) (S (S n)) = Ok (Finite d).
Proof.
  intros Q C D HT H. destruct (far_points p q n T Q HT) as (F1 & F2). pose proof (H _ F1) as H1. pose proof (H _ F2) as H2.
  assert (P1 : forall h, 0 < c * Rpower h d) by (intros h; apply Rmult_lt_0_compat; auto; apply exp_pos).
  rewrite tail_eq; auto.
  - rewrite H1, H2, !rpower_ln by auto. cbv zeta. set (a := log_point p q (S (S n)) n). set (b := log_point p q (S (S n)) (S n)).
    assert (AB : ln a < ln b) by (apply ln_increasing; [apply point_pos|apply far_lt; auto]).
    replace ((ln c + d * ln b - (ln c + d * ln a)) / (ln b - ln a)) with d by (field; lra). destruct (rltP 50 d); [lra|auto].
  - intros K. pose proof (P1 (log_point p q (S (S n)) n)) as PP. rewrite <- H1, K, Rabs_R0 in PP. lra.
  - intros K. pose proof (P1 (log_point p q (S (S n)) (S n))) as PP. rewrite <- H2, K, Rabs_R0 in PP. lra.
Qed.

(** a tail that does not grow never gets the exponent inf; zeros included *)
Lemma pairs_sub lx y l : exists l', log_pairs lx y l = map (fun e => (lx e, ln (Rabs (y e)))) l' /\ (forall e, In e l' -> In e l /\ y e <> 0) /\
  (forall R0 : R -> R -> Prop, Sorted.StronglySorted R0 l -> Sorted.StronglySorted R0 l').
Proof.
  induction l as [|e l (l' & E & I & S0)]; [exists []; splits; auto; simpl; tauto|]. unfold log_pairs in *. cbn [flat_map].
  destruct (rltP 0 (Rabs (y e))) as [K|K].
  - exists (e :: l'). splits.
    + cbn [app map]. rewrite E. auto.
    + intros x [<-|Hx]; [split; [left; auto|]|destruct (I x Hx); split; auto; right; auto]. intros Z. rewrite Z, Rabs_R0 in K. lra.
    + intros R0 H. inversion H as [|? ? H1 H2]; subst. constructor; auto. rewrite Forall_forall in H2 |- *. intros x Hx. apply H2. apply I; auto.
  - exists l'. splits; auto. { intros x Hx. destruct (I x Hx). split; auto. right; auto. } intros R0 H. inversion H; subst. auto.
Qed.
Lemma last2_in {A} (l : list A) a b : last2 l = Some (a, b) -> exists l', l = l' ++ [a; b].
Proof.
  induction l as [|x l IH]; [discriminate|]. cbn [last2]. destruct l as [|y r]; [discriminate|]. destruct r as [|z r].
  - intros [= <- <-]. exists []. reflexivity.
  - intros H. destruct (IH H) as (l' & E). exists (x :: l'). rewrite E. reflexivity.
Qed.
Lemma logspace_sorted p q N : p < q -> Sorted.StronglySorted Rlt (logspace p q N).
Proof.
  intros Q. unfold logspace. assert (G : forall k s, (s + k <= N)%nat -> Sorted.StronglySorted Rlt (map (log_point p q N) (seq s k))).
  { induction k as [|k IH]; intros s Hs; [constructor|]. cbn [seq map]. constructor; [apply IH; lia|]. apply Forall_forall. intros x Hx.
    apply in_map_iff in Hx. destruct Hx as (i & <- & Hi). apply in_seq in Hi. unfold log_point. apply rpow_lt.
    assert (HN : 0 < INR (N - 1)) by (apply lt_0_INR; lia). assert (0 < (q - p) / INR (N - 1)) by (apply Rdiv_lt_0_compat; lra).
    assert (INR s < INR i) by (apply lt_INR; lia). nra. }
  apply G. lia.
Qed.
Lemma tail_finite (f : R -> R) (pos : bool) p q N : p < q -> (forall s t, Rpower 10 p <= s -> s <= t -> Rabs (f (if pos then t else - t)) <= Rabs (f (if pos then s else - s))) ->
  exists e, estimateTailExponent f pos (Some (p, q)) N = Ok (Finite e) /\ e <= 0.
Proof.
  intros Q M. unfold estimateTailExponent. set (lx := fun e => if pos then ln e else - ln e). set (g := fun e => f (if pos then e else - e)).
  destruct (pairs_sub lx g (logspace p q N)) as (l' & E & I & S0). unfold slope_up. rewrite E.
  destruct (last2 (map (fun e => (lx e, ln (Rabs (g e)))) l')) as [[[x1 y1] [x2 y2]]|] eqn:L; [|exists 0; split; auto; lra].
  apply last2_in in L. destruct L as (r & L).
  assert (X : exists l0 a b, l' = l0 ++ [a; b] /\ (x1, y1) = (lx a, ln (Rabs (g a))) /\ (x2, y2) = (lx b, ln (Rabs (g b)))).
  { clear - L. revert r L. induction l' as [|a l' IH]; intros r L; [destruct r; discriminate|]. destruct r as [|u r].
    - cbn [map app] in L. injection L as L1 L1' L2. destruct l' as [|b [|c l']]; try discriminate. cbn [map] in L2. injection L2 as L2 L3.
      exists [], a, b. splits; auto; congruence.
    - cbn [map app] in L. apply (f_equal (@tl _)) in L. cbn [tl] in L. destruct (IH r L) as (l0 & a' & b' & -> & ?). exists (a :: l0), a', b'. split; auto. }
  destruct X as (l0 & a & b & -> & [= -> ->] & [= -> ->]).
  specialize (S0 Rlt (logspace_sorted p q N Q)).
  assert (AB : a < b). { clear - S0. induction l0 as [|u l0 IH]; [inversion S0 as [|? ? ? H]; inversion H; auto|]. inversion S0; subst; auto. }
  destruct (I a) as (Ia & Na); [apply in_or_app; right; simpl; auto|]. destruct (I b) as (Ib & Nb); [apply in_or_app; right; simpl; auto|].
  assert (Pa : Rpower 10 p <= a).
  { unfold logspace in Ia. apply in_map_iff in Ia. destruct Ia as (i & <- & Hi). apply in_seq in Hi. unfold log_point. apply rpow_le.
    destruct (Nat.eq_dec (N - 1) 0) as [Z|Z]. { assert (i = 0)%nat by lia. subst i. simpl. lra. }
    assert (HN : 0 < INR (N - 1)) by (apply lt_0_INR; lia). assert (0 < (q - p) / INR (N - 1)) by (apply Rdiv_lt_0_compat; lra). pose proof (pos_INR i). nra. }
  assert (P0 : 0 < a) by (apply (Rlt_le_trans _ _ _ (exp_pos _) Pa)).
  assert (LL : ln a < ln b) by (apply ln_increasing; lra).
  assert (D : Rabs (lx b - lx a) = ln b - ln a) by (unfold lx; destruct pos; [rewrite Rabs_pos_eq; lra|rewrite Rabs_left1; lra]).
  unfold np_quot. rewrite D. destruct (reqP (ln b - ln a) 0); [lra|]. cbn [rmap].
  assert (Y : ln (Rabs (g b)) <= ln (Rabs (g a))) by (apply ln_le; [apply Rabs_pos_lt; auto|apply M; lra]).
  assert (Z : (ln (Rabs (g b)) - ln (Rabs (g a))) / (ln b - ln a) <= 0).
  { unfold Rdiv. assert (0 < / (ln b - ln a)) by (apply Rinv_0_lt_compat; lra). nra. }
  destruct (rltP 50 ((ln (Rabs (g b)) - ln (Rabs (g a))) / (ln b - ln a))); [lra|]. eexists. split; [reflexivity|auto].
Qed.
