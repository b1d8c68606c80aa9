(** Proofs about the logarithm of the gamma function. *)
From Coq Require Import Reals Lra Lia List Bool Arith.
From Coquelicot Require Import Coquelicot.
From Verif Require Import Base Lgam LgamSpec.
Import List ListNotations.
Open Scope R_scope.

(** polynomials *)
Definition horner (x : R) (cs : list R) (a : R) : R := fold_left (fun a c => a * x + c) cs a.
Lemma poly_cons c cs x : poly (c :: cs) x = c * x ^ length cs + poly cs x.
Proof.
  unfold poly. cbn [length seq map]. unfold sumR at 1. cbn [fold_right]. fold sumR. rewrite Nat.sub_0_r. cbn [nth].
  replace (S (length cs) - 1)%nat with (length cs) by lia. f_equal.
  rewrite <- seq_shift, map_map. apply sumR_ext. intros i Hi. apply in_seq in Hi. cbn [nth]. f_equal. f_equal. lia.
Qed.
Lemma horner_poly x cs : forall a, horner x cs a = a * x ^ length cs + poly cs x.
Proof.
  induction cs as [|c cs IH]; intros a; [unfold horner, poly; simpl; ring|].
  change (horner x (c :: cs) a) with (horner x cs (a * x + c)). rewrite IH, poly_cons. simpl. ring.
Qed.
Lemma polevl_loop_ok x cs : forall pre a, polevl_loop x (pre ++ cs) (length cs) (length pre) a = Ok (horner x cs a).
Proof.
  induction cs as [|c cs IH]; intros pre a; [reflexivity|]. cbn [length polevl_loop]. unfold coef_at.
  rewrite nth_error_app2, Nat.sub_diag by lia. cbn [nth_error rbind].
  specialize (IH (pre ++ [c]) (a * x + c)). rewrite app_length, <- app_assoc in IH. simpl in IH. rewrite Nat.add_1_r in IH. rewrite IH. reflexivity.
Qed.
Lemma polevl_ok x l N : length l = S N -> polevl x l N = Ok (poly l x).
Proof.
  destruct l as [|c cs]; [discriminate|]. intros [= <-]. unfold polevl. cbn [coef_at nth_error rbind].
  pose proof (polevl_loop_ok x cs [c] c) as H. simpl in H. rewrite H. rewrite horner_poly, poly_cons. reflexivity.
Qed.
Lemma polevl_loop_short x cs : forall k pre a, (length cs < k)%nat -> polevl_loop x (pre ++ cs) k (length pre) a = Err EIndex.
Proof.
  induction cs as [|c cs IH]; intros k pre a K; (destruct k as [|k]; [simpl in K; lia|]); cbn [polevl_loop]; unfold coef_at.
  - rewrite app_nil_r. rewrite (proj2 (nth_error_None pre (length pre))) by lia. reflexivity.
  - rewrite nth_error_app2, Nat.sub_diag by lia. cbn [nth_error rbind].
    specialize (IH k (pre ++ [c]) (a * x + c)). rewrite app_length, <- app_assoc in IH. simpl in IH. rewrite Nat.add_1_r in IH. apply IH. simpl in K. lia.
Qed.
Lemma polevl_short x l N : (length l <= N)%nat -> polevl x l N = Err EIndex.
Proof.
  destruct l as [|c cs]; intros H; [reflexivity|]. unfold polevl. cbn [coef_at nth_error rbind].
  change (c :: cs) with ([c] ++ cs). apply (polevl_loop_short x cs N [c]). simpl in H. lia.
Qed.

Lemma cC_neg t : 0 <= t <= 1 -> poly cC t < 0.
Proof.
  intros (T0 & T1). unfold cC. rewrite !poly_cons. cbn [length]. unfold poly. cbn [length seq map sumR fold_right].
  assert (P : forall n, 0 <= t ^ n <= 1). { intros n. split; [apply pow_le; auto|]. rewrite <- (pow1 n). apply pow_incr. lra. }
  pose proof (P 6%nat). pose proof (P 5%nat). pose proof (P 4%nat). pose proof (P 3%nat). pose proof (P 2%nat). pose proof (P 1%nat).
  change (t ^ 0) with 1. lra.
Qed.

(** poles *)
Lemma pole_succ u : ~ is_pole u -> u <> 0.
Proof. intros H ->. apply H. exists 0%nat. simpl. lra. Qed.
Lemma pole_up u : ~ is_pole u -> ~ is_pole (u + 1).
Proof. intros H (n & E). apply H. exists (S n). rewrite S_INR. lra. Qed.
Lemma pos_no_pole u : 0 < u -> ~ is_pole u.
Proof. intros H (n & E). pose proof (pos_INR n). lra. Qed.

Lemma down_ok lo G : gamma_like lo G -> lo <= 2 -> forall fuel x p u z, u = x + p -> u < 3 + INR fuel ->
  exists p' u' z' k, loop_down fuel x p u z = Ok (p', u', z') /\ p' = p + IZR k /\ u' = x + p' /\ u' < 3 /\
    (3 <= u -> 2 <= u') /\ (u < 3 -> u' = u) /\ z' * G u' = z * G u /\ (z <> 0 -> z' <> 0).
Proof.
  intros (G2 & GF & GP) LO. induction fuel as [|n IH]; intros x p u z U F; cbn [loop_down]; destruct (rleP 3 u) as [H|H].
  - simpl in F. lra.
  - exists p, u, z, 0%Z. splits; auto; lra.
  - rewrite S_INR in F. cbv zeta. destruct (IH x (p - 1) (x + (p - 1)) (z * (x + (p - 1)))) as (p' & u' & z' & k & E & K & U' & B & R & N & GZ & NZ); [auto|lra|].
    exists p', u', z', (k - 1)%Z. splits; auto.
    + rewrite K, minus_IZR. ring.
    + intros _. destruct (Rlt_dec (x + (p - 1)) 3) as [A|A]; [rewrite N by auto; lra|apply R; lra].
    + intros X. lra.
    + rewrite GZ. replace u with (x + (p - 1) + 1) by lra. rewrite (GF (x + (p - 1))); [ring|lra|]. apply pos_no_pole. lra.
    + intros Z. apply NZ. apply Rmult_integral_contrapositive_currified; auto. lra.
  - exists p, u, z, 0%Z. splits; auto; lra.
Qed.

Lemma up_ok lo G : gamma_like lo G -> forall fuel x p u z, lo <= u -> ~ is_pole u -> u = x + p -> u < 3 -> 2 - INR fuel <= u ->
  exists p' u' z' k, loop_up fuel x p u z = Ok (Some (p', u', z')) /\ p' = p + IZR k /\ u' = x + p' /\ 2 <= u' < 3 /\
    z' * G u' = z * G u /\ (z <> 0 -> z' <> 0).
Proof.
  intros (G2 & GF & GP). induction fuel as [|n IH]; intros x p u z LU NP U B F; cbn [loop_up]; destruct (rltP u 2) as [H|H].
  - simpl in F. lra.
  - exists p, u, z, 0%Z. splits; auto; lra.
  - pose proof (pole_succ u NP) as U0. destruct (reqP u 0) as [E|_]; [contradiction|]. unfold pydiv. destruct (reqP u 0) as [E|_]; [contradiction|]. cbn [rbind]. cbv zeta.
    rewrite S_INR in F.
    assert (UE : x + (p + 1) = u + 1) by lra.
    destruct (IH x (p + 1) (x + (p + 1)) (z / u)) as (p' & u' & z' & k & E & K & U' & R & GZ & NZ); try rewrite UE; try lra; [apply pole_up; auto|].
    exists p', u', z', (k + 1)%Z. splits; auto; try lra.
    + rewrite <- UE. exact E.
    + rewrite K, plus_IZR. ring.
    + rewrite GZ, UE, (GF u) by auto. field. auto.
    + intros Z. apply NZ. unfold Rdiv. apply Rmult_integral_contrapositive_currified; auto. apply Rinv_neq_0_compat; auto.
  - exists p, u, z, 0%Z. splits; auto; lra.
Qed.

Lemma up_pole : forall n fuel x p u z, u = - INR n -> u = x + p -> (n < fuel)%nat -> loop_up fuel x p u z = Ok None.
Proof.
  induction n as [|n IH]; intros fuel x p u z U UX F; (destruct fuel as [|fuel]; [lia|]); cbn [loop_up].
  - simpl in U. destruct (rltP u 2) as [_|X]; [|lra]. destruct (reqP u 0) as [_|X]; [auto|lra].
  - pose proof (pos_INR n). rewrite S_INR in U. destruct (rltP u 2) as [_|X]; [|lra]. destruct (reqP u 0) as [X|X]; [lra|]. unfold pydiv. destruct (reqP u 0) as [Y|_]; [lra|].
    cbn [rbind]. cbv zeta. apply IH; [lra|lra|lia].
Qed.

Lemma rounds_val : INR rounds = 64.
Proof. unfold rounds. rewrite INR_IZR_INZ. reflexivity. Qed.

Lemma ln_abs_mult a b : a <> 0 -> 0 < b -> ln (Rabs (a * b)) = ln (Rabs a) + ln b.
Proof. intros A B. rewrite Rabs_mult, (Rabs_pos_eq b) by lra. apply ln_mult; auto. apply Rabs_pos_lt; auto. Qed.

(** the branch x < 13: the error is that of the rational function at the fractional part *)
Definition rat (t : R) : R := t * poly cB t / poly cC t.
Lemma rat_0 : rat 0 = 0.
Proof. unfold rat. unfold Rdiv. rewrite !Rmult_0_l. reflexivity. Qed.
Lemma frac_of x u k : u = x + IZR k -> 2 <= u < 3 -> frac_part x = u - 2.
Proof.
  intros U R. assert (I : Int_part x = (2 - k)%Z).
  { pose proof (base_Int_part x) as (A & B). assert (A1 : IZR (Int_part x) < IZR (3 - k)) by (rewrite minus_IZR; lra).
    assert (B1 : IZR (1 - k) < IZR (Int_part x)) by (rewrite minus_IZR; lra). apply lt_IZR in A1. apply lt_IZR in B1. lia. }
  unfold frac_part. rewrite I, minus_IZR. lra.
Qed.
Lemma mid_ok lo G x : gamma_like lo G -> lo <= 2 -> lo <= x -> -34 <= x < 13 -> ~ is_pole x ->
  exists v, lgamma_mid x = Ok (Finite v) /\ v - ln (Rabs (G x)) = rat (frac_part x) - ln (G (2 + frac_part x)).
Proof.
  intros GL LO LX X NP. unfold lgamma_mid. pose proof rounds_val as RV.
  destruct (down_ok lo G GL LO rounds x 0 x 1) as (p & u & z & k & E1 & K1 & U1 & B1 & R1 & N1 & GZ1 & NZ1); [lra|lra|].
  rewrite E1. cbn [rbind].
  assert (P1 : lo <= u /\ ~ is_pole u /\ -34 <= u).
  { destruct (Rlt_dec x 3) as [A|A]; [rewrite N1 by auto; splits; auto; lra|]. specialize (R1 ltac:(lra)). splits; try lra. apply pos_no_pole. lra. }
  destruct P1 as (LU & NU & U34).
  destruct (up_ok lo G GL rounds x p u z LU NU U1 B1) as (p' & u' & z' & k' & E2 & K2 & U2 & R2 & GZ2 & NZ2); [lra|].
  rewrite E2. cbn [rbind].
  assert (ZN : z' <> 0) by (apply NZ2, NZ1; lra).
  assert (GE : G x = z' * G u') by (rewrite GZ2, GZ1; ring).
  assert (ZA : (if rlt z' 0 then - z' else z') = Rabs z').
  { destruct (rltP z' 0); [rewrite Rabs_left; auto|rewrite Rabs_pos_eq; lra]. }
  rewrite ZA. assert (AP : 0 < Rabs z') by (apply Rabs_pos_lt; auto).
  assert (PL : pylog (Rabs z') = Ok (ln (Rabs z'))) by (unfold pylog; destruct (rleP (Rabs z') 0); [lra|auto]).
  destruct GL as (G2 & GF & GP).
  assert (FR : frac_part x = u' - 2). { apply (frac_of x u' (k + k')); auto. rewrite plus_IZR. lra. }
  rewrite FR, GE, ln_abs_mult by (auto; apply GP; lra). replace (2 + (u' - 2)) with u' by ring.
  destruct (reqP u' 2) as [U'2|U'2].
  - rewrite PL. cbn [rbind]. exists (ln (Rabs z')). split; auto. rewrite U'2. replace (2 - 2) with 0 by ring. rewrite rat_0. ring.
  - cbv zeta. rewrite !polevl_ok by reflexivity. cbn [rbind].
    set (t := x + (p' - 2)). assert (T : t = u' - 2) by (unfold t; lra). pose proof (cC_neg t ltac:(lra)) as CN.
    unfold pydiv. destruct (reqP (poly cC t) 0) as [Y|_]; [lra|]. cbn [rbind]. rewrite PL. cbn [rbind].
    exists (ln (Rabs z') + t * poly cB t / poly cC t). split; auto. rewrite <- T. unfold rat. ring.
Qed.

Lemma mid_pole n : (n <= 34)%nat -> lgamma_mid (- INR n) = Ok p_infty.
Proof.
  intros N. unfold lgamma_mid. pose proof (pos_INR n). unfold rounds at 1. cbn [loop_down].
  destruct (rleP 3 (- INR n)); [lra|]. cbn [rbind]. rewrite (up_pole n rounds); auto. lra. unfold rounds. lia.
Qed.

Lemma lgamma_mid_ok lo G (x : R) : gamma_like lo G -> lo <= 2 -> lo <= x -> -34 <= x < 13 -> ~ is_pole x ->
  exists v, lgamma x = Ok (Finite v) /\ v - ln (Rabs (G x)) = rat (frac_part x) - ln (G (2 + frac_part x)).
Proof.
  intros GL LO LX X NP. unfold lgamma, lgamma_right. destruct (rltP x (- 34)); [lra|]. destruct (rltP x 13); [|lra].
  eapply mid_ok; eauto.
Qed.

(** the large branch always gives a number, up to MAXLGM *)
Lemma big_ok x : 13 <= x <= MAXLGM -> exists w, lgamma_big x = Ok (Finite w).
Proof.
  intros (X1 & X2). unfold lgamma_big. destruct (rltP MAXLGM x); [lra|]. unfold pylog. destruct (rleP x 0); [lra|]. cbn [rbind]. cbv zeta.
  destruct (rlt 1e8 x); [eauto|]. destruct (rle 1000 x); [eauto|]. rewrite polevl_ok by reflexivity. cbn [rbind]. eauto.
Qed.

(** floors *)
Lemma flr_bounds q : flr q <= q < flr q + 1.
Proof. unfold flr. pose proof (base_Int_part q) as (A & B). lra. Qed.
Lemma flr_int n : flr (IZR n) = IZR n.
Proof.
  pose proof (flr_bounds (IZR n)) as (A & B). unfold flr in *. f_equal. rewrite <- plus_IZR in B. apply le_IZR in A. apply lt_IZR in B. lia.
Qed.

Lemma sin_shift_Z k t : Rabs (sin (t + IZR k * PI)) = Rabs (sin t).
Proof.
  assert (N : forall n t, Rabs (sin (t + INR n * PI)) = Rabs (sin t)).
  { induction n as [|n IH]; intros s; [simpl; f_equal; f_equal; ring|]. rewrite S_INR.
    replace (s + (INR n + 1) * PI) with (s + INR n * PI + PI) by ring. rewrite neg_sin, Rabs_Ropp. auto. }
  destruct (Z_le_dec 0 k) as [H|H].
  - rewrite <- (Z2Nat.id k H), <- INR_IZR_INZ. apply N.
  - set (n := Z.to_nat (- k)). assert (E : IZR k = - INR n) by (unfold n; rewrite INR_IZR_INZ, Z2Nat.id, opp_IZR by lia; ring).
    rewrite E. rewrite <- (N n (t + - INR n * PI)). f_equal. f_equal. ring.
Qed.

(** the reflected part *)
Definition red (q : R) : R := let z := q - flr q in if rlt 0.5 z then flr q + 1 - q else z.
Lemma red_sin q : flr q <> q -> 0 < sin (PI * red q) /\ sin (PI * red q) = Rabs (sin (PI * q)).
Proof.
  intros N. pose proof (flr_bounds q) as (A & B). pose proof PI_RGT_0 as HP.
  assert (R0 : 0 < red q < 1). { unfold red. cbv zeta. destruct (rltP 0.5 (q - flr q)); lra. }
  assert (S0 : 0 < sin (PI * red q)) by (apply sin_gt_0; nra).
  split; auto. rewrite <- (Rabs_pos_eq (sin (PI * red q))) by lra. unfold red in *. cbv zeta in *. destruct (rltP 0.5 (q - flr q)).
  - replace (PI * (flr q + 1 - q)) with (- (PI * q + IZR (- (Int_part q + 1)) * PI)) by (rewrite opp_IZR, plus_IZR; unfold flr; ring).
    rewrite sin_neg, Rabs_Ropp. apply sin_shift_Z.
  - replace (PI * (q - flr q)) with (PI * q + IZR (- Int_part q) * PI) by (rewrite opp_IZR; unfold flr; ring). apply sin_shift_Z.
Qed.

Lemma lgamma_reflect G d (q w : R) : reflection G -> 34 < q -> ~ is_pole (- q) -> lgamma q = Ok (Finite w) -> Rabs (w - ln (Rabs (G q))) <= d ->
  exists v, lgamma (- q) = Ok (Finite v) /\ Rabs (v - ln (Rabs (G (- q)))) <= d + Rabs (LOGPI - ln PI).
Proof.
  intros RF Q NP W D. pose proof PI_RGT_0 as HP.
  assert (WR : lgamma_right q = Ok (Finite w)). { unfold lgamma in W. destruct (rltP q (- 34)); [lra|]. exact W. }
  assert (FN : flr q <> q).
  { intros E. apply NP. exists (Z.to_nat (Int_part q)). unfold flr in E. assert (0 <= Int_part q)%Z by (apply le_IZR; lra).
    rewrite INR_IZR_INZ, Z2Nat.id by auto. rewrite E. reflexivity. }
  destruct (red_sin q FN) as (S0 & SE).
  unfold lgamma. destruct (rltP (- q) (- 34)); [|lra]. cbv zeta. rewrite Ropp_involutive, WR. cbn [rbind].
  destruct (reqP (flr q) q); [contradiction|]. fold (red q).
  change (if rlt 0.5 (q - flr q) then flr q + 1 - q else q - flr q) with (red q).
  assert (QS : 0 < q * sin (PI * red q)) by (apply Rmult_lt_0_compat; lra).
  destruct (reqP (q * sin (PI * red q)) 0); [lra|]. unfold pylog. destruct (rleP (q * sin (PI * red q)) 0); [lra|]. cbn [rbind].
  exists (LOGPI - ln (q * sin (PI * red q)) - w). split; [reflexivity|].
  assert (NQ : ~ is_pole q) by (apply pos_no_pole; lra).
  pose proof (RF q NQ NP) as E.
  assert (GQ : G q <> 0 /\ G (- q) <> 0).
  { split; intros Z; rewrite Z in E; [rewrite !Rmult_0_l in E|rewrite Rmult_0_r, Rmult_0_l in E]; lra. }
  destruct GQ as (GQ & GM).
  assert (L : ln (Rabs (G (- q))) = ln PI - ln (q * sin (PI * red q)) - ln (Rabs (G q))).
  { assert (EA : Rabs (G q) * Rabs (G (- q)) * (q * sin (PI * red q)) = PI).
    { rewrite SE. rewrite <- (Rabs_pos_eq q) at 3 by lra. rewrite <- !Rabs_mult, E, Rabs_Ropp. apply Rabs_pos_eq. lra. }
    rewrite <- EA at 1. pose proof (Rabs_pos_lt _ GQ). pose proof (Rabs_pos_lt _ GM).
    rewrite ln_mult; auto; [|apply Rmult_lt_0_compat; auto]. rewrite ln_mult by auto. ring. }
  rewrite L. replace (LOGPI - ln (q * sin (PI * red q)) - w - (ln PI - ln (q * sin (PI * red q)) - ln (Rabs (G q))))
    with ((LOGPI - ln PI) + - (w - ln (Rabs (G q)))) by ring.
  eapply Rle_trans; [apply Rabs_triang|]. rewrite Rabs_Ropp. lra.
Qed.

Lemma big_total x : 13 <= x -> exists w, lgamma_big x = Ok w.
Proof.
  intros X. destruct (Rle_dec x MAXLGM) as [H|H]; [destruct (big_ok x) as (w & E); [lra|eauto]|].
  unfold lgamma_big. destruct (rltP MAXLGM x); [eauto|lra].
Qed.
Lemma lgamma_pole (x : R) : is_pole x -> lgamma x = Ok p_infty.
Proof.
  intros (n & ->). unfold lgamma. destruct (rltP (- INR n) (- 34)) as [H|H].
  - cbv zeta. rewrite Ropp_involutive. unfold lgamma_right. destruct (rltP (INR n) 13); [lra|].
    destruct (big_total (INR n)) as (w & E); [lra|]. rewrite E. cbn [rbind]. rewrite INR_IZR_INZ, flr_int. destruct (reqP (IZR (Z.of_nat n)) (IZR (Z.of_nat n))); [auto|lra].
  - unfold lgamma_right. pose proof (pos_INR n). destruct (rltP (- INR n) 13); [|lra]. apply mid_pole. apply INR_le. replace (INR 34) with 34 by (rewrite INR_IZR_INZ; reflexivity). lra.
Qed.
