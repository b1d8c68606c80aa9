(** Facts: the companion matrix of a Chebyshev series. *)
From Coq Require Import Reals Lra Lia List Bool Arith.
From Verif Require Import Base InterpSpec Interp Grid Quad ChebT ChebTSpec QuadFacts QuadFacts2 QuadFacts3 ChebTFacts.
Import List ListNotations.
Open Scope R_scope.

Lemma Tn_T k x : Tn k x = T k x.
Proof. revert k. apply T_pair; [rewrite T_0; auto|rewrite T_1; auto|]. intros k H1 H2. rewrite T_SS. cbn [Tn]. change (match k with O => x | S k'' => 2 * x * Tn k x - Tn k'' x end) with (Tn (S k) x). rewrite H1, H2. auto. Qed.
Lemma series_fun c x : cheb_series c x = bsum (length c) (fun i => nth i c 0 * T i x).
Proof. unfold cheb_series, bsum. f_equal. apply map_ext. intros i. rewrite Tn_T. auto. Qed.
Lemma dotp_fun F G n : sumR (map (fun p => fst p * snd p) (combine (map F (seq 0 n)) (map G (seq 0 n)))) = bsum n (fun i => F i * G i).
Proof.
  unfold bsum. f_equal. generalize (seq 0 n). induction l as [|i l IH]; simpl; auto. rewrite IH. auto.
Qed.
Lemma vec_fun (v : list R) n : length v = n -> v = map (fun i => nth i v 0) (seq 0 n).
Proof. intros H. apply list_fun; auto. Qed.
Lemma map_inj (F G : nat -> R) n : map F (seq 0 n) = map G (seq 0 n) -> forall i, (i < n)%nat -> F i = G i.
Proof. intros E i Hi. rewrite <- (nth_seq_map F n i Hi), <- (nth_seq_map G n i Hi), E. auto. Qed.

Section Comp.
Variables (c : list R) (K : nat).
Hypothesis HK : (2 <= K)%nat.
Hypothesis Lc : length c = S K.
Hypothesis LN : nth K c 0 <> 0.
Lemma last_nth' : last c 0 = nth K c 0.
Proof. rewrite (vec_fun c (S K) Lc) at 1. rewrite last_fun by lia. f_equal. lia. Qed.
Definition rows_ok (r : R) (w : nat -> R) : Prop := forall i, (i < K)%nat -> bsum K (fun j => companion_entry c i j * w j) = r * w i.
Lemma row_first w : bsum K (fun j => companion_entry c 0 j * w j) = w 1%nat.
Proof.
  rewrite (bsum_one K 1).
  - unfold companion_entry. rewrite Lc. replace (Nat.eqb 0 (S K - 2)) with false by (symmetry; apply Nat.eqb_neq; lia). simpl. ring.
  - lia.
  - intros j Hj Dj. unfold companion_entry. rewrite Lc. replace (Nat.eqb 0 (S K - 2)) with false by (symmetry; apply Nat.eqb_neq; lia). simpl (Nat.eqb 0 0). cbv iota. apply Nat.eqb_neq in Dj. rewrite Dj. ring.
Qed.
Lemma row_mid w i : (0 < i)%nat -> (i < K - 1)%nat -> bsum K (fun j => companion_entry c i j * w j) = (w (i - 1)%nat + w (i + 1)%nat) / 2.
Proof.
  intros H1 H2. assert (E : forall j, companion_entry c i j = if (Nat.eqb j (i - 1) || Nat.eqb j (i + 1))%bool then 1 / 2 else 0).
  { intros j. unfold companion_entry. rewrite Lc. replace (Nat.eqb i (S K - 2)) with false by (symmetry; apply Nat.eqb_neq; lia). replace (Nat.eqb i 0) with false by (symmetry; apply Nat.eqb_neq; lia). auto. }
  rewrite (bsum_two K (i - 1) (i + 1)); try lia.
  - rewrite !E, !Nat.eqb_refl, orb_true_r. cbn [orb]. field.
  - intros j Hj D1 D2. apply Nat.eqb_neq in D1. apply Nat.eqb_neq in D2. rewrite E, D1, D2. simpl. ring.
Qed.
Lemma row_last w : bsum K (fun j => companion_entry c (K - 1) j * w j) = - bsum K (fun j => nth j c 0 * w j) / (2 * nth K c 0) + w (K - 2)%nat / 2.
Proof.
  assert (E : forall j, companion_entry c (K - 1) j = - (1 / 2) * nth j c 0 / nth K c 0 + (if Nat.eqb j (K - 2) then 1 / 2 else 0)).
  { intros j. unfold companion_entry. rewrite last_nth', Lc. replace (S K - 2)%nat with (K - 1)%nat by lia. replace (S K - 3)%nat with (K - 2)%nat by lia. rewrite Nat.eqb_refl. auto. }
  transitivity (bsum K (fun j => (- / (2 * nth K c 0)) * (nth j c 0 * w j)) + bsum K (fun j => if Nat.eqb j (K - 2) then w j / 2 else 0)).
  - rewrite <- bsum_plus. apply bsum_ext. intros j Hj. rewrite E. destruct (Nat.eqb j (K - 2)); field; auto.
  - rewrite bsum_scal, (bsum_one K (K - 2) (fun j => if Nat.eqb j (K - 2) then _ else 0)) by (try lia; intros i Hi Di; apply Nat.eqb_neq in Di; rewrite Di; auto). rewrite Nat.eqb_refl. field. auto.
Qed.
Lemma rows_rec r w : rows_ok r w -> forall i, (i < K)%nat -> w i = w 0%nat * T i r.
Proof.
  intros H. assert (G : forall i, (i < K)%nat -> w i = w 0%nat * T i r /\ ((S i < K)%nat -> w (S i) = w 0%nat * T (S i) r)).
  { induction i as [|i IH]; intros Hi.
    - split; [rewrite T_0; ring|]. intros _. specialize (H 0%nat ltac:(lia)). rewrite row_first in H. rewrite H, T_1. ring.
    - destruct IH as (I1 & I2); [lia|]. specialize (I2 Hi). split; auto. intros Hs. specialize (H (S i) Hi). rewrite row_mid in H by lia.
      replace (S i - 1)%nat with i in H by lia. replace (S i + 1)%nat with (S (S i)) in H by lia. rewrite T_SS. rewrite I1, I2 in H. lra. }
  intros i Hi. apply G; auto.
Qed.
Lemma rows_iff r w : (forall i, (i < K)%nat -> w i = w 0%nat * T i r) -> (rows_ok r w <-> w 0%nat * bsum (S K) (fun i => nth i c 0 * T i r) = 0).
Proof.
  intros W. assert (S1 : bsum K (fun j => nth j c 0 * w j) = w 0%nat * bsum K (fun j => nth j c 0 * T j r)).
  { rewrite <- bsum_scal. apply bsum_ext. intros j Hj. rewrite (W j Hj). ring. }
  assert (TK : T K r = 2 * r * T (K - 1) r - T (K - 2) r) by (replace K with (S (S (K - 2))) at 1 by lia; rewrite T_SS; f_equal; f_equal; f_equal; lia).
  assert (L : bsum K (fun j => companion_entry c (K - 1) j * w j) - r * w (K - 1)%nat = - (w 0%nat * bsum (S K) (fun i => nth i c 0 * T i r)) / (2 * nth K c 0)).
  { rewrite row_last, S1, bsum_S, TK, (W (K - 1)%nat), (W (K - 2)%nat) by lia. field. auto. }
  split.
  - intros H. specialize (H (K - 1)%nat ltac:(lia)). rewrite H, Rminus_eq_0 in L.
    assert (L2 : w 0%nat * bsum (S K) (fun i => nth i c 0 * T i r) = - (- (w 0%nat * bsum (S K) (fun i => nth i c 0 * T i r)) / (2 * nth K c 0)) * (2 * nth K c 0)) by (field; auto).
    rewrite L2, <- L. ring.
  - intros Z i Hi. destruct (Nat.eq_dec i 0) as [->|D0]; [|destruct (Nat.eq_dec i (K - 1)) as [->|D1]].
    + rewrite row_first, W, T_1 by lia. ring.
    + rewrite Z in L. assert (E : - 0 / (2 * nth K c 0) = 0) by (field; auto). lra.
    + rewrite row_mid by lia. rewrite (W (i - 1)%nat), (W (i + 1)%nat), (W i) by lia. replace (i + 1)%nat with (S (S (i - 1))) by lia. rewrite T_SS. replace (S (i - 1)) with i by lia. field.
Qed.
End Comp.

Theorem companion_ok c : (3 <= length c)%nat -> last c 0 <> 0 ->
  exists M, companion c = Ok M /\ length M = (length c - 1)%nat /\ forall r, eigenvalue M r <-> cheb_series c r = 0.
Proof.
  intros H LN. set (K := (length c - 1)%nat). assert (Lc : length c = S K) by lia. assert (HK : (2 <= K)%nat) by lia. rewrite (last_nth' c K HK Lc) in LN.
  unfold companion. replace (Nat.ltb (length c) 3) with false by (symmetry; apply Nat.ltb_ge; lia).
  replace (req (last c 0) 0) with false by (symmetry; apply req_false; rewrite (last_nth' c K HK Lc); auto). fold K.
  eexists. split; [reflexivity|]. assert (LM : length (map (fun i => map (companion_entry c i) (seq 0 K)) (seq 0 K)) = K) by (rewrite map_length, seq_length; auto). split; auto.
  assert (MV : forall w, mat_vec (map (fun i => map (companion_entry c i) (seq 0 K)) (seq 0 K)) (map w (seq 0 K)) = map (fun i => bsum K (fun j => companion_entry c i j * w j)) (seq 0 K)).
  { intros w. unfold mat_vec. rewrite map_map. apply map_ext. intros i. apply dotp_fun. }
  intros r. rewrite series_fun, Lc. split.
  - intros (v & Lv & (x & Ix & Dx) & E). rewrite LM in Lv. rewrite (vec_fun v K Lv) in E. rewrite MV, map_map in E.
    set (w := fun i => nth i v 0) in *. assert (R0 : rows_ok c K r w) by (intros i Hi; apply (map_inj _ _ K E i Hi)).
    pose proof (rows_rec c K HK Lc r w R0) as W. apply (rows_iff c K HK Lc LN r w W) in R0. destruct (Rmult_integral _ _ R0) as [Z|Z]; auto.
    exfalso. apply Dx. destruct (In_nth v x 0 Ix) as (i & Hi & <-). change (nth i v 0) with (w i). rewrite W, Z by lia. ring.
  - intros Z. exists (map (fun i => T i r) (seq 0 K)). splits.
    + rewrite LM, fun_length. auto.
    + exists 1. split; [|lra]. apply in_map_iff. exists 0%nat. rewrite T_0. split; auto. apply in_seq. lia.
    + rewrite MV, map_map. apply map_fun_ext. intros i Hi. assert (R0 : rows_ok c K r (fun i => T i r)); [|apply R0; auto].
      apply (rows_iff c K HK Lc LN r); [intros; rewrite T_0; ring|]. rewrite Z. ring.
Qed.
