(** Facts: the weights as functions of the index, and exactness for Chebyshev polynomials. *)
From Coq Require Import Reals Lra Lia List Bool Arith.
From Coquelicot Require Import Coquelicot.
From Verif Require Import Base InterpSpec Interp InterpFacts ChebFacts ChebFacts2 Grid GridFacts3 Quad QuadFacts QuadFacts2.
Import List ListNotations.
Open Scope R_scope.

(** ** lists as functions *)
Lemma nth_seq_map (F : nat -> R) n i : (i < n)%nat -> nth i (map F (seq 0 n)) 0 = F i.
Proof. intros H. rewrite (nth_indep _ 0 (F 0%nat)) by (rewrite map_length, seq_length; auto). rewrite map_nth, seq_nth by auto. reflexivity. Qed.
Lemma list_fun (l : list R) n F : length l = n -> (forall i, (i < n)%nat -> nth i l 0 = F i) -> l = map F (seq 0 n).
Proof.
  intros L H. apply (nth_ext l _ 0 0); [rewrite map_length, seq_length; auto|]. intros i Hi. rewrite nth_seq_map, H by lia. reflexivity.
Qed.
Lemma add_lists_fun F G n : add_lists (map F (seq 0 n)) (map G (seq 0 n)) = map (fun i => F i + G i) (seq 0 n).
Proof. unfold add_lists. generalize 0%nat. induction n; intros s; simpl; [reflexivity|]. f_equal. apply IHn. Qed.
Lemma removelast_fun (F : nat -> R) n : removelast (map F (seq 0 (S n))) = map F (seq 0 n).
Proof. rewrite seq_S, map_app. simpl. rewrite removelast_app by discriminate. simpl. apply app_nil_r. Qed.
Lemma tl_fun (F : nat -> R) n : tl (map F (seq 0 (S n))) = map (fun i => F (S i)) (seq 0 n).
Proof. simpl. rewrite <- seq_shift, map_map. reflexivity. Qed.
Lemma rev_fun (F : nat -> R) n : rev (map F (seq 0 n)) = map (fun i => F (n - 1 - i)%nat) (seq 0 n).
Proof.
  apply list_fun; [rewrite rev_length, map_length, seq_length; auto|]. intros i Hi.
  rewrite rev_nth by (rewrite map_length, seq_length; auto). rewrite map_length, seq_length, nth_seq_map by lia. f_equal. lia.
Qed.
Lemma dot_fun F G n : dot (map F (seq 0 n)) (map G (seq 0 n)) = bsum n (fun i => F i * G i).
Proof.
  rewrite dot_nth by (rewrite !map_length; auto). rewrite map_length, seq_length. unfold bsum. apply sumR_ext.
  intros i Hi. apply in_seq in Hi. rewrite !nth_seq_map by lia. reflexivity.
Qed.
Lemma ifft_fun F n : ifft_real (map F (seq 0 n)) = map (dft n F) (seq 0 n).
Proof.
  unfold ifft_real. rewrite map_length, seq_length. apply map_ext. intros j. unfold dft. f_equal. apply (dot_fun F (fun k => cos (ang n j k))).
Qed.

(** ** the vectors v0, v2 and g *)
Definition f_v0 (N k : nat) : R :=
  if Nat.ltb k (N / 2) then 2 / (1 - 4 * INR k ^ 2) else if Nat.eqb k (N / 2) then - (1 / (2 * INR (N / 2) - 1)) else 0.
Definition f_v2 (N k : nat) : R := f_v0 N k + f_v0 N (N - k).
Definition f_g (N k : nat) : R :=
  (- (1) + (if Nat.eqb k (N / 2) then INR N else 0) + (if Nat.eqb k (N - N / 2) then INR N else 0)) / (INR N ^ 2 - 1 + INR (N mod 2)).
Lemma odds_length N : length (odds N) = (N / 2)%nat.
Proof. unfold odds. rewrite map_length, seq_length. reflexivity. Qed.
Lemma odds_last N : (2 <= N)%nat -> last (odds N) 0 = 2 * INR (N / 2) - 1.
Proof.
  intros H. assert (L : (1 <= N / 2)%nat) by (apply (Nat.div_le_mono 2 N 2); lia). unfold odds. remember (N / 2)%nat as l eqn:El. clear El.
  destruct l as [|l]; [lia|]. rewrite seq_S, map_app. cbn [map]. rewrite last_last. simpl (0 + _)%nat.
  rewrite S_INR, plus_INR, mult_INR. change (INR 2) with 2. change (INR 1) with 1. ring.
Qed.
Lemma four_sq k : 1 - 4 * INR k ^ 2 <> 0.
Proof.
  destruct k; [simpl; lra|]. assert (1 <= INR (S k)) by (rewrite S_INR; pose proof (pos_INR k); lra). nra.
Qed.
Lemma v0_fun N : (2 <= N)%nat -> w_v0 N = Ok (map (f_v0 N) (seq 0 (S N))).
Proof.
  intros H. assert (L : (1 <= N / 2)%nat) by (apply (Nat.div_le_mono 2 N 2); lia). assert (LN : (N / 2 < N)%nat) by (apply Nat.div_lt; lia).
  unfold w_v0. pose proof (odds_length N) as OL. pose proof (odds_last N H) as La. destruct (odds N) as [|x0 t] eqn:E; [cbn [length] in OL; lia|].
  rewrite <- E in *. clear E. f_equal. apply list_fun.
  - rewrite map_length, !app_length, map_length, repeat_length. simpl. lia.
  - intros i Hi. match goal with |- nth i (map Ropp ?L) 0 = _ => replace (nth i (map Ropp L) 0) with (- nth i L 0) by (rewrite <- (map_nth Ropp L 0 i), Ropp_0; reflexivity) end. unfold f_v0. destruct (Nat.ltb_spec i (N / 2)) as [A|A].
    + rewrite app_nth1 by (rewrite map_length; lia). rewrite (nth_indep _ 0 ((fun x => 2 / (x * (x - 2))) 0)) by (rewrite map_length; lia).
      rewrite (map_nth (fun x => 2 / (x * (x - 2)))). unfold odds. rewrite nth_seq_map by auto. rewrite plus_INR, mult_INR. change (INR 2) with 2. change (INR 1) with 1.
      pose proof (four_sq i) as F0. assert (P0 := pos_INR i).
      assert (2 * INR i - 1 <> 0). { intros Z. apply F0. replace (1 - 4 * INR i ^ 2) with (- ((2 * INR i - 1) * (2 * INR i + 1))) by ring. rewrite Z. ring. }
      replace (2 * INR i + 1 - 2) with (2 * INR i - 1) by ring. field. splits; auto; try lra.
    + rewrite app_nth2 by (rewrite map_length; lia). rewrite map_length, OL. destruct (Nat.eqb_spec i (N / 2)) as [->|D].
      * rewrite Nat.sub_diag. simpl nth. rewrite La. reflexivity.
      * rewrite app_nth2 by (cbn [length]; lia). rewrite nth_repeat. ring.
Qed.
Lemma v2_fun N : (2 <= N)%nat -> w_v2 N = Ok (map (f_v2 N) (seq 0 N)).
Proof.
  intros H. unfold w_v2. rewrite v0_fun by auto. unfold rmap. f_equal. rewrite removelast_fun. rewrite tl_fun, rev_fun, add_lists_fun.
  apply map_ext_in. intros i Hi. apply in_seq in Hi. unfold f_v2. do 2 f_equal. lia.
Qed.
Lemma g_fun N : (2 <= N)%nat -> w_g N = map (f_g N) (seq 0 N).
Proof.
  intros H. assert (LN : (N / 2 < N)%nat) by (apply Nat.div_lt; lia).
  unfold w_g. rewrite odds_length. apply list_fun.
  - rewrite map_length, !upd_length, repeat_length. auto.
  - intros i Hi. set (D := INR N ^ 2 - 1 + INR (N mod 2)). rewrite (nth_indep _ 0 ((fun x => x / D) 0)) by (rewrite map_length, !upd_length, repeat_length; auto).
    rewrite (map_nth (fun x => x / D)). unfold f_g. fold D. f_equal.
    rewrite upd_nth by (rewrite upd_length, repeat_length; auto). rewrite upd_nth by (rewrite repeat_length; auto).
    rewrite (nth_indep _ 0 (- (1))) by (rewrite repeat_length; auto). rewrite nth_repeat.
    destruct (Nat.eqb i (N / 2)), (Nat.eqb i (N - N / 2)); ring.
Qed.
Definition f_u (N k : nat) : R := f_v2 N k + f_g N k.
Lemma dft_full N u : (0 < N)%nat -> dft N u N = dft N u 0.
Proof. intros H. rewrite <- (dft_mirror N u 0) by lia. rewrite Nat.sub_0_r. reflexivity. Qed.
Lemma clenshaw_fun n : (3 <= n)%nat -> clenshaw_coefficients n = Ok (map (dft (n - 1) (f_u (n - 1))) (seq 0 n)).
Proof.
  intros H. unfold clenshaw_coefficients. rewrite v2_fun by lia. unfold rmap. rewrite g_fun by lia. rewrite add_lists_fun, ifft_fun. f_equal.
  replace (seq 0 n) with (seq 0 (n - 1) ++ [(n - 1)%nat]) by (rewrite <- seq_S; f_equal; lia). rewrite map_app. f_equal. simpl map. f_equal. simpl (0 + _)%nat. rewrite dft_full by lia.
  destruct (n - 1)%nat as [|m] eqn:E; [lia|]. reflexivity.
Qed.
Lemma fejer2_fun n : (3 <= n)%nat -> fejer2_coefficients n = Ok (map (fun i => dft (n - 1) (f_v2 (n - 1)) (S i)) (seq 0 (n - 2))).
Proof.
  intros H. unfold fejer2_coefficients. rewrite v2_fun by lia. unfold rmap. rewrite ifft_fun. f_equal. replace (seq 0 (n - 1)) with (seq 0 (S (n - 2))) by (f_equal; lia). apply tl_fun.
Qed.

(** ** sums of the vectors *)
Lemma v0_sum_low l : bsum l (fun k => 2 / (1 - 4 * INR k ^ 2)) = 1 + 1 / (2 * INR l - 1).
Proof.
  transitivity (bsum l (fun k => (fun i => 1 / (2 * INR i - 1)) (S k) - (fun i => 1 / (2 * INR i - 1)) k)).
  - apply bsum_ext. intros k _. rewrite S_INR. pose proof (four_sq k) as F0. assert (P0 := pos_INR k).
    assert (2 * INR k - 1 <> 0). { intros Z. apply F0. replace (1 - 4 * INR k ^ 2) with (- ((2 * INR k - 1) * (2 * INR k + 1))) by ring. rewrite Z. ring. }
    replace (2 * (INR k + 1) - 1) with (2 * INR k + 1) by ring. field. splits; auto; lra.
  - rewrite (bsum_tele l (fun i => 1 / (2 * INR i - 1))). simpl (INR 0). lra.
Qed.
Lemma v0_sum N : (2 <= N)%nat -> bsum (S N) (f_v0 N) = 1.
Proof.
  intros H. assert (L : (1 <= N / 2)%nat) by (apply (Nat.div_le_mono 2 N 2); lia). assert (LN : (N / 2 < N)%nat) by (apply Nat.div_lt; lia).
  replace (S N) with (N / 2 + S (N - N / 2))%nat by lia. rewrite bsum_split, bsum_shift, Nat.add_0_r.
  rewrite (bsum_ext (N / 2) _ (fun k => 2 / (1 - 4 * INR k ^ 2))), v0_sum_low.
  - rewrite (bsum_zero (N - N / 2)).
    + unfold f_v0. rewrite Nat.ltb_irrefl, Nat.eqb_refl. lra.
    + intros i Hi. unfold f_v0. destruct (Nat.ltb_spec (N / 2 + S i) (N / 2)); [lia|]. destruct (Nat.eqb_spec (N / 2 + S i) (N / 2)); [lia|reflexivity].
  - intros i Hi. unfold f_v0. destruct (Nat.ltb_spec i (N / 2)); [reflexivity|lia].
Qed.
Lemma v0_at_0 N : (2 <= N)%nat -> f_v0 N 0 = 2.
Proof. intros H. assert (L : (1 <= N / 2)%nat) by (apply (Nat.div_le_mono 2 N 2); lia). unfold f_v0. destruct (Nat.ltb_spec 0 (N / 2)); [simpl; lra|lia]. Qed.
Lemma v0_high N k : (N / 2 < k)%nat -> f_v0 N k = 0.
Proof. intros H. unfold f_v0. destruct (Nat.ltb_spec k (N / 2)); [lia|]. destruct (Nat.eqb_spec k (N / 2)); [lia|reflexivity]. Qed.
Lemma v2_sum N : (2 <= N)%nat -> bsum N (f_v2 N) = 0.
Proof.
  intros H. assert (LN : (N / 2 < N)%nat) by (apply Nat.div_lt; lia). pose proof (v0_sum N H) as S1.
  unfold f_v2. rewrite bsum_plus. rewrite bsum_S, (v0_high N N) in S1 by auto.
  assert (S2 : bsum (S N) (fun k => f_v0 N (N - k)) = 1).
  { rewrite bsum_rev. rewrite <- (v0_sum N H). apply bsum_ext. intros i Hi. f_equal. lia. }
  rewrite bsum_S, Nat.sub_diag, v0_at_0 in S2 by auto. lra.
Qed.
Lemma v2_sym N k : (0 < k < N)%nat -> f_v2 N (N - k) = f_v2 N k.
Proof. intros H. unfold f_v2. replace (N - (N - k))%nat with k by lia. ring. Qed.
Lemma g_sym N k : (0 < k < N)%nat -> f_g N (N - k) = f_g N k.
Proof.
  intros H. assert (LN : (N / 2 <= N)%nat) by (apply Nat.div_le_upper_bound; lia). unfold f_g. f_equal.
  replace (Nat.eqb (N - k) (N - N / 2)) with (Nat.eqb k (N / 2)) by (destruct (Nat.eqb_spec k (N / 2)), (Nat.eqb_spec (N - k) (N - N / 2)); auto; lia).
  replace (Nat.eqb (N - k) (N / 2)) with (Nat.eqb k (N - N / 2)) by (destruct (Nat.eqb_spec k (N - N / 2)), (Nat.eqb_spec (N - k) (N / 2)); auto; lia).
  ring.
Qed.
Lemma g_den N : (2 <= N)%nat -> 0 < INR N ^ 2 - 1 + INR (N mod 2).
Proof. intros H. apply le_INR in H. change (INR 2) with 2 in H. pose proof (pos_INR (N mod 2)). nra. Qed.
Lemma g_sum N : (2 <= N)%nat -> bsum N (f_g N) = INR N / (INR N ^ 2 - 1 + INR (N mod 2)).
Proof.
  intros H. assert (LN : (N / 2 < N)%nat) by (apply Nat.div_lt; lia). assert (L : (1 <= N / 2)%nat) by (apply (Nat.div_le_mono 2 N 2); lia).
  unfold f_g, Rdiv. rewrite bsum_scal_r. f_equal. rewrite !bsum_plus, bsum_const.
  rewrite (bsum_one N (N / 2) (fun k => if Nat.eqb k (N / 2) then INR N else 0)); [|auto|intros i _ D; destruct (Nat.eqb_spec i (N / 2)); [lia|reflexivity]].
  rewrite (bsum_one N (N - N / 2) (fun k => if Nat.eqb k (N - N / 2) then INR N else 0)); [|lia|intros i _ D; destruct (Nat.eqb_spec i (N - N / 2)); [lia|reflexivity]].
  rewrite !Nat.eqb_refl. ring.
Qed.
Lemma u_sym N k : (0 < k < N)%nat -> f_u N (N - k) = f_u N k.
Proof. intros H. unfold f_u. rewrite v2_sym, g_sym by auto. reflexivity. Qed.

(** ** exactness for cosines *)
Definition fe_w (N : nat) : nat -> R := dft N (f_v2 N).
Definition cc_w (N : nat) : nat -> R := dft N (f_u N).
Lemma fe_w_0 N : (2 <= N)%nat -> fe_w N 0 = 0.
Proof. intros H. unfold fe_w. rewrite dft_0, v2_sum by auto. unfold Rdiv. ring. Qed.
Lemma fe_w_N N : (2 <= N)%nat -> fe_w N N = 0.
Proof. intros H. unfold fe_w. rewrite dft_full by lia. apply fe_w_0. auto. Qed.
Lemma cc_w_0 N : (2 <= N)%nat -> cc_w N 0 = 1 / (INR N ^ 2 - 1 + INR (N mod 2)).
Proof.
  intros H. pose proof (g_den N H). assert (0 < INR N) by (apply lt_0_INR; lia). unfold cc_w. rewrite dft_0. unfold f_u. rewrite bsum_plus, v2_sum, g_sum by auto. field. lra.
Qed.
Lemma tint_odd k : Nat.Odd k -> tint k = 0.
Proof. intros O. apply Nat.odd_spec in O. unfold tint. unfold Nat.odd in O. destruct (Nat.even k); [discriminate|reflexivity]. Qed.
Lemma tint_even q : tint (2 * q) = 2 / (1 - 4 * INR q ^ 2).
Proof.
  unfold tint. replace (Nat.even (2 * q)) with true by (symmetry; apply Nat.even_spec; exists q; auto). f_equal. rewrite mult_INR. change (INR 2) with 2. ring.
Qed.
Lemma even_sum N (u : nat -> R) q : (0 < N)%nat -> (q < N)%nat -> (forall k, (0 < k < N)%nat -> u (N - k)%nat = u k) ->
  bsum (S N) (fun j => dft N u j * cos (INR (2 * q) * half N j)) = u q + dft N u 0.
Proof.
  intros N0 Hq Sy. rewrite bsum_S. rewrite half_even, dft_full by auto. rewrite <- (dft_inv N u q) at 1 by auto. f_equal.
  - apply bsum_ext. intros j _. rewrite half_even by auto. reflexivity.
  - unfold ang. replace (2 * PI * INR N * INR q / INR N) with (0 + 2 * INR q * PI) by (field; apply not_0_INR; lia). rewrite cos_period, cos_0. ring.
Qed.
(** degree reached by Fejer's second rule, and by the Clenshaw-Curtis rule, on N+1 nodes *)
Lemma fe_cos N k : (2 <= N)%nat -> (Nat.Odd k \/ (k + 2 <= N)%nat) -> bsum (S N) (fun j => fe_w N j * cos (INR k * half N j)) = tint k.
Proof.
  intros H C. destruct (Nat.Even_or_Odd k) as [[q ->]|O].
  - assert (K : (2 * q + 2 <= N)%nat) by (destruct C as [[r Hr]|C]; lia). unfold fe_w. rewrite even_sum; [|lia|lia|intros; apply v2_sym; auto].
    fold (fe_w N 0%nat). rewrite fe_w_0, tint_even by auto.
    assert (B : (q < N / 2)%nat). { apply (Nat.div_le_lower_bound N 2 (S q)); lia. }
    assert (U : (N / 2 <= N - N / 2)%nat). { pose proof (Nat.div_mod N 2 ltac:(lia)). lia. }
    unfold f_v2. rewrite (v0_high N (N - q)) by lia. unfold f_v0. destruct (Nat.ltb_spec q (N / 2)); [ring|lia].
  - rewrite tint_odd by auto. apply half_sum_odd; auto; [lia|]. intros j Hj. apply dft_mirror; lia.
Qed.
Lemma cc_cos N k : (2 <= N)%nat -> (Nat.Odd k \/ (k <= N)%nat) -> bsum (S N) (fun j => cc_w N j * cos (INR k * half N j)) = tint k.
Proof.
  intros H C. destruct (Nat.Even_or_Odd k) as [[q ->]|O].
  - assert (K : (2 * q <= N)%nat) by (destruct C as [[r Hr]|C]; lia). unfold cc_w. rewrite even_sum; [|lia|lia|intros; apply u_sym; auto].
    fold (cc_w N 0%nat). rewrite cc_w_0, tint_even by auto. pose proof (g_den N H) as D0. unfold f_u, f_v2, f_g.
    assert (DM := Nat.div_mod N 2 ltac:(lia)). assert (M2 := Nat.mod_upper_bound N 2 ltac:(lia)). set (l := (N / 2)%nat) in *. set (r := (N mod 2)%nat) in *.
    assert (Q : (q <= l)%nat) by lia. destruct (Nat.eq_dec q l) as [->|D].
    + assert (EN : INR N = 2 * INR l + INR r) by (rewrite DM, plus_INR, mult_INR; reflexivity).
      unfold f_v0. fold l. rewrite Nat.ltb_irrefl, Nat.eqb_refl. assert (L1 : 1 <= INR l) by (replace 1 with (INR 1) by reflexivity; apply le_INR; lia).
      destruct (Nat.ltb_spec (N - l) l); [lia|]. pose proof (four_sq l) as F4.
      destruct (Nat.eq_dec r 0) as [R0|R0].
      * replace (N - l)%nat with l by lia. rewrite !Nat.eqb_refl. rewrite R0 in *. simpl (INR 0) in *. rewrite EN in *. replace (2 * INR l + 0) with (2 * INR l) in * by ring.
        field. splits; try lra; intros Z; apply F4; nra.
      * assert (R1 : r = 1%nat) by lia. rewrite R1 in *. simpl (INR 1) in *. destruct (Nat.eqb_spec (N - l) l); [lia|]. destruct (Nat.eqb_spec l (N - l)); [lia|].
        rewrite EN in *. assert (2 * INR l + 1 <> 0) by lra. assert (2 * INR l - 1 <> 0) by lra.
        replace (1 - 4 * INR l ^ 2) with (- ((2 * INR l - 1) * (2 * INR l + 1))) by ring. replace ((2 * INR l + 1) ^ 2 - 1 + 1) with ((2 * INR l + 1) ^ 2) by ring.
        field. splits; auto.
    + rewrite (v0_high N (N - q)) by lia. unfold f_v0. fold l. destruct (Nat.ltb_spec q l); [|lia]. destruct (Nat.eqb_spec q l); [lia|]. destruct (Nat.eqb_spec q (N - l)); [lia|].
      pose proof (four_sq q). field. splits; auto; try lra.
  - rewrite tint_odd by auto. apply half_sum_odd; auto; [lia|]. intros j Hj. apply dft_mirror; lia.
Qed.
