(** Facts: the Chebyshev transforms as cosine sums. *)
From Coq Require Import Reals Lra Lia List Bool Arith.
From Verif Require Import Base Interp Grid Quad ChebT QuadFacts QuadFacts2 QuadFacts3.
Import List ListNotations.
Open Scope R_scope.

Lemma map_fun_ext (F G : nat -> R) n : (forall i, (i < n)%nat -> F i = G i) -> map F (seq 0 n) = map G (seq 0 n).
Proof. intros H. apply map_ext_in. intros i Hi. apply in_seq in Hi. apply H. lia. Qed.
Lemma fun_length (F : nat -> R) n : length (map F (seq 0 n)) = n.
Proof. rewrite map_length, seq_length. auto. Qed.
Lemma app_fun (F G : nat -> R) n m : map F (seq 0 n) ++ map G (seq 0 m) = map (fun i => if Nat.ltb i n then F i else G (i - n)%nat) (seq 0 (n + m)).
Proof.
  apply list_fun; [rewrite app_length, !fun_length; auto|]. intros i Hi. destruct (Nat.ltb_spec i n) as [L|L].
  - rewrite app_nth1 by (rewrite fun_length; auto). apply nth_seq_map; auto.
  - rewrite app_nth2 by (rewrite fun_length; auto). rewrite fun_length. apply nth_seq_map. lia.
Qed.
Lemma one_fun (x : R) : [x] = map (fun _ => x) (seq 0 1).
Proof. reflexivity. Qed.
Lemma firstn_fun (F : nat -> R) n k : (k <= n)%nat -> firstn k (map F (seq 0 n)) = map F (seq 0 k).
Proof.
  intros H. replace n with (k + (n - k))%nat by lia. rewrite seq_app, map_app. rewrite firstn_app, fun_length, Nat.sub_diag. simpl firstn. rewrite app_nil_r. apply firstn_all2. rewrite fun_length. lia.
Qed.
Lemma skipn_fun (F : nat -> R) n k : (k <= n)%nat -> skipn k (map F (seq 0 n)) = map (fun i => F (k + i)%nat) (seq 0 (n - k)).
Proof.
  intros H. replace n with (k + (n - k))%nat at 1 by lia. rewrite seq_app, map_app. rewrite skipn_app, fun_length, Nat.sub_diag. cbn [skipn].
  rewrite skipn_all2 by (rewrite fun_length; lia). cbn [app]. apply list_fun; [rewrite map_length, seq_length; auto|]. intros i Hi.
  rewrite (nth_indep _ 0 (F 0%nat)) by (rewrite map_length, seq_length; auto). rewrite map_nth, seq_nth by auto. auto.
Qed.
Lemma tl_fun' (F : nat -> R) n : tl (map F (seq 0 n)) = map (fun i => F (S i)) (seq 0 (n - 1)).
Proof. destruct n; [reflexivity|]. rewrite tl_fun. f_equal. f_equal. lia. Qed.
Lemma removelast_fun' (F : nat -> R) n : removelast (map F (seq 0 n)) = map F (seq 0 (n - 1)).
Proof. destruct n; [reflexivity|]. rewrite removelast_fun. f_equal. f_equal. lia. Qed.
Lemma map_map_fun (f : R -> R) (F : nat -> R) n : map f (map F (seq 0 n)) = map (fun i => f (F i)) (seq 0 n).
Proof. apply map_map. Qed.
Lemma last_fun (F : nat -> R) n d : (0 < n)%nat -> last (map F (seq 0 n)) d = F (n - 1)%nat.
Proof.
  intros H. destruct n as [|n]; [lia|]. rewrite seq_S, map_app. simpl. rewrite last_last. f_equal. lia.
Qed.

(** the real part of the transform, not divided *)
Lemma fft_fun F n : (0 < n)%nat -> fft_real (map F (seq 0 n)) = map (fun j => INR n * dft n F j) (seq 0 n).
Proof.
  intros H. assert (P : 0 < INR n) by (apply lt_0_INR; lia).
  pose proof (ifft_fun F n) as E. unfold ifft_real in E. unfold fft_real. rewrite fun_length in *.
  apply map_ext_in. intros j Hj.
  assert (E2 : forall A (f g : nat -> A) l, map f l = map g l -> In j l -> f j = g j) by (intros A f g l; induction l as [|y l IH]; simpl; [tauto|]; intros Em [->|Hy]; injection Em; auto).
  pose proof (E2 _ _ _ _ E Hj) as E3. simpl in E3. rewrite <- E3. field. lra.
Qed.

Lemma ang2 N j k : (0 < N)%nat -> ang (2 * N) j k = INR k * half N j.
Proof. intros H. assert (0 < INR N) by (apply lt_0_INR; lia). unfold ang, half. rewrite mult_INR. simpl (INR 2). field. lra. Qed.
Lemma half_mirror N j : (0 < N)%nat -> (j <= N)%nat -> cos (half N (N - j)) = - cos (half N j).
Proof. intros H L. assert (0 < INR N) by (apply lt_0_INR; lia). unfold half. rewrite minus_INR by auto. replace ((INR N - INR j) * PI / INR N) with (PI - INR j * PI / INR N) by (field; lra). rewrite Rtrigo_facts.cos_pi_minus. auto. Qed.
Lemma half_over N k : (0 < N)%nat -> cos (half N (N + k)) = - cos (half N k).
Proof. intros H. assert (0 < INR N) by (apply lt_0_INR; lia). unfold half. rewrite plus_INR. replace ((INR N + INR k) * PI / INR N) with (INR k * PI / INR N + PI) by (field; lra). apply neg_cos. Qed.

(** the series with coefficients c, value at x *)
Definition ser (N : nat) (c : nat -> R) (x : R) : R := bsum (S N) (fun m => c m * T m x).
Lemma bsum_mid N (F : nat -> R) : (0 < N)%nat -> bsum (S N) F = F 0%nat + bsum (N - 1) (fun i => F (S i)) + F N.
Proof. intros H. rewrite bsum_S. destruct N as [|N]; [lia|]. rewrite bsum_shift. replace (S N - 1)%nat with N by lia. auto. Qed.
Lemma bsum_circle N (F : nat -> R) : (0 < N)%nat -> bsum (2 * N) F = F 0%nat + bsum (N - 1) (fun i => F (S i)) + F N + bsum (N - 1) (fun i => F (2 * N - S i)%nat).
Proof.
  intros H. replace (2 * N)%nat with (S N + (N - 1))%nat at 1 by lia. rewrite bsum_split, bsum_mid by auto. f_equal. rewrite bsum_rev. apply bsum_ext. intros i Hi. f_equal. lia.
Qed.

(** chebt2 of the values of a series at the nodes, taken from left to right *)
Theorem chebt2_fun N c : (0 < N)%nat ->
  chebt2 (map (fun j => ser N c (- cos (half N j))) (seq 0 (S N))) = Ok (map (fun i => if Nat.eqb i 0 then 2 * c N else c (N - i)%nat) (seq 0 (S N))).
Proof.
  intros H. assert (P : 0 < INR N) by (apply lt_0_INR; lia). unfold chebt2. rewrite fun_length. destruct N as [|N']; [lia|]. set (N := S N') in *.
  cbv zeta. f_equal. rewrite rev_fun, tl_fun', removelast_fun', app_fun.
  replace (S N + (S N - 1 - 1))%nat with (2 * N)%nat by lia. replace (2 * S N - 2)%nat with (2 * N)%nat by lia.
  set (u := fun m => if Nat.eqb m 0 then 2 * INR N * c 0%nat else if Nat.eqb m N then 2 * INR N * c N else INR N * (if Nat.ltb m N then c m else c (2 * N - m)%nat)).
  assert (U : forall k, (0 < k < 2 * N)%nat -> u (2 * N - k)%nat = u k).
  { intros k Hk. unfold u. destruct (Nat.eqb_spec (2 * N - k) 0), (Nat.eqb_spec k 0), (Nat.eqb_spec (2 * N - k) N), (Nat.eqb_spec k N); try lia; auto.
    destruct (Nat.ltb_spec (2 * N - k) N), (Nat.ltb_spec k N); try lia; auto. do 2 f_equal. lia. }
  rewrite (map_fun_ext _ (dft (2 * N) u)).
  2:{ intros i Hi. transitivity (ser N c (cos (half N i))).
      - destruct (Nat.ltb_spec i (S N)) as [L|L].
        + replace (S N - 1 - i)%nat with (N - i)%nat by lia. rewrite half_mirror by lia. f_equal. ring.
        + replace i with (N + (i - N))%nat at 2 by lia. rewrite half_over by auto. replace (S (i - S N)) with (i - N)%nat by lia. auto.
      - unfold dft. rewrite bsum_circle by auto. unfold ser. rewrite bsum_mid by auto. rewrite !T_cos.
        transitivity ((u 0%nat * cos (ang (2 * N) i 0) + 2 * bsum (N - 1) (fun m => u (S m) * cos (ang (2 * N) i (S m))) + u N * cos (ang (2 * N) i N)) / INR (2 * N)).
        + rewrite !ang2 by auto. unfold u at 1 3. rewrite !Nat.eqb_refl. replace (Nat.eqb N 0) with false by (symmetry; apply Nat.eqb_neq; lia).
          assert (E : bsum (N - 1) (fun m => u (S m) * cos (ang (2 * N) i (S m))) = INR N * bsum (N - 1) (fun m => c (S m) * T (S m) (cos (half N i)))).
          { rewrite <- bsum_scal. apply bsum_ext. intros m Hm. unfold u. replace (Nat.eqb (S m) 0) with false by auto.
            replace (Nat.eqb (S m) N) with false by (symmetry; apply Nat.eqb_neq; lia). replace (Nat.ltb (S m) N) with true by (symmetry; apply Nat.ltb_lt; lia).
            rewrite T_cos, ang2 by auto. ring. }
          rewrite E, mult_INR. simpl (INR 2). simpl (INR 0). field. lra.
        + f_equal. assert (E : bsum (N - 1) (fun i0 => u (2 * N - S i0)%nat * cos (ang (2 * N) i (2 * N - S i0))) = bsum (N - 1) (fun m => u (S m) * cos (ang (2 * N) i (S m)))).
          { apply bsum_ext. intros m Hm. rewrite U by lia. rewrite cos_ang_mirror_r by lia. auto. }
          rewrite E. ring. }
  rewrite fft_fun by lia. rewrite map_map_fun.
  rewrite (map_fun_ext _ (fun i => u i / INR (2 * N))).
  2:{ intros i Hi. assert (P2 : 0 < INR (2 * N)) by (apply lt_0_INR; lia). rewrite <- (dft_inv (2 * N) u i) by (auto; lia).
      replace (INR (2 * N) * dft (2 * N) (dft (2 * N) u) i) with (bsum (2 * N) (fun k => dft (2 * N) u k * cos (ang (2 * N) i k))) by (unfold dft at 2; field; lra).
      f_equal. apply bsum_ext. intros k Hk. rewrite ang_sym. auto. }
  rewrite firstn_fun by lia. rewrite tl_fun', firstn_fun by lia. rewrite skipn_fun by lia. rewrite rev_fun.
  replace (2 * N - (S N - 1))%nat with (S N - 1)%nat by lia. rewrite add_lists_fun, app_fun. replace (1 + (S N - 1))%nat with (S N) by lia. rewrite rev_fun. apply map_fun_ext. intros i Hi.
  destruct (Nat.eqb_spec i 0) as [->|Di].
  - replace (Nat.ltb (S N - 1 - 0) 1) with false by (symmetry; apply Nat.ltb_ge; lia).
    replace (S (S N - 1 - 0 - 1)) with N by lia. replace (S N - 1 + (S N - 1 - 1 - (S N - 1 - 0 - 1)))%nat with N by lia.
    unfold u. rewrite Nat.eqb_refl. replace (Nat.eqb N 0) with false by (symmetry; apply Nat.eqb_neq; lia). rewrite mult_INR. simpl (INR 2). field. lra.
  - destruct (Nat.ltb_spec (S N - 1 - i) 1) as [L|L].
    + replace (S N - 1 - i)%nat with 0%nat by lia. replace (N - i)%nat with 0%nat by lia. unfold u. simpl (Nat.eqb 0 0). cbv iota. rewrite mult_INR. simpl (INR 2). field. lra.
    + replace (S (S N - 1 - i - 1)) with (N - i)%nat by lia. replace (S N - 1 + (S N - 1 - 1 - (S N - 1 - i - 1)))%nat with (2 * N - (N - i))%nat by lia.
      rewrite U by lia. unfold u. replace (Nat.eqb (N - i) 0) with false by (symmetry; apply Nat.eqb_neq; lia). replace (Nat.eqb (N - i) N) with false by (symmetry; apply Nat.eqb_neq; lia).
      replace (Nat.ltb (N - i) N) with true by (symmetry; apply Nat.ltb_lt; lia). rewrite mult_INR. simpl (INR 2). field. lra.
Qed.

(** ichebt2: values of the series with the leading coefficient halved, from right to left *)
Theorem ichebt2_fun N c : (0 < N)%nat ->
  ichebt2 (map (fun i => c (N - i)%nat) (seq 0 (S N))) =
  Ok (map (fun j => ser N (fun k => if Nat.eqb k N then c N / 2 else c k) (cos (half N j))) (seq 0 (S N))).
Proof.
  intros H. assert (P : 0 < INR N) by (apply lt_0_INR; lia). unfold ichebt2. rewrite fun_length. cbv zeta. f_equal.
  rewrite last_fun by lia. rewrite removelast_fun', tl_fun', rev_fun, !map_map_fun.
  rewrite (one_fun (c (N - (S N - 1))%nat)), !app_fun. replace (1 + (S N - 1 - 1 + (S N - 1)))%nat with (2 * N)%nat by lia.
  set (g := fun k => if Nat.eqb k 0 then c 0%nat else (if Nat.ltb k N then c k / 2 else c (2 * N - k)%nat / 2)).
  rewrite (map_fun_ext _ g).
  2:{ intros i Hi. unfold g. destruct (Nat.ltb_spec i 1) as [L|L].
      - replace i with 0%nat by lia. simpl. f_equal. lia.
      - replace (Nat.eqb i 0) with false by (symmetry; apply Nat.eqb_neq; lia). destruct (Nat.ltb_spec (i - 1) (S N - 1 - 1)) as [L2|L2].
        + replace (Nat.ltb i N) with true by (symmetry; apply Nat.ltb_lt; lia). do 2 f_equal. lia.
        + replace (Nat.ltb i N) with false by (symmetry; apply Nat.ltb_ge; lia). do 2 f_equal. lia. }
  rewrite ifft_fun.
  assert (G : forall k, (0 < k < 2 * N)%nat -> g (2 * N - k)%nat = g k).
  { intros k Hk. unfold g. destruct (Nat.eqb_spec (2 * N - k) 0), (Nat.eqb_spec k 0); try lia.
    destruct (Nat.ltb_spec (2 * N - k) N), (Nat.ltb_spec k N); try lia; auto; do 2 f_equal; lia. }
  assert (V : forall j, 2 * INR N * dft (2 * N) g j = ser N (fun k => if Nat.eqb k N then c N / 2 else c k) (cos (half N j))).
  { intros j. unfold dft, ser. rewrite bsum_circle, bsum_mid by auto.
    assert (E : bsum (N - 1) (fun i => g (2 * N - S i)%nat * cos (ang (2 * N) j (2 * N - S i))) = bsum (N - 1) (fun i => g (S i) * cos (ang (2 * N) j (S i)))).
    { apply bsum_ext. intros m Hm. rewrite G by lia. rewrite cos_ang_mirror_r by lia. auto. }
    rewrite E.
    assert (E2 : bsum (N - 1) (fun i => (if Nat.eqb (S i) N then c N / 2 else c (S i)) * T (S i) (cos (half N j))) = 2 * bsum (N - 1) (fun i => g (S i) * cos (ang (2 * N) j (S i)))).
    { rewrite <- bsum_scal. apply bsum_ext. intros m Hm. unfold g. replace (Nat.eqb (S m) 0) with false by auto.
      replace (Nat.eqb (S m) N) with false by (symmetry; apply Nat.eqb_neq; lia). replace (Nat.ltb (S m) N) with true by (symmetry; apply Nat.ltb_lt; lia).
      rewrite T_cos, ang2 by auto. field. }
    rewrite E2, !T_cos, !ang2 by auto. unfold g at 1 3. rewrite !Nat.eqb_refl. replace (Nat.eqb N 0) with false by (symmetry; apply Nat.eqb_neq; lia).
    replace (Nat.eqb 0 N) with false by (symmetry; apply Nat.eqb_neq; lia). rewrite Nat.ltb_irrefl. replace (2 * N - N)%nat with N by lia. rewrite mult_INR. simpl (INR 2). simpl (INR 0). field. lra. }
  replace (hd 0 (map (dft (2 * N) g) (seq 0 (2 * N)))) with (dft (2 * N) g 0) by (destruct N; [lia|]; reflexivity).
  rewrite nth_seq_map by lia. rewrite tl_fun', firstn_fun by lia. rewrite skipn_fun by lia. rewrite rev_fun.
  replace (2 * N - S N)%nat with (S N - 2)%nat by lia. rewrite add_lists_fun, (one_fun (2 * dft _ _ _)), (one_fun (2 * dft _ _ (S N - 1))), !app_fun, map_map_fun.
  replace (1 + (S N - 2 + 1))%nat with (S N) by lia. apply map_fun_ext. intros j Hj. rewrite <- V. replace (S N - 1)%nat with N by lia.
  destruct (Nat.ltb_spec j 1) as [L|L]; [replace j with 0%nat by lia; ring|].
  destruct (Nat.ltb_spec (j - 1) (S N - 2)) as [L2|L2].
  - replace (S (j - 1)) with j by lia. replace (S N + (S N - 2 - 1 - (j - 1)))%nat with (2 * N - j)%nat by lia. rewrite dft_mirror by lia. ring.
  - replace j with N by lia. ring.
Qed.
