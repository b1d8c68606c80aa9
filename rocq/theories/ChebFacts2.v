(** The four Chebyshev families: nodes are nested and increasing, weights are exact, refinement keeps the
    interpolation property. *)
From Coq Require Import Reals Lra Lia List Bool Arith Sorted Permutation.
From Coquelicot Require Import Coquelicot.
From Verif Require Import Base Conv Interp InterpSpec PolyFacts InterpFacts ChebFacts.
Import List ListNotations.
Open Scope R_scope.

Definition nodes2 (n : nat) (a b : R) : list R := map (cheb_raw n a b) (seq 0 n).
Lemma raw_first n a b : (2 <= n)%nat -> cheb_raw n a b 0 = a.
Proof.
  intros N. unfold cheb_raw. assert (0 < INR (n - 1)) by (apply lt_0_INR; lia). replace (INR 0 * PI / INR (n - 1)) with 0 by (simpl; field; lra). rewrite cos_0. field.
Qed.
Lemma raw_last n a b : (2 <= n)%nat -> cheb_raw n a b (n - 1) = b.
Proof.
  intros N. unfold cheb_raw. assert (0 < INR (n - 1)) by (apply lt_0_INR; lia). replace (INR (n - 1) * PI / INR (n - 1)) with PI by (field; lra). rewrite cos_PI. field.
Qed.
Lemma nodes2_length n a b : length (nodes2 n a b) = n.
Proof. unfold nodes2. rewrite map_length, seq_length. auto. Qed.
Lemma upd_same i g l : (i < length l)%nat -> g (nth i l 0) = nth i l 0 -> upd i g l = l.
Proof. revert i. induction l; intros i I E; [destruct i; auto|]. destruct i; simpl in *; [rewrite E; auto|]. f_equal. apply IHl; auto. lia. Qed.
Lemma cheb_nodes_eq n a b : (2 <= n)%nat -> cheb_nodes n a b = Ok (nodes2 n a b).
Proof.
  intros N. unfold cheb_nodes. destruct n as [|[|n]]; try lia. f_equal. fold (nodes2 (S (S n)) a b). set (m := S (S n)) in *.
  assert (L := nodes2_length m a b). assert (M : (2 <= m)%nat) by (unfold m; lia). rewrite (upd_same 0).
  - unfold upd_last. apply upd_same; rewrite L; [lia|]. unfold nodes2. rewrite nth_map_seq by lia. simpl. rewrite raw_last by lia. auto.
  - rewrite L. lia.
  - unfold nodes2. rewrite nth_map_seq by lia. simpl. rewrite raw_first by lia. auto.
Qed.
Lemma nodes2_std n a b : (2 <= n)%nat -> nodes2 n a b = map (fun c => (1/2) * (a + b) - (1/2) * (b - a) * c) (std2 (n - 1)).
Proof. intros N. unfold nodes2, std2. rewrite map_map. replace (S (n - 1)) with n by lia. reflexivity. Qed.
Lemma nodes2_increasing n a b : (2 <= n)%nat -> a < b -> StronglySorted Rlt (nodes2 n a b).
Proof.
  intros N AB. apply map_sorted; [apply seq_sorted|]. intros i j I J L. apply in_seq in I, J. unfold cheb_raw.
  assert (cos (INR j * PI / INR (n - 1)) < cos (INR i * PI / INR (n - 1))) by (apply cos_decreasing_1; try (apply std2_angle; lia); apply std2_angle_lt; lia). nra.
Qed.
Lemma nodes2_nodup n a b : (2 <= n)%nat -> a < b -> NoDup (nodes2 n a b).
Proof. intros. apply (sorted_nodup Rlt); [intros; lra|]. apply nodes2_increasing; auto. Qed.
Lemma nodes2_weights n a b : (2 <= n)%nat -> a < b -> prop_weights (nodes2 n a b) (cheb_weights n).
Proof.
  intros N AB. rewrite nodes2_std by auto. apply prop_affine; [lra|]. pose proof (std2_weights (n - 1)) as H. replace (S (n - 1)) with n in H by lia. apply H. lia.
Qed.

(** ** nesting *)
Lemma raw_double n a b k : (2 <= n)%nat -> cheb_raw n a b k = cheb_raw (2 * n - 1) a b (2 * k).
Proof.
  intros N. unfold cheb_raw. assert (0 < INR (n - 1)) by (apply lt_0_INR; lia). do 3 f_equal.
  replace (2 * n - 1 - 1)%nat with (2 * (n - 1))%nat by lia. rewrite !mult_INR. simpl (INR 2). field. lra.
Qed.
Lemma interleave_seq {g : nat -> R} m s : interleave (map (fun i => g (2 * i)%nat) (seq s (S m))) (map (fun i => g (2 * i + 1)%nat) (seq s m)) = map g (seq (2 * s) (2 * m + 1)).
Proof.
  revert s. induction m; intros s.
  - reflexivity.
  - replace (2 * S m + 1)%nat with (S (S (2 * m + 1))) by lia.
    change (seq s (S (S m))) with (s :: seq (S s) (S m)). change (seq (2 * s) (S (S (2 * m + 1)))) with (2 * s :: S (2 * s) :: seq (S (S (2 * s))) (2 * m + 1))%nat.
    change (seq s (S m)) with (s :: seq (S s) m). rewrite !map_cons. cbn [interleave]. f_equal. f_equal; [f_equal; lia|]. rewrite IHm. f_equal. f_equal. lia.
Qed.
Lemma interleave_seq_eq {g : nat -> R} m s : interleave (map (fun i => g (2 * i)%nat) (seq s m)) (map (fun i => g (2 * i + 1)%nat) (seq s m)) = map g (seq (2 * s) (2 * m)).
Proof.
  revert s. induction m; intros s; [reflexivity|].
  replace (2 * S m)%nat with (S (S (2 * m))) by lia. change (seq (2 * s) (S (S (2 * m)))) with (2 * s :: S (2 * s) :: seq (S (S (2 * s))) (2 * m))%nat.
  change (seq s (S m)) with (s :: seq (S s) m). rewrite !map_cons. cbn [interleave]. f_equal. f_equal; [f_equal; lia|]. rewrite IHm. f_equal. f_equal. lia.
Qed.
Lemma inc_length n a b : (2 <= n)%nat -> length (incremental_cheb_nodes (2 * n - 1) a b) = (n - 1)%nat.
Proof. intros N. unfold incremental_cheb_nodes. rewrite map_length, seq_length. replace (2 * n - 1 - 1)%nat with ((n - 1) * 2)%nat by lia. apply Nat.div_mul. lia. Qed.
Lemma inc_eq n a b : (2 <= n)%nat -> incremental_cheb_nodes (2 * n - 1) a b = map (fun i => cheb_raw (2 * n - 1) a b (2 * i + 1)) (seq 0 (n - 1)).
Proof. intros N. unfold incremental_cheb_nodes. replace (2 * n - 1 - 1)%nat with ((n - 1) * 2)%nat by lia. rewrite Nat.div_mul by lia. auto. Qed.
Lemma nodes2_even n a b : (2 <= n)%nat -> nodes2 n a b = map (fun i => cheb_raw (2 * n - 1) a b (2 * i)) (seq 0 n).
Proof. intros N. unfold nodes2. apply map_ext. intros k. apply raw_double; auto. Qed.
Lemma interleave_map (f : R -> R) l m : map f (interleave l m) = interleave (map f l) (map f m).
Proof. revert m. induction l as [|x l IH]; intros [|y m]; simpl; auto. rewrite IH. auto. Qed.
Lemma nest2 n a b : (2 <= n)%nat -> interleave (nodes2 n a b) (incremental_cheb_nodes (2 * n - 1) a b) = nodes2 (2 * n - 1) a b.
Proof.
  intros N. rewrite nodes2_even, inc_eq by auto. pose proof (@interleave_seq (cheb_raw (2 * n - 1) a b) (n - 1) 0) as H. replace (S (n - 1)) with n in H by lia.
  rewrite H. unfold nodes2. f_equal. f_equal. lia.
Qed.
Lemma inter_swap m l : length m = length l -> interleave m l = match m with [] => [] | y :: m' => y :: interleave l m' end.
Proof. revert l. induction m as [|y m IH]; intros [|z l] K; try discriminate; auto. simpl in *. f_equal. f_equal. apply IH. lia. Qed.
Lemma nest2_l n a b : (2 <= n)%nat -> interleave (incremental_cheb_nodes (2 * n - 1) a b) (tl (nodes2 n a b)) = tl (nodes2 (2 * n - 1) a b).
Proof.
  intros N. pose proof (nest2 n a b N) as H. rewrite <- H. destruct (nodes2 n a b) as [|x l] eqn:E; [pose proof (nodes2_length n a b) as L; rewrite E in L; simpl in L; lia|].
  simpl. pose proof (inc_length n a b N) as LI. pose proof (nodes2_length n a b) as L. rewrite E in L. simpl in L.
  assert (K : length (incremental_cheb_nodes (2 * n - 1) a b) = length l) by lia. apply inter_swap. auto.
Qed.
Lemma removelast_snoc {A} (l : list A) x : removelast (l ++ [x]) = l.
Proof. rewrite removelast_app by discriminate. simpl. apply app_nil_r. Qed.
Lemma seq_snoc s n : (1 <= n)%nat -> seq s n = seq s (n - 1) ++ [(s + (n - 1))%nat].
Proof. intros N. replace n with ((n - 1) + 1)%nat at 1 by lia. rewrite seq_app. auto. Qed.
Lemma nodes2_snoc n a b : (2 <= n)%nat -> nodes2 n a b = map (cheb_raw n a b) (seq 0 (n - 1)) ++ [cheb_raw n a b (n - 1)].
Proof. intros N. unfold nodes2. rewrite seq_snoc, map_app by lia. auto. Qed.
Lemma nest2_r n a b : (2 <= n)%nat -> interleave (removelast (nodes2 n a b)) (incremental_cheb_nodes (2 * n - 1) a b) = removelast (nodes2 (2 * n - 1) a b).
Proof.
  intros N. rewrite nodes2_snoc, (nodes2_snoc (2 * n - 1)), !removelast_snoc by lia. rewrite inc_eq by auto.
  rewrite (map_ext _ _ (fun k => raw_double n a b k N)). rewrite (@interleave_seq_eq (cheb_raw (2 * n - 1) a b)). f_equal. f_equal. lia.
Qed.

(** ** one-sided families *)
Lemma half_sin t : 2 * (sin (t / 2)) ^ 2 = 1 - cos t.
Proof. replace t with (2 * (t / 2)) at 2 by field. rewrite cos_2a_sin. ring. Qed.
Lemma half_cos t : 2 * (sin (PI / 2 - t / 2)) ^ 2 = 1 + cos t.
Proof. replace t with (2 * (t / 2)) at 2 by field. rewrite cos_2a_cos. rewrite sin_shift. ring. Qed.
Lemma rev_seq_nth s n j d : (j < n)%nat -> nth j (rev (seq s n)) d = (s + (n - 1 - j))%nat.
Proof. intros J. rewrite rev_nth by (rewrite seq_length; auto). rewrite seq_length, seq_nth by lia. lia. Qed.
Lemma map_nth_lt {A B} (g : A -> B) l j d d' : (j < length l)%nat -> nth j (map g l) d' = g (nth j l d).
Proof. intros J. rewrite (nth_indep _ d' (g d)) by (rewrite map_length; auto). apply map_nth. Qed.
Lemma nol_length len : length (nol_weights len) = len.
Proof.
  unfold nol_weights. rewrite rev_length, mul_lists_length; rewrite ?map_length, ?rev_length, ?seq_length, ?upd_length, ?set_even_length, ?ones_length; auto.
Qed.
Lemma nol_nth len i : (i < len)%nat -> nth i (nol_weights len) 0 = - sgn (len - 1 - i) / (if Nat.eqb i (len - 1) then 2 else 1) * (1 - cos (INR (S i) * PI / INR len)).
Proof.
  intros I. unfold nol_weights. set (g := fun k : nat => _). set (U := upd 0 _ _). assert (LU : length U = len) by (unfold U; rewrite upd_length, set_even_length, ones_length; auto).
  assert (LM : length (map g (rev (seq 1 len))) = len) by (rewrite map_length, rev_length, seq_length; auto).
  rewrite rev_nth by (rewrite mul_lists_length; lia). rewrite mul_lists_length by lia. rewrite LU. rewrite mul_lists_nth by lia.
  rewrite (map_nth_lt g _ _ 0%nat) by (rewrite rev_length, seq_length; lia). rewrite rev_seq_nth by lia. unfold g. replace (1 + (len - 1 - (len - S i)))%nat with (S i) by lia.
  replace (S len - 1)%nat with len by lia. rewrite half_sin. f_equal. unfold U. rewrite upd_nth by (rewrite set_even_length, ones_length; lia). rewrite set_even_nth, ones_nth by (rewrite ?ones_length; lia).
  replace (len - 1 - i)%nat with (len - S i)%nat by lia. unfold sgn. destruct (Nat.eqb_spec (len - S i) 0), (Nat.eqb_spec i (len - 1)), (Nat.even (len - S i)); try lia; field.
Qed.
Lemma nor_length len : length (nor_weights len) = len.
Proof.
  unfold nor_weights, upd_last. rewrite rev_length, mul_lists_length; rewrite ?map_length, ?rev_length, ?seq_length, ?upd_length, ?set_odd_length, ?ones_length; auto.
Qed.
Lemma nor_nth len i : (i < len)%nat -> nth i (nor_weights len) 0 = sgn (len - 1 - i) / (if Nat.eqb i 0 then 2 else 1) * (1 + cos (INR i * PI / INR len)).
Proof.
  intros I. unfold nor_weights. set (g := fun k : nat => _). set (U := upd_last _ _). assert (LU : length U = len) by (unfold U, upd_last; rewrite upd_length, set_odd_length, ones_length; auto).
  assert (LM : length (map g (rev (seq 0 len))) = len) by (rewrite map_length, rev_length, seq_length; auto).
  rewrite rev_nth by (rewrite mul_lists_length; lia). rewrite mul_lists_length by lia. rewrite LU. rewrite mul_lists_nth by lia.
  rewrite (map_nth_lt g _ _ 0%nat) by (rewrite rev_length, seq_length; lia). rewrite rev_seq_nth by lia. unfold g. replace (0 + (len - 1 - (len - S i)))%nat with i by lia.
  replace (S len - 1)%nat with len by lia. rewrite half_cos. f_equal. unfold U, upd_last. rewrite upd_nth by (rewrite set_odd_length, ones_length; lia). rewrite set_odd_nth, ones_nth, set_odd_length, ones_length by (rewrite ?ones_length; lia).
  replace (len - 1 - i)%nat with (len - S i)%nat by lia. unfold sgn. rewrite <- Nat.negb_even. destruct (Nat.eqb_spec (len - S i) (len - 1)), (Nat.eqb_spec i 0), (Nat.even (len - S i)); simpl; try lia; field.
Qed.
Lemma std2_cons m : std2 m = cos (INR 0 * PI / INR m) :: map (fun k => cos (INR k * PI / INR m)) (seq 1 m).
Proof. reflexivity. Qed.
Lemma std2_snoc m : std2 m = map (fun k => cos (INR k * PI / INR m)) (seq 0 m) ++ [cos (INR m * PI / INR m)].
Proof. unfold std2. rewrite seq_snoc, map_app by lia. replace (S m - 1)%nat with m by lia. reflexivity. Qed.
Lemma std_nol m : (1 <= m)%nat -> prop_weights (map (fun k => cos (INR k * PI / INR m)) (seq 1 m)) (nol_weights m).
Proof.
  intros M. assert (M0 : 0 < INR m) by (apply lt_0_INR; lia). pose proof (std2_weights m M) as H. pose proof (std2_nodup m M) as ND. rewrite std2_cons in H, ND.
  pose proof (cheb_weights_length (S m)) as LW. pose proof (fun i => cheb_weights_nth (S m) i ltac:(lia)) as EW. destruct (cheb_weights (S m)) as [|w Ws]; [discriminate|]. simpl in LW.
  set (l := map (fun k => cos (INR k * PI / INR m)) (seq 1 m)) in *. assert (LL : length l = m) by (unfold l; rewrite map_length, seq_length; auto).
  set (Vs := map (fun i => (nth i l 0 - cos (INR 0 * PI / INR m)) * nth i Ws 0) (seq 0 m)).
  assert (PV : prop_weights l Vs). { apply (prop_tail _ l w Ws Vs ND H); [unfold Vs; rewrite map_length, seq_length; lia|]. intros i I. unfold Vs. rewrite nth_map_seq by lia. auto. }
  apply (prop_scale l Vs (nol_weights m) (- sgn m)); auto.
  - pose proof (sgn_ne m). lra.
  - rewrite nol_length. unfold Vs. rewrite map_length, seq_length. auto.
  - rewrite LL. intros i I. rewrite nol_nth by auto. unfold Vs. rewrite nth_map_seq by auto. simpl (0 + i)%nat. unfold l. rewrite nth_map_seq by auto. simpl (1 + i)%nat.
    pose proof (EW (S i) ltac:(lia)) as E. cbn [nth] in E. rewrite E. replace (INR 0 * PI / INR m) with 0 by (simpl; field; lra). rewrite cos_0. replace (S m - 1)%nat with m by lia.
    replace (sgn m) with (sgn (m - 1 - i) * sgn (S i)) by (rewrite <- sgn_add; f_equal; lia). simpl (Nat.eqb (S i) 0). rewrite orb_false_l.
    pose proof (sgn_sq (S i)) as Q. destruct (Nat.eqb_spec i (m - 1)), (Nat.eqb_spec (S i) m); try lia.
    + transitivity (- sgn (m - 1 - i) * (sgn (S i) * sgn (S i)) / 2 * (1 - cos (INR (S i) * PI / INR m))); [rewrite Q|]; field.
    + transitivity (- sgn (m - 1 - i) * (sgn (S i) * sgn (S i)) * (1 - cos (INR (S i) * PI / INR m))); [rewrite Q|]; field.
Qed.
Lemma last_split (l : list R) n : length l = S n -> exists l' x, l = l' ++ [x] /\ length l' = n.
Proof.
  intros H. exists (removelast l), (last l 0). assert (NE : l <> []) by (intros ->; discriminate). split; [apply app_removelast_last; auto|].
  assert (E := app_removelast_last 0 NE). rewrite E in H. rewrite app_length in H. simpl in H. lia.
Qed.
Lemma std_nor m : (1 <= m)%nat -> prop_weights (map (fun k => cos (INR k * PI / INR m)) (seq 0 m)) (nor_weights m).
Proof.
  intros M. assert (M0 : 0 < INR m) by (apply lt_0_INR; lia). pose proof (std2_weights m M) as H. pose proof (std2_nodup m M) as ND. rewrite std2_snoc in H, ND.
  pose proof (cheb_weights_length (S m)) as LW. pose proof (fun i => cheb_weights_nth (S m) i ltac:(lia)) as EW. destruct (last_split _ _ LW) as (Ws & w & E & LWs). rewrite E in H, EW.
  set (l := map (fun k => cos (INR k * PI / INR m)) (seq 0 m)) in *. assert (LL : length l = m) by (unfold l; rewrite map_length, seq_length; auto).
  set (Vs := map (fun i => (nth i l 0 - cos (INR m * PI / INR m)) * nth i Ws 0) (seq 0 m)).
  assert (PV : prop_weights l Vs). { apply (prop_init _ l w Ws Vs ND H); [unfold Vs; rewrite map_length, seq_length; lia|]. intros i I. unfold Vs. rewrite nth_map_seq by lia. auto. }
  apply (prop_scale l Vs (nor_weights m) (- sgn (m - 1))); auto.
  - pose proof (sgn_ne (m - 1)). lra.
  - rewrite nor_length. unfold Vs. rewrite map_length, seq_length. auto.
  - rewrite LL. intros i I. rewrite nor_nth by auto. unfold Vs. rewrite nth_map_seq by auto. simpl (0 + i)%nat. unfold l. rewrite nth_map_seq by auto. simpl (0 + i)%nat.
    pose proof (EW i ltac:(lia)) as E'. rewrite app_nth1 in E' by lia. rewrite E'. replace (INR m * PI / INR m) with PI by (field; lra). rewrite cos_PI. replace (S m - 1)%nat with m by lia.
    replace (sgn (m - 1)) with (sgn (m - 1 - i) * sgn i) by (rewrite <- sgn_add; f_equal; lia).
    pose proof (sgn_sq i) as Q. destruct (Nat.eqb_spec i 0), (Nat.eqb_spec i m); try lia; simpl orb.
    + transitivity (sgn (m - 1 - i) * (sgn i * sgn i) / 2 * (1 + cos (INR i * PI / INR m))); [rewrite Q|]; field.
    + transitivity (sgn (m - 1 - i) * (sgn i * sgn i) * (1 + cos (INR i * PI / INR m))); [rewrite Q|]; field.
Qed.

(** ** First kind *)
Definition std1 (n : nat) : list R := map (fun k => cos (INR (2 * k + 1) * PI / INR (2 * n))) (seq 0 n).
Lemma ang1 n k : (k < n)%nat -> 0 < INR (2 * k + 1) * PI / INR (2 * n) < PI.
Proof.
  intros K. assert (0 < INR (2 * n)) by (apply lt_0_INR; lia). pose proof PI_RGT_0. assert (0 < INR (2 * k + 1)) by (apply lt_0_INR; lia).
  assert (INR (2 * k + 1) < INR (2 * n)) by (apply lt_INR; lia). split; [apply Rdiv_lt_0_compat; nra|]. apply (Rmult_lt_reg_r (INR (2 * n))); auto. unfold Rdiv. rewrite Rmult_assoc, Rinv_l by lra. nra.
Qed.
Lemma ang1_lt n i k : (0 < n)%nat -> (i < k)%nat -> INR (2 * i + 1) * PI / INR (2 * n) < INR (2 * k + 1) * PI / INR (2 * n).
Proof.
  intros N K. assert (0 < INR (2 * n)) by (apply lt_0_INR; lia). pose proof PI_RGT_0. assert (INR (2 * i + 1) < INR (2 * k + 1)) by (apply lt_INR; lia).
  unfold Rdiv. apply Rmult_lt_compat_r; [apply Rinv_0_lt_compat; auto|]. nra.
Qed.
Lemma std1_nodup n : NoDup (std1 n).
Proof.
  apply (sorted_nodup (fun x y => y < x)); [intros; lra|]. apply map_sorted; [apply seq_sorted|]. intros i j I J L. apply in_seq in I, J.
  pose proof (ang1 n i ltac:(lia)). pose proof (ang1 n j ltac:(lia)). apply cos_decreasing_1; try lra. apply ang1_lt; lia.
Qed.
Lemma ang1_mul n k : (0 < n)%nat -> INR n * (INR (2 * k + 1) * PI / INR (2 * n)) = PI / 2 + INR k * PI.
Proof. intros N. assert (0 < INR n) by (apply lt_0_INR; lia). rewrite plus_INR, !mult_INR. simpl (INR 2). simpl (INR 1). field. lra. Qed.
Lemma cheb1_weights_nth n i : (i < n)%nat -> nth i (cheb1_weights n) 0 = sgn i * sin (INR (2 * i + 1) * PI / INR (2 * n)).
Proof.
  intros I. unfold cheb1_weights. rewrite neg_odd_nth by (rewrite map_length, seq_length; auto). rewrite nth_map_seq by auto. simpl (0 + i)%nat. unfold sgn. rewrite <- Nat.negb_even. destruct (Nat.even i); simpl negb; cbv iota; ring.
Qed.
Lemma std1_weights n : (1 <= n)%nat -> prop_weights (std1 n) (cheb1_weights n).
Proof.
  intros N. assert (LE : length (std1 n) = n) by (unfold std1; rewrite map_length, seq_length; auto). assert (N0 : 0 < INR n) by (apply lt_0_INR; lia).
  apply (weights_from_derive _ (chebT n) (fun i => INR n * sgn i / sin (INR (2 * i + 1) * PI / INR (2 * n))) _ (INR n)).
  - rewrite LE. apply chebT_poly.
  - apply std1_nodup.
  - intros r H. apply in_map_iff in H as (k & <- & K). apply in_seq in K. rewrite chebT_cos, ang1_mul by lia. rewrite cos_plus, cos_PI2, sin_PI2, sin_npi. ring.
  - intros Z. rewrite Z in LE. simpl in LE. lia.
  - lra.
  - rewrite LE. intros i I. pose proof (ang1 n i I) as A. set (t := INR (2 * i + 1) * PI / INR (2 * n)) in *. assert (S0 : 0 < sin t) by (apply sin_gt_0; lra). pose proof (sgn_ne i). split.
    + unfold Rdiv. repeat apply Rmult_integral_contrapositive_currified; auto; try lra. apply Rinv_neq_0_compat. lra.
    + unfold std1. rewrite nth_map_seq by auto. simpl (0 + i)%nat. fold t. apply (derive_cos_comp (S n) (chebT n) (fun u => cos (INR n * u))); auto using chebT_poly; [intros u; apply chebT_cos|lra|].
      auto_derive; auto. unfold t. rewrite ang1_mul by lia. fold t. rewrite sin_plus, cos_PI2, sin_PI2, cos_npi. field. lra.
  - unfold cheb1_weights. rewrite neg_odd_length, map_length, seq_length, LE. auto.
  - rewrite LE. intros i I. rewrite cheb1_weights_nth by auto. pose proof (ang1 n i I) as A. set (t := INR (2 * i + 1) * PI / INR (2 * n)) in *. assert (S0 : 0 < sin t) by (apply sin_gt_0; lra).
    pose proof (sgn_ne i). transitivity (sgn i * sgn i * sin t / sgn i); [field; auto|]. rewrite sgn_sq. field. repeat split; auto; lra.
Qed.
