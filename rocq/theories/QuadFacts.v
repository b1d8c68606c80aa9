(** Facts: finite sums and cosine sums. *)
From Coq Require Import Reals Lra Lia List Bool Arith.
From Verif Require Import Base.
Import List ListNotations.
Open Scope R_scope.

Definition bsum (n : nat) (F : nat -> R) : R := sumR (map F (seq 0 n)).
Lemma bsum_0 F : bsum 0 F = 0.
Proof. reflexivity. Qed.
Lemma bsum_S n F : bsum (S n) F = bsum n F + F n.
Proof. unfold bsum. rewrite seq_S, map_app, sumR_app. simpl. lra. Qed.
Lemma bsum_ext n F G : (forall i, (i < n)%nat -> F i = G i) -> bsum n F = bsum n G.
Proof. induction n; intros H; [reflexivity|]. rewrite !bsum_S, IHn, H; auto. Qed.
Lemma bsum_plus n F G : bsum n (fun i => F i + G i) = bsum n F + bsum n G.
Proof. induction n; rewrite ?bsum_0, ?bsum_S; [lra|]. rewrite IHn. lra. Qed.
Lemma bsum_scal n c F : bsum n (fun i => c * F i) = c * bsum n F.
Proof. induction n; rewrite ?bsum_0, ?bsum_S; [lra|]. rewrite IHn. lra. Qed.
Lemma bsum_scal_r n c F : bsum n (fun i => F i * c) = bsum n F * c.
Proof. induction n; rewrite ?bsum_0, ?bsum_S; [lra|]. rewrite IHn. lra. Qed.
Lemma bsum_const n c : bsum n (fun _ => c) = INR n * c.
Proof. induction n; [simpl; rewrite bsum_0; lra|]. rewrite bsum_S, S_INR, IHn. lra. Qed.
Lemma bsum_zero n F : (forall i, (i < n)%nat -> F i = 0) -> bsum n F = 0.
Proof. intros H. rewrite (bsum_ext n F (fun _ => 0)) by auto. rewrite bsum_const. lra. Qed.
Lemma bsum_shift n F : bsum (S n) F = F 0%nat + bsum n (fun i => F (S i)).
Proof. induction n; [rewrite bsum_S, !bsum_0; lra|]. rewrite bsum_S, IHn, bsum_S. lra. Qed.
Lemma bsum_rev n F : bsum n F = bsum n (fun i => F (n - 1 - i)%nat).
Proof.
  induction n; [reflexivity|]. rewrite bsum_S, bsum_shift, IHn. replace (S n - 1 - 0)%nat with n by lia.
  rewrite Rplus_comm. f_equal. apply bsum_ext. intros i Hi. f_equal. lia.
Qed.
Lemma bsum_swap n m (F : nat -> nat -> R) : bsum n (fun i => bsum m (fun j => F i j)) = bsum m (fun j => bsum n (fun i => F i j)).
Proof.
  induction n; [rewrite bsum_0; symmetry; apply bsum_zero; reflexivity|].
  rewrite bsum_S, IHn, <- bsum_plus. apply bsum_ext. intros j _. rewrite bsum_S. reflexivity.
Qed.
Lemma bsum_one n k F : (k < n)%nat -> (forall i, (i < n)%nat -> i <> k -> F i = 0) -> bsum n F = F k.
Proof.
  intros K H. induction n; [lia|]. rewrite bsum_S. destruct (Nat.eq_dec k n) as [->|D].
  - rewrite bsum_zero; [lra|]. intros i Hi. apply H; lia.
  - rewrite IHn; [|lia|intros; apply H; lia]. rewrite (H n) by lia. lra.
Qed.
Lemma bsum_two n k l F : (k < n)%nat -> (l < n)%nat -> k <> l -> (forall i, (i < n)%nat -> i <> k -> i <> l -> F i = 0) -> bsum n F = F k + F l.
Proof.
  intros K L D H. induction n; [lia|]. rewrite bsum_S. destruct (Nat.eq_dec k n) as [->|Dk].
  - rewrite (bsum_one n l F); [lra|lia|]. intros i Hi Di. apply H; lia.
  - destruct (Nat.eq_dec l n) as [->|Dl].
    + rewrite (bsum_one n k F); [lra|lia|]. intros i Hi Di. apply H; lia.
    + rewrite IHn; try lia; [|intros; apply H; lia]. rewrite (H n) by lia. lra.
Qed.
Lemma bsum_le n F G : (forall i, (i < n)%nat -> F i <= G i) -> bsum n F <= bsum n G.
Proof. induction n; intros H; [rewrite !bsum_0; lra|]. rewrite !bsum_S. pose proof (H n ltac:(lia)). specialize (IHn ltac:(intros; apply H; lia)). lra. Qed.
Lemma bsum_lt n F G k : (k < n)%nat -> (forall i, (i < n)%nat -> F i <= G i) -> F k < G k -> bsum n F < bsum n G.
Proof.
  revert k. induction n; intros k K H L; [lia|]. rewrite !bsum_S. pose proof (H n ltac:(lia)) as Hn.
  destruct (Nat.eq_dec k n) as [->|D].
  - pose proof (bsum_le n F G ltac:(intros; apply H; lia)). lra.
  - pose proof (IHn k ltac:(lia) ltac:(intros; apply H; lia) L). lra.
Qed.
Lemma bsum_abs n F : Rabs (bsum n F) <= bsum n (fun i => Rabs (F i)).
Proof. induction n; [rewrite !bsum_0, Rabs_R0; lra|]. rewrite !bsum_S. pose proof (Rabs_triang (bsum n F) (F n)). lra. Qed.
Lemma bsum_split n m F : bsum (n + m) F = bsum n F + bsum m (fun i => F (n + i)%nat).
Proof. induction m; [rewrite Nat.add_0_r, bsum_0; lra|]. rewrite Nat.add_succ_r, !bsum_S, IHm. lra. Qed.
Lemma bsum_tele n (F : nat -> R) : bsum n (fun i => F (S i) - F i) = F n - F 0%nat.
Proof. induction n; [rewrite bsum_0; lra|]. rewrite bsum_S, IHn. lra. Qed.

(** ** cosine sums *)
Definition ang (N j k : nat) : R := 2 * PI * INR j * INR k / INR N.
Lemma cos_nat_2pi x k : cos (x + 2 * INR k * PI) = cos x.
Proof. apply cos_period. Qed.
Lemma ang_sym N j k : ang N j k = ang N k j.
Proof. unfold ang. lra. Qed.
Lemma cos_ang_mirror N j k : (0 < N)%nat -> (j <= N)%nat -> cos (ang N (N - j) k) = cos (ang N j k).
Proof.
  intros N0 J. assert (0 < INR N) by (apply lt_0_INR; lia). unfold ang. rewrite minus_INR by auto.
  replace (2 * PI * (INR N - INR j) * INR k / INR N) with (- (2 * PI * INR j * INR k / INR N) + 2 * INR k * PI) by (field; lra).
  rewrite cos_nat_2pi. apply cos_neg.
Qed.
Lemma cos_ang_mirror_r N j k : (0 < N)%nat -> (k <= N)%nat -> cos (ang N j (N - k)) = cos (ang N j k).
Proof. intros. rewrite ang_sym, cos_ang_mirror, ang_sym; auto. Qed.
(** the sum over a full circle *)
Lemma cos_sum_zero N m : (0 < m < 2 * N)%nat -> m <> N -> bsum N (fun j => cos (ang N j m)) = 0.
Proof.
  intros M D. assert (P : 0 < INR N) by (apply lt_0_INR; lia). pose proof PI_RGT_0 as PI0.
  set (h := PI * INR m / INR N).
  assert (S0 : sin h <> 0).
  { destruct (Nat.lt_ge_cases m N) as [L|G].
    - assert (0 < sin h); [|lra]. apply sin_gt_0; unfold h.
      + apply Rdiv_lt_0_compat; auto. apply Rmult_lt_0_compat; auto. apply lt_0_INR. lia.
      + apply (Rmult_lt_reg_r (INR N)); auto. unfold Rdiv. rewrite Rmult_assoc, Rinv_l by lra. apply lt_INR in L. nra.
    - assert (sin h < 0); [|lra]. assert (L : (N < m)%nat) by lia. apply lt_INR in L. assert (U : (m < 2 * N)%nat) by lia. apply lt_INR in U. rewrite mult_INR in U. simpl in U.
      apply sin_lt_0; unfold h; apply (Rmult_lt_reg_r (INR N)); auto; unfold Rdiv; rewrite (Rmult_assoc _ (/ INR N)), Rinv_l by lra; nra. }
  apply (Rmult_eq_reg_l (2 * sin h)); [|lra]. rewrite Rmult_0_r, <- bsum_scal.
  transitivity (bsum N (fun j => sin ((2 * INR (S j) - 1) * h) - sin ((2 * INR j - 1) * h))).
  - apply bsum_ext. intros j _. rewrite S_INR. replace (ang N j m) with (2 * INR j * h) by (unfold ang, h; field; lra).
    replace ((2 * (INR j + 1) - 1) * h) with (2 * INR j * h + h) by ring. replace ((2 * INR j - 1) * h) with (2 * INR j * h - h) by ring.
    rewrite sin_plus, sin_minus. ring.
  - rewrite (bsum_tele N (fun j => sin ((2 * INR j - 1) * h))). simpl (INR 0).
    replace ((2 * INR N - 1) * h) with (- h + 2 * INR m * PI) by (unfold h; field; lra). rewrite sin_period.
    replace ((2 * 0 - 1) * h) with (- h) by ring. lra.
Qed.
Lemma cos_sum_full N m : (m = 0 \/ m = N)%nat -> bsum N (fun j => cos (ang N j m)) = INR N.
Proof.
  intros [->| ->].
  - rewrite (bsum_ext N _ (fun _ => 1)); [rewrite bsum_const; lra|]. intros j _. unfold ang. simpl (INR 0).
    replace (2 * PI * INR j * 0 / INR N) with 0 by (unfold Rdiv; ring). apply cos_0.
  - destruct N as [|N]; [reflexivity|]. rewrite (bsum_ext _ _ (fun _ => 1)); [rewrite bsum_const; lra|]. intros j _.
    assert (INR (S N) <> 0) by (apply not_0_INR; lia). unfold ang. replace (2 * PI * INR j * INR (S N) / INR (S N)) with (0 + 2 * INR j * PI) by (field; auto).
    rewrite cos_nat_2pi. apply cos_0.
Qed.
(** orthogonality *)
Definition ndist (k q : nat) : nat := if Nat.leb k q then (q - k)%nat else (k - q)%nat.
Lemma cos_prod N j k q : (0 < N)%nat -> cos (ang N j k) * cos (ang N j q) = (cos (ang N j (ndist k q)) + cos (ang N j (k + q))) / 2.
Proof.
  intros N0. assert (0 < INR N) by (apply lt_0_INR; lia).
  assert (E : cos (ang N j (ndist k q)) = cos (ang N j k - ang N j q)).
  { unfold ndist. destruct (Nat.leb_spec k q).
    - rewrite <- (cos_neg (ang N j k - ang N j q)). f_equal. unfold ang. rewrite minus_INR by lia. field. lra.
    - f_equal. unfold ang. rewrite minus_INR by lia. field. lra. }
  rewrite E. replace (ang N j (k + q)) with (ang N j k + ang N j q) by (unfold ang; rewrite plus_INR; field; lra).
  rewrite cos_plus, cos_minus. lra.
Qed.
(** real part of a discrete Fourier transform *)
Definition dft (N : nat) (u : nat -> R) (j : nat) : R := bsum N (fun k => u k * cos (ang N j k)) / INR N.
(** inversion for symmetric data *)
Lemma dft_inv N (u : nat -> R) q : (0 < N)%nat -> (q < N)%nat -> (forall k, (0 < k < N)%nat -> u (N - k)%nat = u k) ->
  bsum N (fun j => dft N u j * cos (ang N j q)) = u q.
Proof.
  intros N0 Hq Sy. assert (P : 0 < INR N) by (apply lt_0_INR; lia).
  transitivity (bsum N (fun k => u k * (bsum N (fun j => cos (ang N j (ndist k q))) + bsum N (fun j => cos (ang N j (k + q)))) / (2 * INR N))).
  - transitivity (bsum N (fun j => bsum N (fun k => u k * (cos (ang N j (ndist k q)) + cos (ang N j (k + q))) / (2 * INR N)))).
    + apply bsum_ext. intros j _. unfold dft. unfold Rdiv at 1. rewrite Rmult_assoc, (Rmult_comm (/ INR N)), <- Rmult_assoc, <- !bsum_scal_r.
      apply bsum_ext. intros k _. rewrite (Rmult_assoc (u k)), cos_prod by auto. field. lra.
    + rewrite bsum_swap. apply bsum_ext. intros k _. rewrite <- bsum_plus. unfold Rdiv. rewrite (Rmult_assoc (u k)), <- bsum_scal_r, <- bsum_scal.
      apply bsum_ext. intros j _. ring.
  - destruct (Nat.eq_dec q 0) as [->|Dq].
    + rewrite (bsum_one N 0); [|auto|].
      * unfold ndist. simpl. rewrite cos_sum_full by auto. field. lra.
      * intros k Hk Dk. replace (ndist k 0) with k by (unfold ndist; destruct (Nat.leb_spec k 0); lia). rewrite Nat.add_0_r, cos_sum_zero by lia.
        field. lra.
    + assert (Dd : forall k, (k < N)%nat -> k <> q -> bsum N (fun j => cos (ang N j (ndist k q))) = 0).
      { intros k Hk Dk. apply cos_sum_zero; unfold ndist; destruct (Nat.leb_spec k q); lia. }
      assert (Ds : forall k, (k < N)%nat -> k <> (N - q)%nat -> bsum N (fun j => cos (ang N j (k + q))) = 0).
      { intros k Hk Dk. apply cos_sum_zero; lia. }
      assert (D0 : bsum N (fun j => cos (ang N j (ndist q q))) = INR N).
      { apply cos_sum_full. left. unfold ndist. rewrite Nat.leb_refl. lia. }
      assert (D1 : bsum N (fun j => cos (ang N j (N - q + q))) = INR N).
      { apply cos_sum_full. right. lia. }
      destruct (Nat.eq_dec q (N - q)) as [E|D].
      * rewrite (bsum_one N q); [|auto|].
        -- rewrite D0. replace (q + q)%nat with (N - q + q)%nat by lia.
           rewrite D1. field. lra.
        -- intros k Hk Dk. rewrite Dd, Ds by lia. field. lra.
      * rewrite (bsum_two N q (N - q)); try lia.
        -- rewrite D0, (Ds q), (Dd (N - q)%nat), D1 by lia. rewrite Sy by lia. field. lra.
        -- intros k Hk D2 D3. rewrite Dd, Ds by lia. field. lra.
Qed.
Lemma dft_mirror N u j : (0 < N)%nat -> (j <= N)%nat -> dft N u (N - j) = dft N u j.
Proof. intros N0 J. unfold dft. f_equal. apply bsum_ext. intros k _. rewrite cos_ang_mirror; auto. Qed.
Lemma dft_0 N u : dft N u 0 = bsum N u / INR N.
Proof.
  unfold dft. f_equal. apply bsum_ext. intros k _. unfold ang. simpl (INR 0). replace (2 * PI * 0 * INR k / INR N) with 0 by (unfold Rdiv; ring).
  rewrite cos_0. ring.
Qed.
(** sums over the half circle with mirrored weights *)
Definition half (N j : nat) : R := INR j * PI / INR N.
Lemma half_sum_odd N (w : nat -> R) p : (0 < N)%nat -> (forall j, (j <= N)%nat -> w (N - j)%nat = w j) ->
  Nat.Odd p -> bsum (S N) (fun j => w j * cos (INR p * half N j)) = 0.
Proof.
  intros N0 Sy [q Hp]. assert (P : 0 < INR N) by (apply lt_0_INR; lia). set (Z := bsum (S N) _).
  assert (E : Z = - Z); [|lra]. unfold Z at 1. rewrite bsum_rev. rewrite <- (Rmult_1_l Z), Ropp_mult_distr_l. unfold Z. rewrite <- bsum_scal. apply bsum_ext.
  intros j Hj. replace (S N - 1 - j)%nat with (N - j)%nat by lia. rewrite Sy by lia.
  assert (Ec : cos (INR p * half N (N - j)) = - cos (INR p * half N j)).
  { unfold half. rewrite minus_INR by lia. subst p. rewrite plus_INR, mult_INR. change (INR 2) with 2. change (INR 1) with 1.
    replace ((2 * INR q + 1) * ((INR N - INR j) * PI / INR N)) with (- ((2 * INR q + 1) * (INR j * PI / INR N)) + PI + 2 * INR q * PI) by (field; lra).
    rewrite cos_period, neg_cos, cos_neg. reflexivity. }
  rewrite Ec. ring.
Qed.
Lemma half_even N j q : (0 < N)%nat -> INR (2 * q) * half N j = ang N j q.
Proof. intros N0. assert (0 < INR N) by (apply lt_0_INR; lia). unfold half, ang. rewrite mult_INR. change (INR 2) with 2. field. lra. Qed.
