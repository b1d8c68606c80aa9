(** Proofs: index sets of sparse grids and the combination formula. *)
From Coq Require Import Reals Lra Lia ZArith List Bool Arith FinFun.
From Verif Require Import Base Comb CombSpec CombFacts Interp InterpSpec PolyFacts Grid GridSpec GridFacts.
Import List ListNotations.
Open Scope R_scope.

Lemma partitions_In nd : forall s t, (1 <= nd)%nat -> (1 <= s)%nat -> In t (gen_partitions nd s) <-> composition_of nd s t.
Proof.
  unfold composition_of. induction nd as [|nd IH]; intros s t N S; [lia|]. cbn [gen_partitions]. destruct nd as [|nd].
  - split.
    + intros [<-|[]]. simpl. splits; auto; try lia; repeat constructor; auto.
    + intros (L & F & E). destruct t as [|x [|y t]]; simpl in L; try lia. simpl in E. left. f_equal. lia.
  - rewrite in_flat_map. split.
    + intros (x & X & T). apply in_seq in X. apply in_map_iff in T as (u & <- & U). apply IH in U; try lia. destruct U as (U1 & U2 & U3).
      splits; [simpl; auto|constructor; auto; lia|]. change (list_sum (x :: u)) with (x + list_sum u)%nat. lia.
    + intros (L & F & E). destruct t as [|x t]; simpl in L; try lia. inversion F; subst. change (list_sum (x :: t)) with (x + list_sum t)%nat in *.
      assert (1 <= list_sum t)%nat. { destruct t as [|y t]; simpl in L; [lia|]. inversion H2; subst. change (list_sum (y :: t)) with (y + list_sum t)%nat. lia. }
      exists x. split; [apply in_seq; lia|]. apply in_map. apply IH; try lia. splits; auto. lia.
Qed.
Lemma partitions_nodup nd : forall s, NoDup (gen_partitions nd s).
Proof.
  induction nd as [|nd IH]; intros s; [constructor|]. cbn [gen_partitions]. destruct nd as [|nd]; [repeat constructor; auto|].
  apply NoDup_flat; [apply seq_NoDup|intros; apply NoDup_cons_map; auto|].
  intros x y z _ _ Z1 Z2. apply in_map_iff in Z1 as (? & <- & _). apply in_map_iff in Z2 as (? & E & _). injection E. auto.
Qed.
Lemma gen_Q_ok q d : (1 <= d)%nat -> (d <= q)%nat -> gen_Q q d = Ok (flat_map (gen_partitions d) (seq (q - d + 1) d)) /\
  NoDup (flat_map (gen_partitions d) (seq (q - d + 1) d)) /\
  forall t, In t (flat_map (gen_partitions d) (seq (q - d + 1) d)) <-> length t = d /\ Forall (fun x => (1 <= x)%nat) t /\ (q - d < list_sum t <= q)%nat.
Proof.
  intros D Q. split; [unfold gen_Q; destruct (Nat.leb_spec d q); auto; lia|]. split.
  - apply NoDup_flat; [apply seq_NoDup|intros; apply partitions_nodup|]. intros x y z X Y Z1 Z2. apply in_seq in X. apply in_seq in Y.
    apply partitions_In in Z1; try lia. apply partitions_In in Z2; try lia. destruct Z1 as (_ & _ & <-). destruct Z2 as (_ & _ & <-). auto.
  - intros t. rewrite in_flat_map. split.
    + intros (i & I & T). apply in_seq in I. apply partitions_In in T; try lia. destruct T as (A & B & C). splits; auto; lia.
    + intros (A & B & C). exists (list_sum t). split; [apply in_seq; lia|]. apply partitions_In; try lia. unfold composition_of. splits; auto.
Qed.

(** ** Backward differences *)
Definition bd (f : nat -> R) (q : nat) : R := f q - match q with O => 0 | S q' => f q' end.
Fixpoint bdk (k : nat) (f : nat -> R) : nat -> R := match k with O => f | S k' => bdk k' (bd f) end.
Lemma bd_ext f g : (forall q, f q = g q) -> forall q, bd f q = bd g q.
Proof. intros E [|q]; unfold bd; rewrite ?E; auto. Qed.
Lemma bdk_ext k : forall f g, (forall q, f q = g q) -> forall q, bdk k f q = bdk k g q.
Proof. induction k; intros f g E; auto. simpl. apply IHk. apply bd_ext. auto. Qed.
Lemma bdk_out k : forall f q, bdk (S k) f q = bd (bdk k f) q.
Proof. induction k; intros f q; auto. change (bdk (S k) (bd f) q = bd (bdk k (bd f)) q). apply IHk. Qed.
Lemma bdk_zero k : forall f q, (forall q, f q = 0) -> bdk k f q = 0.
Proof. induction k; intros f q Z; simpl; auto. apply IHk. intros [|p]; unfold bd; rewrite !Z; ring. Qed.
Lemma sum_last (g : nat -> R) n : sumR (map g (seq 0 (S n))) = sumR (map g (seq 0 n)) + g n.
Proof. rewrite seq_S, map_app, sumR_app. simpl. ring. Qed.
Lemma sum_first (g : nat -> R) s n : sumR (map g (seq s (S n))) = g s + sumR (map (fun i => g (S i)) (seq s n)).
Proof. cbn [seq map]. rewrite sumR_cons. rewrite <- seq_shift, map_map. auto. Qed.
Lemma bdk_binom k : forall f q, (k <= q)%nat -> bdk k f q = sumR (map (fun j => (-1) ^ j * INR (choose k j) * f (q - j)%nat) (seq 0 (S k))).
Proof.
  induction k; intros f q KQ; [rewrite sum_last; simpl bdk; rewrite choose_0; simpl; rewrite Nat.sub_0_r; ring|].
  rewrite bdk_out. unfold bd. destruct q as [|q]; [lia|]. rewrite !IHk by lia.
  rewrite (sum_first _ 0 (S k)). rewrite choose_0.
  rewrite (sumR_ext (fun i => (-1) ^ S i * INR (choose (S k) (S i)) * f (S q - S i)%nat) (fun j => (-1) ^ S j * INR (choose k (S j)) * f (q - j)%nat + (-1) * ((-1) ^ j * INR (choose k j) * f (q - j)%nat)) (seq 0 (S k))).
  2:{ intros j J. rewrite choose_S. replace (S q - S j)%nat with (q - j)%nat by lia. rewrite plus_INR. simpl pow. ring. }
  rewrite sumR_plus, sumR_scal. rewrite (sum_first (fun j => (-1) ^ j * INR (choose k j) * f (S q - j)%nat) 0 k). rewrite (sum_last (fun j => (-1) ^ S j * INR (choose k (S j)) * f (q - j)%nat) k).
  rewrite choose_0. rewrite (choose_big k (S k)) by lia.
  rewrite (sumR_ext (fun i => (-1) ^ S i * INR (choose k (S i)) * f (S q - S i)%nat) (fun j => (-1) ^ S j * INR (choose k (S j)) * f (q - j)%nat) (seq 0 k)) by (intros; reflexivity).
  simpl (INR 0). simpl (INR 1). ring.
Qed.
(** a convolution commutes with the difference *)
Definition cv (g : nat -> nat -> R) (i : nat) : R := sumR (map (fun x => g x (i - x)%nat) (seq 1 i)).
Lemma bd_cv g q : bd (cv g) q = cv (fun x => bd (g x)) q.
Proof.
  destruct q as [|q]; unfold bd, cv; [simpl; ring|]. rewrite !seq_S, !map_app, !sumR_app. cbn [map plus]. rewrite !sumR_cons. simpl (sumR []). rewrite Nat.sub_diag.
  rewrite (sumR_ext (fun x => g x (S q - x)%nat - match (S q - x)%nat with O => 0 | S q' => g x q' end) (fun x => g x (S q - x)%nat + (-1) * g x (q - x)%nat) (seq 1 q)).
  2:{ intros x X. apply in_seq in X. replace (S q - x)%nat with (S (q - x)) by lia. ring. }
  rewrite sumR_plus, sumR_scal. ring.
Qed.
Lemma bdk_cv k : forall g q, bdk k (cv g) q = cv (fun x => bdk k (g x)) q.
Proof.
  induction k; intros g q; auto. simpl bdk. rewrite (bdk_ext k _ (cv (fun x => bd (g x)))) by (intros; apply bd_cv). rewrite IHk. auto.
Qed.

(** ** The combination formula *)
Definition part_sum (d i : nat) (F : list nat -> R) : R := match i with O => 0 | _ => sumR (map F (gen_partitions d i)) end.
Definition diff_head (F : list nat -> R) (x : nat) (t : list nat) : R := F (x :: t) - match x with S (S y) => F (S y :: t) | _ => 0 end.
Lemma part_sum_plus d i c F G : part_sum d i (fun t => F t + c * G t) = part_sum d i F + c * part_sum d i G.
Proof. destruct i; simpl part_sum; [ring|]. rewrite sumR_plus, sumR_scal. auto. Qed.
Lemma part_sum_cv d i F : (1 <= d)%nat -> part_sum (S d) i F = cv (fun x j => part_sum d j (fun t => F (x :: t))) i.
Proof.
  intros D. unfold cv. destruct i as [|i]; auto. unfold part_sum at 1. cbn [gen_partitions]. destruct d as [|d]; [lia|].
  rewrite sumR_flat. replace (S i - 1)%nat with i by lia. rewrite (seq_S i 1), map_app, sumR_app. cbn [map plus]. rewrite Nat.sub_diag. rewrite sumR_cons. simpl (part_sum (S d) 0 _). simpl (sumR []).
  rewrite Rplus_0_r, Rplus_0_r. apply sumR_ext. intros x X. apply in_seq in X. rewrite map_map. unfold part_sum. destruct (S i - x)%nat eqn:E; [lia|]. auto.
Qed.
Lemma bd_part_sum d i F : (1 <= d)%nat -> bd (fun i => part_sum (S d) i F) i = cv (fun x j => part_sum d j (diff_head F x)) i.
Proof.
  intros D. rewrite (bd_ext _ _ (fun q => part_sum_cv d q F D)). destruct i as [|i]; [unfold bd, cv; simpl; ring|].
  unfold bd, cv. rewrite !sum_first. cbn [Nat.sub]. rewrite Nat.sub_0_r.
  assert (E1 : part_sum d i (diff_head F 1) = part_sum d i (fun t => F (1%nat :: t))).
  { destruct i; auto. unfold part_sum. apply sumR_ext. intros. unfold diff_head. ring. }
  rewrite E1. rewrite (sumR_ext (fun x => part_sum d (i - x) (diff_head F (S x))) (fun x => part_sum d (i - x) (fun t => F (S x :: t)) + (-1) * part_sum d (i - x) (fun t => F (x :: t))) (seq 1 i)).
  2:{ intros x X. apply in_seq in X. rewrite <- part_sum_plus. unfold part_sum. destruct (i - x)%nat; auto. apply sumR_ext. intros t _. unfold diff_head. destruct x; [lia|]. ring. }
  rewrite sumR_plus, sumR_scal. ring.
Qed.
Definition min_list (p e : list nat) : list nat := map (fun u => Nat.min (fst u) (snd u)) (combine p e).
Lemma smolyak d : forall q F e, (1 <= d)%nat -> length e = d -> Forall (fun x => (1 <= x)%nat) e -> (list_sum e <= q)%nat ->
  (forall p, length p = d -> Forall (fun x => (1 <= x)%nat) p -> F p = F (min_list p e)) ->
  bdk (d - 1) (fun i => part_sum d i F) q = F e.
Proof.
  induction d as [|d IH]; intros q F e D LE FE SE M; [lia|]. destruct e as [|e1 e]; simpl in LE; [lia|]. inversion FE; subst. change (list_sum (e1 :: e)) with (e1 + list_sum e)%nat in SE.
  destruct d as [|d].
  - destruct e; simpl in LE; [|lia]. simpl bdk. unfold part_sum. destruct q as [|q]; [simpl in SE; lia|]. simpl gen_partitions. simpl map. rewrite sumR_cons. simpl (sumR []). rewrite Rplus_0_r.
    rewrite M; auto; [|constructor; [lia|constructor]]. unfold min_list. cbn [combine map fst snd]. simpl in SE. rewrite Nat.min_r by lia. auto.
  - replace (S (S d) - 1)%nat with (S d) by lia. cbn [bdk].
    rewrite (bdk_ext d _ (cv (fun x j => part_sum (S d) j (diff_head F x)))) by (intros; apply bd_part_sum; lia). rewrite bdk_cv. unfold cv.
    assert (EQ : forall x, In x (seq 1 q) -> bdk d (fun j => part_sum (S d) j (diff_head F x)) (q - x) = if Nat.leb x e1 then diff_head F x e else 0).
    { intros x X. apply in_seq in X.
      assert (MD : forall y t, (1 <= y)%nat -> length t = S d -> Forall (fun x => (1 <= x)%nat) t -> F (y :: t) = F (Nat.min y e1 :: min_list t e)).
      { intros y t Y T1 T2. rewrite M; [reflexivity|simpl; auto|constructor; auto]. }
      destruct (Nat.leb_spec x e1).
      - replace d with (S d - 1)%nat at 1 by lia. apply IH; auto; try lia.
        intros p P1 P2. assert (PM : length (min_list p e) = S d /\ Forall (fun x => (1 <= x)%nat) (min_list p e)).
        { split; [unfold min_list; rewrite map_length, combine_length; lia|]. clear - P2 H2. unfold min_list. apply Forall_map, Forall_forall. intros (u, v) U. pose proof (in_combine_l _ _ _ _ U). pose proof (in_combine_r _ _ _ _ U).
          rewrite Forall_forall in *. simpl. apply P2 in H. apply H2 in H0. lia. }
        assert (MM : min_list (min_list p e) e = min_list p e).
        { clear. unfold min_list. revert e. induction p as [|u p IH]; intros [|v e]; auto. cbn [combine map fst snd]. rewrite IH. f_equal. lia. }
        unfold diff_head. f_equal; [rewrite (MD x p), (MD x (min_list p e)) by (tauto || lia); rewrite MM; auto|].
        destruct x as [|[|x]]; auto. rewrite (MD (S x) p), (MD (S x) (min_list p e)) by (tauto || lia). rewrite MM. auto.
      - apply bdk_zero. intros i. unfold part_sum. destruct i as [|i]; auto. rewrite (sumR_ext _ (fun _ => 0 * 0) _).
        + rewrite (sumR_scal 0 (fun _ => 0)). ring.
        + intros t T. apply partitions_In in T; try lia. destruct T as (T1 & T2 & _). unfold diff_head. destruct x as [|[|x]]; try lia.
          rewrite (MD (S (S x)) t), (MD (S x) t) by (auto; lia). rewrite !Nat.min_r by lia. ring. }
    rewrite (sumR_ext _ _ _ EQ). replace (seq 1 q) with (seq 1 e1 ++ seq (1 + e1) (q - e1)) by (rewrite <- seq_app; f_equal; lia).
    rewrite map_app, sumR_app. rewrite (sumR_ext (fun x => if Nat.leb x e1 then diff_head F x e else 0) (fun _ => 0 * 0) (seq (1 + e1) (q - e1))).
    2:{ intros x X. apply in_seq in X. destruct (Nat.leb_spec x e1); [lia|ring]. }
    rewrite (sumR_scal 0 (fun _ => 0)). rewrite (sumR_ext _ (fun x => diff_head F x e) (seq 1 e1)).
    2:{ intros x X. apply in_seq in X. destruct (Nat.leb_spec x e1); [auto|lia]. }
    rewrite Rmult_0_l, Rplus_0_r. clear - H1. destruct e1 as [|n]; [lia|]. clear H1. induction n.
    + simpl. unfold diff_head. ring.
    + rewrite seq_S, map_app, sumR_app, IHn. cbn [map plus]. rewrite sumR_cons. unfold diff_head. simpl (sumR []). ring.
Qed.
Lemma sum_seq_rev (h : nat -> R) q d : (d <= q)%nat -> sumR (map h (seq (q - d + 1) d)) = sumR (map (fun j => h (q - j)%nat) (seq 0 d)).
Proof.
  induction d; intros D; auto. rewrite sum_last, <- IHd by lia. replace (q - S d + 1)%nat with (q - d)%nat by lia. cbn [seq map]. rewrite sumR_cons. replace (S (q - d)) with (q - d + 1)%nat by lia. ring.
Qed.
(** the weighted sum over Q(q,d) *)
Lemma combination q d F e : (1 <= d)%nat -> (d <= q)%nat -> length e = d -> Forall (fun x => (1 <= x)%nat) e -> (list_sum e <= q)%nat ->
  (forall p, length p = d -> Forall (fun x => (1 <= x)%nat) p -> F p = F (min_list p e)) ->
  sumR (map (fun p => sub_coeff q d p * F p) (flat_map (gen_partitions d) (seq (q - d + 1) d))) = F e.
Proof.
  intros D Q LE FE SE M. rewrite <- (smolyak d q F e D LE FE SE M). rewrite sumR_flat. rewrite sum_seq_rev by auto. rewrite bdk_binom by lia.
  replace (S (d - 1)) with d by lia. apply sumR_ext. intros j J. apply in_seq in J. unfold part_sum. destruct (q - j)%nat as [|s] eqn:E; [lia|]. rewrite <- E.
  rewrite <- sumR_scal. apply sumR_ext. intros p P. apply partitions_In in P; try lia. destruct P as (_ & _ & P). unfold sub_coeff. rewrite P. replace (q - (q - j))%nat with j by lia.
  f_equal. f_equal. replace (Z.of_nat d - 1)%Z with (Z.of_nat (d - 1)) by lia. apply binomial_value. lia.
Qed.
