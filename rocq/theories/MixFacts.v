(** Proofs about mixtures. *)
From Coq Require Import Reals Lra Lia List Bool Arith Permutation Sorted.
From Coquelicot Require Import Coquelicot.
From Verif Require Import Base Seg Piecewise PiecewiseSpec PiecewiseFacts PiecewiseFacts3 PiecewiseFacts4 PiecewiseMain
  Integral IntegralFacts SegInt SegIntSpec SegIntFacts Transform TransformSpec TransformFacts TransformFacts2 TransformMain AtomFacts MixSpec Mix.
Import List ListNotations.
Open Scope R_scope.

Lemma rop_mult s r : isDirac s = false -> sa (rop_seg Rmult r s) = sa s /\ sb (rop_seg Rmult r s) = sb s /\
  sf (rop_seg Rmult r s) = (fun x => sf s x * r) /\ isDirac (rop_seg Rmult r s) = false.
Proof. destruct s; intros; try discriminate; auto. Qed.
Lemma scal_ext f r a b : integrable f a b -> integrable (fun x => f x * r) a b /\ Q (fun x => f x * r) a b = r * Q f a b.
Proof.
  intros I. split.
  - apply (integrable_ext (fun x => r * f x)); [intros; ring|]. apply integrable_scal; auto.
  - rewrite <- (Q_scal f a b r) by auto. apply Q_ext; [apply I|]. intros; ring.
Qed.
Lemma prob_scal s r u v : wf_seg s -> has_int s -> Rbar_le u v -> prob (rop_seg Rmult r s) u v = r * prob s u v.
Proof.
  intros W I UV. destruct (isDirac s) eqn:D.
  - destruct s as [| | | |x k|]; try discriminate. simpl. destruct (Rbar_lt_dec u x), (Rbar_lt_dec x v); ring.
  - destruct (rop_mult s r D) as (E1 & E2 & E3 & E4). rewrite !prob_nd by auto. rewrite E1, E2, E3.
    destruct (Rbar_lt_dec (rmaxb u (sa s)) (rminb v (sb s))) as [L|L]; [|ring].
    assert (I' : integrable (sf s) (rmaxb u (sa s)) (rminb v (sb s))).
    { apply (integrable_sub (sf s) (sa s) (sb s)); auto.
      - unfold rmaxb. destruct (Rbar_le_dec u (sa s)); [apply Rbar_le_refl|apply Rbar_lt_le, Rbar_not_le; auto].
      - unfold rminb. destruct (Rbar_le_dec v (sb s)); auto. apply Rbar_le_refl. }
    rewrite <- !Q_RInt_gen by auto. apply scal_ext; auto.
Qed.
Lemma pprob_scal l r u v : Forall wf_seg l -> Forall has_int l -> Rbar_le u v -> pprob (map (rop_seg Rmult r) l) u v = r * pprob l u v.
Proof.
  intros W I UV. unfold pprob. induction l as [|s l IH]; simpl; [ring|]. inversion W; inversion I; subst.
  rewrite IH, prob_scal by auto. ring.
Qed.
Lemma rop_atoms r l x m : In (DiracSeg x m) (map (rop_seg Rmult r) l) -> exists k, In (DiracSeg x k) l.
Proof.
  intros H. apply in_map_iff in H as (s & E & I). destruct s; try discriminate. injection E as -> _. eauto.
Qed.
Lemma rop_sep eps r l : dirac_sep eps l -> dirac_sep eps (map (rop_seg Rmult r) l).
Proof.
  unfold dirac_sep. induction 1 as [|s l F P IH]; simpl; constructor; auto. rewrite Forall_map. eapply Forall_impl; [|exact F].
  intros t T. destruct s, t; simpl in *; auto.
Qed.
Lemma scale_ok eps c p : component eps c ->
  exists q, mul_num eps c p = Ok q /\ component eps (segs q) /\ (forall u v, Rbar_le u v -> pprob (segs q) u v = p * pprob c u v) /\
    forall x m, In (DiracSeg x m) (segs q) -> exists k, In (DiracSeg x k) c.
Proof.
  intros (O & W & D & I). destruct (roperation_ok eps Rmult c p O W D) as (q & E & S & O' & W'). exists q. splits; auto.
  - unfold component. splits; auto; rewrite S.
    + apply rop_sep; auto.
    + rewrite Forall_map. eapply Forall_impl; [|exact I]. intros s H Hd. destruct (isDirac s) eqn:Ds; [destruct s; discriminate|].
      destruct (rop_mult s p Ds) as (-> & -> & -> & _). apply scal_ext; auto.
  - intros u v UV. rewrite S. apply pprob_scal; auto.
  - intros x m H. rewrite S in H. eapply rop_atoms; eauto.
Qed.
Lemma add_ok eps f g : 0 <= eps -> component eps f -> component eps g -> cross_sep eps f g ->
  exists h, operation eps Rplus f g = Ok h /\ component eps (segs h) /\ (forall u v, Rbar_le u v -> pprob (segs h) u v = pprob f u v + pprob g u v) /\
    forall x m, In (DiracSeg x m) (segs h) -> (exists k, In (DiracSeg x k) f) \/ (exists k, In (DiracSeg x k) g).
Proof.
  intros He (Of & Wf & Df & If) (Og & Wg & Dg & Ig) C.
  destruct (sum_probability_main eps f g He (conj Of (conj Wf Df)) (conj Og (conj Wg Dg)) C If Ig) as (h & E & (Oh & Wh & Dh) & Ih & P).
  destruct (operation_atoms_main eps Rplus f g He Of Og Wf Wg Df Dg C) as (h' & E' & _ & A).
  rewrite E in E'. injection E' as <-. exists h. split; auto. split; [unfold component; auto|]. split; auto.
  intros x m H. apply A in H as [(mf & mg & H & _)|[(H & _)|(H & _)]]; eauto.
Qed.

Definition atoms_apart (eps : R) (cs : list (list segment)) : Prop :=
  forall c d, In c cs -> In d cs -> cross_sep eps c d.
Lemma mix_loop_ok eps : 0 <= eps -> forall pcs acc (D : list (list segment)),
  component eps (segs acc) -> Forall (fun pc => component eps (snd pc)) pcs ->
  atoms_apart eps (D ++ map snd pcs) -> (forall x m, In (DiracSeg x m) (segs acc) -> exists d k, In d D /\ In (DiracSeg x k) d) ->
  exists q, mix_loop eps acc pcs = Ok q /\ component eps (segs q) /\
    forall u v, Rbar_le u v -> pprob (segs q) u v = pprob (segs acc) u v + sumR (map (fun pc => fst pc * pprob (snd pc) u v) pcs).
Proof.
  intros He. induction pcs as [|(p & c) pcs IH]; intros acc D A F S K.
  - exists acc. splits; auto. intros. simpl. lra.
  - inversion F as [|? ? Fc F']; subst. simpl in Fc. destruct (scale_ok eps c p Fc) as (pc & E1 & C1 & P1 & K1).
    destruct (add_ok eps (segs acc) (segs pc) He A C1) as (h & E2 & C2 & P2 & K2).
    { intros a m b k Ha Hb. destruct (K a m Ha) as (d & k' & Hd & Hk). destruct (K1 b k Hb) as (k2 & Hc).
      apply (S d c) with (m := k') (k := k2); auto; apply in_app_iff; simpl; auto. }
    destruct (IH h (D ++ [c])) as (q & E3 & C3 & P3); auto.
    { rewrite <- app_assoc. exact S. }
    { intros x m H. destruct (K2 x m H) as [(k & Hk)|(k & Hk)].
      - destruct (K x k Hk) as (d & k' & Hd & Hk'). exists d, k'. split; auto. apply in_app_iff; auto.
      - destruct (K1 x k Hk) as (k' & Hk'). exists c, k'. split; auto. apply in_app_iff; simpl; auto. }
    exists q. split; [simpl; rewrite E1; cbn [rbind]; rewrite E2; cbn [rbind]; exact E3|]. split; auto.
    intros u v UV. rewrite P3, P2, P1 by auto. simpl. lra.
Qed.
Lemma mix_ok eps ps cs : 0 <= eps -> length ps = length cs -> cs <> [] -> Forall (component eps) cs -> atoms_apart eps cs ->
  exists q, mix_pdf eps ps cs = Ok q /\ component eps (segs q) /\ forall u v, Rbar_le u v -> pprob (segs q) u v = mixture_prob ps cs u v.
Proof.
  intros He L N F S. unfold mix_pdf. rewrite L, Nat.eqb_refl. destruct ps as [|p ps]; destruct cs as [|c cs]; try discriminate; [congruence|].
  simpl combine. cbv iota. inversion F; subst. destruct (scale_ok eps c p H1) as (pc & E1 & C1 & P1 & K1). rewrite E1. cbn [rbind].
  assert (M : map snd (combine ps cs) = cs).
  { simpl in L. assert (L' : length ps = length cs) by lia. clear -L'. revert cs L'. induction ps; intros [|c cs] L; try discriminate; auto. simpl. f_equal. apply IHps. simpl in L. lia. }
  destruct (mix_loop_ok eps He (combine ps cs) pc [c]) as (q & E & C & P); auto.
  - rewrite Forall_forall in *. intros (p', c') I. apply H2. rewrite <- M. apply (in_map snd) in I. exact I.
  - rewrite M. exact S.
  - intros x m I. destruct (K1 x m I) as (k & Hk). exists c, k. simpl; auto.
  - exists q. splits; auto. intros u v UV. rewrite P, P1 by auto. reflexivity.
Qed.

(** sampling *)
Lemma assign_len mask : forall vals r, length (assign_mask mask vals r) = length r.
Proof. induction mask as [|b mask IH]; intros vals [|x r]; simpl; auto. destruct b; [destruct vals|]; simpl; rewrite IH; auto. Qed.
Lemma assign_nth mask : forall vals r j, length mask = length r -> (j < length r)%nat ->
  (nth j mask false = false -> nth j (assign_mask mask vals r) 0 = nth j r 0) /\
  (nth j mask false = true -> (length (filter (fun b => b) (firstn j mask)) < length vals)%nat ->
     nth j (assign_mask mask vals r) 0 = nth (length (filter (fun b => b) (firstn j mask))) vals 0).
Proof.
  induction mask as [|b mask IH]; intros vals [|x r] j L J; simpl in *; try lia.
  destruct j as [|j].
  - simpl. destruct b; split; intros; try discriminate; [destruct vals; simpl in *; [lia|]|]; auto.
  - simpl firstn. simpl filter. destruct b.
    + destruct vals as [|v vs]; simpl.
      * destruct (IH [] r j) as (A & B); try lia. split; auto. intros; lia.
      * destruct (IH vs r j) as (A & B); try lia. split; auto. intros M K. apply B; auto. lia.
    + destruct (IH vals r j) as (A & B); try lia. split; auto.
Qed.
Lemma filter_map_eqb k idx j : length (filter (fun b => b) (firstn j (map (Nat.eqb k) idx))) = length (filter (Nat.eqb k) (firstn j idx)).
Proof.
  revert j. induction idx as [|i idx IH]; intros [|j]; auto. simpl. destruct (Nat.eqb k i); simpl; auto.
Qed.
Lemma rank_lt idx j : (j < length idx)%nat -> (rank idx j < length (filter (Nat.eqb (nth j idx O)) idx))%nat.
Proof.
  intros J. unfold rank. assert (G : forall k j idx, (j < length idx)%nat -> nth j idx O = k -> (length (filter (Nat.eqb k) (firstn j idx)) < length (filter (Nat.eqb k) idx))%nat).
  { clear. intros k. induction j; intros [|i idx] J E; simpl in *; try lia.
    - subst. rewrite Nat.eqb_refl. simpl. lia.
    - specialize (IHj idx). destruct (Nat.eqb k i); simpl; lia. }
  apply G; auto.
Qed.
Lemma nth_map_eqb k idx j : (j < length idx)%nat -> nth j (map (Nat.eqb k) idx) false = Nat.eqb k (nth j idx O).
Proof. revert j. induction idx; intros [|j] J; simpl in *; try lia; auto. apply IHidx. lia. Qed.
Lemma mix_rand_fold idx draw : (forall k m, length (draw k m) = m) -> forall ks r, NoDup ks -> length r = length idx ->
  let out := fold_left (fun r k => assign_mask (map (Nat.eqb k) idx) (draw k (length (filter (Nat.eqb k) idx))) r) ks r in
  length out = length idx /\ forall j, (j < length idx)%nat ->
    (~ In (nth j idx O) ks -> nth j out 0 = nth j r 0) /\
    (In (nth j idx O) ks -> nth j out 0 = nth (rank idx j) (draw (nth j idx O) (length (filter (Nat.eqb (nth j idx O)) idx))) 0).
Proof.
  intros DL. induction ks as [|k ks IH]; intros r ND L out; [subst out; simpl; split; auto; intros; split; auto; tauto|].
  inversion ND; subst. destruct (IH (assign_mask (map (Nat.eqb k) idx) (draw k (length (filter (Nat.eqb k) idx))) r)) as (L' & V); auto; [rewrite assign_len; auto|].
  subst out. simpl. split; auto. intros j J. destruct (V j J) as (V1 & V2).
  destruct (assign_nth (map (Nat.eqb k) idx) (draw k (length (filter (Nat.eqb k) idx))) r j) as (A & B); [rewrite map_length; auto|lia|].
  rewrite nth_map_eqb in * by auto. rewrite filter_map_eqb in B. rewrite DL in B. split.
  - intros N. rewrite V1 by tauto. apply A. apply Nat.eqb_neq. intros ->. apply N; auto.
  - intros [E|I]; [|auto]. subst k. rewrite V1 by auto. apply B; [apply Nat.eqb_refl|]. apply (rank_lt idx j J).
Qed.

Lemma sumR_flat_map {A} (f : A -> list R) l : sumR (flat_map f l) = sumR (map (fun a => sumR (f a)) l).
Proof. induction l; simpl; auto. rewrite sumR_app, IHl. auto. Qed.
Lemma sumR_const {A} (l : list A) c : sumR (map (fun _ => c) l) = INR (length l) * c.
Proof. induction l; cbn [map length]; rewrite ?sumR_cons, ?S_INR; [simpl; lra|]. rewrite IHl. lra. Qed.
Lemma seq_sum m n (g : list nat -> R) : sumR (map g (sequences m (S n))) = sumR (map (fun k => sumR (map (fun s => g (k :: s)) (sequences m n))) (seq 0 m)).
Proof.
  cbn [sequences]. rewrite <- (sumR_flat_map (fun k => map (fun s => g (k :: s)) (sequences m n))). f_equal.
  induction (seq 0 m) as [|k l IH]; auto. cbn [flat_map]. rewrite map_app, IH, map_map. reflexivity.
Qed.
Lemma sequences_len m n : INR (length (sequences m n)) = INR m ^ n.
Proof.
  transitivity (sumR (map (fun _ => 1) (sequences m n))); [rewrite sumR_const; lra|].
  induction n; [simpl; lra|]. rewrite seq_sum. rewrite IHn, sumR_const, seq_length. simpl. auto.
Qed.
Lemma uniform_mean_nth m n j (h : nat -> R) : (0 < m)%nat -> (j < n)%nat ->
  uniform_mean m n (fun idx => h (nth j idx O)) = sumR (map h (seq 0 m)) / INR m.
Proof.
  intros M. unfold uniform_mean. assert (Mn : INR m <> 0) by (apply not_0_INR; lia).
  revert j. induction n as [|n IH]; intros j J; [lia|]. rewrite seq_sum.
  assert (P : INR m ^ n <> 0) by (apply pow_nonzero; auto). destruct j as [|j].
  - cbn [nth]. rewrite (map_ext _ (fun k => INR m ^ n * h k)) by (intros; rewrite sumR_const, sequences_len; auto).
    replace (sumR (map (fun k => INR m ^ n * h k) (seq 0 m))) with (INR m ^ n * sumR (map h (seq 0 m))).
    + simpl. field. auto.
    + clear. induction (seq 0 m); simpl; [lra|]. rewrite <- IHl. ring.
  - cbn [nth]. rewrite sumR_const, seq_length. rewrite <- (IH j) by lia. simpl. field. auto.
Qed.
