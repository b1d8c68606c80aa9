(** Pairs of pieces for quotients, and the values computed from them. *)
From Coq Require Import Reals Lra Lia List Bool Sorted Permutation.
From Coquelicot Require Import Coquelicot.
From Verif Require Import Base Bisect Seg Piecewise PiecewiseSpec PiecewiseFacts Integral IntegralFacts SegInt SegIntSpec IntParts IntPartsFacts Indep IndepSpec AtomFacts AtomFacts2 AtomFacts3 ConvolFacts PairFacts ExtrFacts.
Import List ListNotations.
Open Scope R_scope.

(** multiplication of an end by a nonzero number *)
Lemma mul_pos_lt (z : R) a b : 0 < z -> Rbar_lt (Rbar_mult z a) (Rbar_mult z b) <-> Rbar_lt a b.
Proof.
  intros Z. destruct a as [a| |], b as [b| |]; unfold Rbar_mult, Rbar_mult'; simpl;
  try (destruct (Rle_dec 0 z); [|lra]); try (destruct (Rle_lt_or_eq_dec 0 z r); [|lra]); simpl; try tauto.
  split; intros; nra.
Qed.
Lemma mul_neg_lt (z : R) a b : z < 0 -> Rbar_lt (Rbar_mult z a) (Rbar_mult z b) <-> Rbar_lt b a.
Proof.
  intros Z. destruct a as [a| |], b as [b| |]; unfold Rbar_mult, Rbar_mult'; simpl;
  try (destruct (Rle_dec 0 z); [exfalso; lra|]); simpl; try tauto.
  split; intros; nra.
Qed.
Lemma mul_fin (z t : R) : Rbar_mult z t = Finite (z * t).
Proof. reflexivity. Qed.
Lemma mul_p_inf (z : R) : 0 < z -> Rbar_mult z p_infty = p_infty /\ Rbar_mult z m_infty = m_infty.
Proof.
  intros Z. unfold Rbar_mult, Rbar_mult'; simpl. destruct (Rle_dec 0 z); [|exfalso; lra]. destruct (Rle_lt_or_eq_dec 0 z r); [auto|exfalso; lra].
Qed.
Lemma mul_n_inf (z : R) : z < 0 -> Rbar_mult z p_infty = m_infty /\ Rbar_mult z m_infty = p_infty.
Proof.
  intros Z. unfold Rbar_mult, Rbar_mult'; simpl. destruct (Rle_dec 0 z); [exfalso; lra|auto].
Qed.
Lemma mul_inv (z : R) a : z <> 0 -> Rbar_mult z (Rbar_mult a (/ z)) = a.
Proof.
  intros Z. destruct a as [a| |].
  - simpl. f_equal. field. auto.
  - rewrite (Rbar_mult_comm p_infty). destruct (Rlt_dec 0 z).
    + assert (H : 0 < / z) by (apply Rinv_0_lt_compat; auto). rewrite (proj1 (mul_p_inf _ H)). apply mul_p_inf; auto.
    + assert (H : / z < 0) by (apply Rinv_lt_0_compat; lra). rewrite (proj1 (mul_n_inf _ H)). apply mul_n_inf; lra.
  - rewrite (Rbar_mult_comm m_infty). destruct (Rlt_dec 0 z).
    + assert (H : 0 < / z) by (apply Rinv_0_lt_compat; auto). rewrite (proj2 (mul_p_inf _ H)). apply mul_p_inf; auto.
    + assert (H : / z < 0) by (apply Rinv_lt_0_compat; lra). rewrite (proj2 (mul_n_inf _ H)). apply mul_n_inf; lra.
Qed.

(** a window between two ends taken in either order *)
Lemma minmax_in (z : R) (a b : Rbar) (t : R) : z <> 0 -> Rbar_lt a b ->
  let L := Rbar_mult a (/ z) in let U := Rbar_mult b (/ z) in
  (Rbar_lt (bmin L U) t /\ Rbar_lt t (bmax L U)) <-> Rbar_lt a (z * t) /\ Rbar_lt (z * t) b.
Proof.
  intros Z AB L U. rewrite <- (mul_fin z t). 
  replace a with (Rbar_mult z L) at 1 by (apply mul_inv; auto). replace b with (Rbar_mult z U) at 1 by (apply mul_inv; auto).
  assert (K : Rbar_lt (Rbar_mult z L) (Rbar_mult z U)) by (unfold L, U; rewrite !mul_inv; auto).
  unfold bmin, bmax. destruct (Rlt_dec 0 z) as [P|P].
  - rewrite (mul_pos_lt z L U) in K by auto. rewrite !mul_pos_lt by auto.
    replace (blt U L) with false by (symmetry; apply blt_false; apply Rbar_lt_le; auto). replace (blt L U) with true by (symmetry; apply blt_true; auto). tauto.
  - assert (N : z < 0) by lra. rewrite (mul_neg_lt z L U) in K by auto. rewrite !mul_neg_lt by auto.
    replace (blt U L) with true by (symmetry; apply blt_true; auto). replace (blt L U) with false by (symmetry; apply blt_false; apply Rbar_lt_le; auto). tauto.
Qed.

(** ** Selection *)
Definition divrel (z : R) (si sj : segment) : bool :=
  let yl := Rbar_mult z (sa sj) in let yr := Rbar_mult z (sb sj) in
  ((blt (sa si) yl && blt yr (sb si)) || (blt yl (sb si) && blt (sa si) yr))%bool.

Lemma divrel_true z si sj : divrel z si sj = true <->
  (Rbar_lt (sa si) (Rbar_mult z (sa sj)) /\ Rbar_lt (Rbar_mult z (sb sj)) (sb si)) \/
  (Rbar_lt (Rbar_mult z (sa sj)) (sb si) /\ Rbar_lt (sa si) (Rbar_mult z (sb sj))).
Proof. unfold divrel. rewrite orb_true_iff, !andb_true_iff, !blt_true. tauto. Qed.

(** real point strictly between *)
Lemma between (a b : Rbar) : Rbar_lt a b -> exists t : R, Rbar_lt a t /\ Rbar_lt t b.
Proof.
  destruct a as [a| |], b as [b| |]; simpl; try tauto; intros H.
  - exists ((a + b) / 2). lra.
  - exists (a + 1). lra.
  - exists (b - 1). lra.
  - exists 0. auto.
Qed.
Lemma common (a b c d : Rbar) : Rbar_lt a b -> Rbar_lt c d -> Rbar_lt a d -> Rbar_lt c b ->
  exists t : R, Rbar_lt a t /\ Rbar_lt t b /\ Rbar_lt c t /\ Rbar_lt t d.
Proof.
  intros A B C D. destruct (between (bmax a c) (bmin b d)) as (t & T1 & T2).
  - apply bmax_lt. split; apply bmin_lt; auto.
  - apply bmax_lt in T1. apply bmin_lt in T2. exists t. tauto.
Qed.

Lemma divrel_takes z si sj : z <> 0 -> wf_seg si -> wf_seg sj -> (isDirac si = false \/ isDirac sj = false) ->
  divrel z si sj = true <-> exists x y : R, takes si x /\ takes sj y /\ x = z * y.
Proof.
  intros Z Wi Wj ND. rewrite divrel_true.
  assert (LI : isDirac si = false -> Rbar_lt (sa si) (sb si)) by (destruct si; auto; discriminate).
  assert (LJ : isDirac sj = false -> Rbar_lt (sa sj) (sb sj)) by (destruct sj; auto; discriminate).
  unfold takes. destruct (isDirac si) eqn:Di; destruct (isDirac sj) eqn:Dj; [destruct ND; discriminate| | |].
  - destruct si as [| | | |a m|]; try discriminate. cbn [sa sb]. specialize (LJ eq_refl).
    replace a with (z * (a / z)) at 1 2 3 4 by (field; auto). rewrite <- !(mul_fin z (a / z)).
    split.
    + intros H. exists a, (a / z). split; auto. split; [|field; auto].
      destruct (Rlt_dec 0 z); [rewrite !mul_pos_lt in H by auto|rewrite !mul_neg_lt in H by lra]; destruct H as [(H1 & H2)|(H1 & H2)]; auto;
      exfalso; apply (Rbar_lt_not_le _ _ LJ); apply Rbar_lt_le; eapply Rbar_lt_trans; eauto.
    + intros (x & y & X & (Y1 & Y2) & E). injection X as <-. assert (y = a / z) by (subst; field; auto). subst y.
      destruct (Rlt_dec 0 z); [rewrite !mul_pos_lt by auto|rewrite !mul_neg_lt by lra]; auto.
  - destruct sj as [| | | |b k|]; try discriminate. cbn [sa sb]. specialize (LI eq_refl). rewrite mul_fin. split.
    + intros H. exists (z * b), b. split; auto. tauto.
    + intros (x & y & (X1 & X2) & Y & E). injection Y as <-. subst x. auto.
  - specialize (LI eq_refl). specialize (LJ eq_refl). destruct (Rlt_dec 0 z) as [P|P].
    + assert (K : Rbar_lt (Rbar_mult z (sa sj)) (Rbar_mult z (sb sj))) by (apply mul_pos_lt; auto). split.
      * intros H. destruct (common (sa si) (sb si) (Rbar_mult z (sa sj)) (Rbar_mult z (sb sj))) as (t & T1 & T2 & T3 & T4); auto.
        { destruct H as [(H1 & H2)|(H1 & H2)]; auto. eapply Rbar_lt_trans; eauto. }
        { destruct H as [(H1 & H2)|(H1 & H2)]; auto. eapply Rbar_lt_trans; eauto. }
        exists t, (t / z). replace t with (z * (t / z)) in T3, T4 at 1 by (field; auto). rewrite <- (mul_fin z (t / z)) in T3, T4.
        rewrite mul_pos_lt in T3, T4 by auto. splits; auto. field; auto.
      * intros (x & y & (X1 & X2) & (Y1 & Y2) & ->). right. split.
        -- eapply Rbar_lt_trans; [|exact X2]. rewrite <- mul_fin. apply mul_pos_lt; auto.
        -- eapply Rbar_lt_trans; [exact X1|]. rewrite <- mul_fin. apply mul_pos_lt; auto.
    + assert (N : z < 0) by lra. assert (K : Rbar_lt (Rbar_mult z (sb sj)) (Rbar_mult z (sa sj))) by (apply mul_neg_lt; auto). split.
      * intros H. destruct (common (sa si) (sb si) (Rbar_mult z (sb sj)) (Rbar_mult z (sa sj))) as (t & T1 & T2 & T3 & T4); auto.
        { destruct H as [(H1 & H2)|(H1 & H2)]; auto. eapply Rbar_lt_trans; eauto. }
        { destruct H as [(H1 & H2)|(H1 & H2)]; auto. eapply Rbar_lt_trans; eauto. }
        exists t, (t / z). replace t with (z * (t / z)) in T3, T4 at 1 by (field; auto). rewrite <- (mul_fin z (t / z)) in T3, T4.
        rewrite mul_neg_lt in T3, T4 by auto. splits; auto. field; auto.
      * intros (x & y & (X1 & X2) & (Y1 & Y2) & ->). left. split.
        -- eapply Rbar_lt_trans; [exact X1|]. rewrite <- mul_fin. apply mul_neg_lt; auto.
        -- eapply Rbar_lt_trans; [|exact X2]. rewrite <- mul_fin. apply mul_neg_lt; auto.
Qed.
Lemma divrel_both z a m b k : divrel z (DiracSeg a m) (DiracSeg b k) = false.
Proof.
  destruct (divrel z (DiracSeg a m) (DiracSeg b k)) eqn:E; auto. apply divrel_true in E. simpl in E. lra.
Qed.
