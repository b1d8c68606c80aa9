(** Facts about integrals with finitely many interior singularities. *)
From Coq Require Import Reals Lra List Bool.
From Coquelicot Require Import Coquelicot.
From Verif Require Import Base Integral IntegralFacts SegIntFacts IntParts.
Import List ListNotations.
Open Scope R_scope.

Lemma has_int_lt h a b I : has_int h a b I -> Rbar_lt a b.
Proof.
  induction 1 as [a b I (H & _)|a b c I J _ H1 _ H2]; auto. apply (Rbar_lt_trans _ b); auto.
Qed.

Lemma integrable_is h a b : integrable h a b -> is_RInt_gen h (at_r a) (at_l b) (Q h a b).
Proof.
  intros (H & _ & E). rewrite Q_RInt_gen; auto. apply (RInt_gen_correct (V := R_CompleteNormedModule)); auto.
Qed.

Lemma has_int_Q h a b : integrable h a b -> has_int h a b (Q h a b).
Proof. intros H. apply has_int_one; auto. apply integrable_is; auto. Qed.

Lemma has_int_split h a b I : has_int h a b I -> forall c : Rbar, Rbar_lt a c -> Rbar_lt c b ->
  exists I1 I2, has_int h a c I1 /\ has_int h c b I2 /\ I = I1 + I2.
Proof.
  induction 1 as [a b I H1 H2|a b d I J H1 IH1 H2 IH2]; intros c L1 L2.
  - assert (A : integrable h a c) by (apply (integrable_sub h a b); auto using Rbar_le_refl, Rbar_lt_le).
    assert (B : integrable h c b) by (apply (integrable_sub h a b); auto using Rbar_le_refl, Rbar_lt_le).
    exists (Q h a c), (Q h c b). splits; auto using has_int_Q.
    rewrite (Q_chasles h a b); auto using Rbar_le_refl, Rbar_lt_le.
    + symmetry. apply Q_is; auto. apply H1.
    + apply Rbar_lt_le. apply H1.
    + apply Rbar_lt_le. apply H1.
  - destruct (Rbar_total_order c b) as [[L| -> ]|L].
    + destruct (IH1 c L1 L) as (I1 & I2 & A & B & ->). exists I1, (I2 + J). splits; auto; [|ring].
      apply has_int_cat with b; auto.
    + exists I, J. auto.
    + destruct (IH2 c L L2) as (I1 & I2 & A & B & ->). exists (I + I1), I2. splits; auto; [|ring].
      apply has_int_cat with b; auto.
Qed.

Lemma has_int_one_unique h a b J : has_int h a b J -> integrable h a b -> J = Q h a b.
Proof.
  induction 1 as [a b I H1 H2|a b d I J H1 IH1 H2 IH2]; intros H.
  - symmetry. apply Q_is; auto. apply H1.
  - pose proof (has_int_lt _ _ _ _ H1). pose proof (has_int_lt _ _ _ _ H2).
    rewrite IH1, IH2.
    + apply (Q_chasles h a d); auto using Rbar_le_refl, Rbar_lt_le. apply Rbar_lt_le, H. apply Rbar_lt_le, H.
    + apply (integrable_sub h a d); auto using Rbar_le_refl, Rbar_lt_le.
    + apply (integrable_sub h a d); auto using Rbar_le_refl, Rbar_lt_le.
Qed.

Lemma has_int_unique h a b I : has_int h a b I -> forall J, has_int h a b J -> I = J.
Proof.
  induction 1 as [a b I H1 H2|a b d I J H1 IH1 H2 IH2]; intros K HK.
  - rewrite (has_int_one_unique h a b K); auto. symmetry. apply Q_is; auto. apply H1.
  - destruct (has_int_split h a d K HK b) as (K1 & K2 & A & B & ->).
    + eapply has_int_lt; eauto.
    + eapply has_int_lt; eauto.
    + rewrite (IH1 _ A), (IH2 _ B). auto.
Qed.

Lemma has_int_ext h k a b I : has_int h a b I -> (forall t : R, h t = k t) -> has_int k a b I.
Proof.
  intros H E. induction H as [a b I H1 H2|a b d I J H1 IH1 H2 IH2].
  - apply has_int_one.
    + apply (integrable_ext h); auto.
    + apply (is_RInt_gen_ext_in h); auto. apply H1.
  - apply has_int_cat with b; auto.
Qed.

Lemma has_int_plus h k a b I : has_int h a b I -> forall J, has_int k a b J -> has_int (fun t => h t + k t) a b (I + J).
Proof.
  induction 1 as [a b I H1 H2|a b d I J H1 IH1 H2 IH2]; intros K HK.
  - revert I H1 H2. induction HK as [a b J K1 K2|a b d J1 J2 K1 IK1 K2 IK2]; intros I H1 H2.
    + apply has_int_one; [apply integrable_plus; auto|].
      apply (is_RInt_gen_plus (V := R_NormedModule) h k); auto.
    + pose proof (has_int_lt _ _ _ _ K1). pose proof (has_int_lt _ _ _ _ K2).
      assert (E : I = Q h a b + Q h b d).
      { rewrite (Q_chasles h a d); auto using Rbar_le_refl, Rbar_lt_le. symmetry. apply Q_is; auto. apply H1.
        apply Rbar_lt_le, H1. apply Rbar_lt_le, H1. }
      rewrite E. replace (Q h a b + Q h b d + (J1 + J2)) with ((Q h a b + J1) + (Q h b d + J2)) by ring.
      assert (A : integrable h a b) by (apply (integrable_sub h a d); auto using Rbar_le_refl, Rbar_lt_le).
      assert (B : integrable h b d) by (apply (integrable_sub h a d); auto using Rbar_le_refl, Rbar_lt_le).
      apply has_int_cat with b; [apply IK1|apply IK2]; auto using integrable_is.
  - destruct (has_int_split k a d K HK b) as (K1 & K2 & A & B & ->).
    + eapply has_int_lt; eauto.
    + eapply has_int_lt; eauto.
    + replace (I + J + (K1 + K2)) with ((I + K1) + (J + K2)) by ring.
      apply has_int_cat with b; auto.
Qed.

Lemma has_int_zero h a b : Rbar_lt a b -> (forall t : R, RbarIn a b t -> h t = 0) -> has_int h a b 0.
Proof.
  intros L E. pose proof (prim_zero h a b L E) as P.
  rewrite <- (Q_zero h a b L E). apply has_int_Q. eapply prim_integrable; eauto.
Qed.

(** a function that vanishes outside (u,v) *)
Lemma has_int_window h f a b u v : Rbar_le a u -> Rbar_le v b -> integrable f u v ->
  (forall t : R, RbarIn u v t -> h t = f t) ->
  (forall t : R, Rbar_lt t u \/ Rbar_lt v t -> h t = 0) ->
  has_int h a b (Q f u v).
Proof.
  intros AU VB H E Z. assert (L : Rbar_lt u v) by apply H.
  assert (M : has_int h u v (Q f u v)).
  { rewrite (Q_ext f h); auto. apply has_int_Q. apply (integrable_ext f); auto. intros; symmetry; auto.
    intros; symmetry; auto. }
  assert (N : has_int h a v (Q f u v)).
  { destruct (Rbar_le_lt_or_eq_dec _ _ AU) as [L1| ->]; auto.
    rewrite <- (Rplus_0_l (Q f u v)). apply has_int_cat with u; auto.
    apply has_int_zero; auto. intros t (T1 & T2). apply Z; auto. }
  destruct (Rbar_le_lt_or_eq_dec _ _ VB) as [L2| <-]; auto.
  rewrite <- (Rplus_0_r (Q f u v)). apply has_int_cat with v; auto.
  apply has_int_zero; auto. intros t (T1 & T2). apply Z; auto.
Qed.

Lemma has_int_sum {A} (h : A -> R -> R) (I : A -> R) a b l : Rbar_lt a b ->
  (forall x, In x l -> has_int (h x) a b (I x)) ->
  has_int (fun t => sumR (map (fun x => h x t) l)) a b (sumR (map I l)).
Proof.
  intros L. induction l as [|x l IH]; intros H; simpl.
  - apply has_int_zero; auto.
  - apply has_int_plus.
    + apply H; simpl; auto.
    + apply IH. intros; apply H; simpl; auto.
Qed.

Lemma has_int_scal h a b I k : has_int h a b I -> has_int (fun t => k * h t) a b (k * I).
Proof.
  induction 1 as [a b I H1 H2|a b d I J H1 IH1 H2 IH2].
  - apply has_int_one; [apply integrable_scal; auto|].
    apply (is_RInt_gen_scal (V := R_NormedModule) h k); auto.
  - rewrite Rmult_plus_distr_l. apply has_int_cat with b; auto.
Qed.
