(** Inequalities between expectations and probabilities. *)
From Coq Require Import Reals Lra Lia List Bool Permutation FunctionalExtensionality.
From Coquelicot Require Import Coquelicot.
From Verif Require Import Base Seg Piecewise PiecewiseSpec Integral IntegralFacts SegIntSpec SegIntFacts AtomFacts Indep Transform TransformSpec TransformFacts MomSpec Mom MomFacts3.
Import List ListNotations.
Open Scope R_scope.

(** x may be taken by the variable: it is inside a continuous piece or an atom *)
Definition carried (l : list segment) (x : R) : Prop :=
  exists s, In s l /\ match s with DiracSeg a _ => x = a | _ => betw (sa s) (sb s) x end.

Lemma contrib_le g h s : wf_seg s -> nonneg_piece s ->
  (isDirac s = false -> integrable (fun x => g x * sf s x) (sa s) (sb s)) -> (isDirac s = false -> integrable (fun x => h x * sf s x) (sa s) (sb s)) ->
  (forall x, carried [s] x -> g x <= h x) -> contrib g s <= contrib h s.
Proof.
  intros W NN G H LE. destruct (isDirac s) eqn:D.
  - destruct s; try discriminate. simpl in *. apply Rmult_le_compat_r; auto. apply LE. eexists. split; [left; reflexivity|reflexivity].
  - specialize (G eq_refl). specialize (H eq_refl). rewrite !contrib_Q by auto.
    assert (K : 0 <= Q (fun x => h x * sf s x + (-1) * (g x * sf s x)) (sa s) (sb s)).
    { apply Q_nonneg; [apply integrable_plus; auto; apply integrable_scal; auto|]. intros x (X1 & X2).
      assert (0 <= sf s x) by (destruct s; try discriminate; apply NN; auto).
      assert (g x <= h x) by (apply LE; exists s; split; [left; auto|destruct s; try discriminate; split; auto]).
      assert (0 <= (h x - g x) * sf s x) by (apply Rmult_le_pos; lra). lra. }
    rewrite Q_plus in K by (auto; apply integrable_scal; auto). rewrite Q_scal in K by auto. lra.
Qed.

Lemma expect_le g h l : Forall wf_seg l -> Forall nonneg_piece l -> has_expect g l -> has_expect h l ->
  (forall x, carried l x -> g x <= h x) -> expect g l <= expect h l.
Proof.
  intros W NN G H LE. rewrite !expect_contrib. induction l as [|s l IH]; [simpl; lra|]. inversion W; inversion NN; subst. cbn [map]. rewrite !AtomFacts.sumR_cons.
  apply Rplus_le_compat.
  - apply contrib_le; auto; [apply G; simpl; auto|apply H; simpl; auto|]. intros x (t & [<-|[]] & T). apply LE. exists s. split; [left; auto|auto].
  - apply IH; auto; [intros t T; apply G; right; exact T|intros t T; apply H; right; exact T|]. intros x (t & T1 & T2). apply LE. exists t. split; [right; auto|auto].
Qed.

Lemma const_has c l : Forall has_int l -> has_expect (fun _ => c) l.
Proof. intros HI s S D. rewrite Forall_forall in HI. apply integrable_scal. apply HI; auto. Qed.

Lemma prob_all s : isDirac s = false -> wf_seg s -> prob s m_infty p_infty = Q (sf s) (sa s) (sb s).
Proof.
  intros D W. pose proof (wf_lt s D W) as L. rewrite prob_Q by (auto; exact I).
  rewrite clamp_low by first [apply Rbar_lt_le; assumption | destruct (sa s); exact I]. rewrite clamp_high by first [apply Rbar_lt_le; assumption | destruct (sb s); exact I]. reflexivity.
Qed.
Lemma contrib_const c s : wf_seg s -> has_int s -> contrib (fun _ => c) s = c * prob s m_infty p_infty.
Proof.
  intros W HI. destruct (isDirac s) eqn:D.
  - destruct s; try discriminate. simpl. destruct (Rbar_lt_dec m_infty a) as [_|X]; [|destruct X; exact I]. destruct (Rbar_lt_dec a p_infty) as [_|X]; [ring|destruct X; exact I].
  - rewrite prob_all by auto. rewrite contrib_Q by auto. apply Q_scal. apply HI; auto.
Qed.
Lemma expect_const c l : Forall wf_seg l -> Forall has_int l -> expect (fun _ => c) l = c * pprob l m_infty p_infty.
Proof.
  intros W HI. rewrite expect_contrib. unfold pprob. induction l as [|s l IH]; [simpl; ring|]. inversion W; inversion HI; subst. cbn [map]. rewrite !AtomFacts.sumR_cons.
  rewrite IH by auto. rewrite contrib_const by auto. ring.
Qed.

(** Markov's inequality for the two tails *)
Lemma markov_piece g c (u v : R) s : wf_seg s -> nonneg_piece s -> has_int s -> u <= v -> 0 <= c -> (isDirac s = false -> integrable (fun x => g x * sf s x) (sa s) (sb s)) ->
  (forall x, carried [s] x -> 0 <= g x) -> (forall x, carried [s] x -> x < u \/ v < x -> c <= g x) ->
  c * (prob s m_infty u + prob s v p_infty) <= contrib g s.
Proof.
  intros W NN HI UV C GI G0 GC. destruct (isDirac s) eqn:D.
  - destruct s as [| | | |a m|]; try discriminate. simpl in NN. cbn [contrib prob].
    assert (X : carried [DiracSeg a m] a) by (eexists; split; [left; reflexivity|reflexivity]). specialize (G0 a X). specialize (GC a X).
    assert (0 <= g a * m) by (apply Rmult_le_pos; auto).
    destruct (Rbar_lt_dec m_infty a) as [_|Y]; [|destruct Y; exact I]. destruct (Rbar_lt_dec a p_infty) as [_|Y]; [|destruct Y; exact I].
    destruct (Rbar_lt_dec a u) as [A|A]; destruct (Rbar_lt_dec v a) as [B|B]; simpl in A, B.
    + lra.
    + specialize (GC (or_introl A)). assert (c * m <= g a * m) by (apply Rmult_le_compat_r; auto). lra.
    + specialize (GC (or_intror B)). assert (c * m <= g a * m) by (apply Rmult_le_compat_r; auto). lra.
    + lra.
  - specialize (GI eq_refl). pose proof (HI D) as HI'. pose proof (wf_lt s D W) as L. pose proof (Rbar_lt_le _ _ L) as L'.
    rewrite contrib_Q by auto. rewrite !prob_Q by (auto; exact I).
    rewrite clamp_low by first [assumption | destruct (sa s); exact I]. rewrite (clamp_high s p_infty) by first [assumption | destruct (sb s); exact I].
    pose proof (clamp_in s u L') as (U1 & U2). pose proof (clamp_in s v L') as (V1 & V2).
    rewrite <- (Q_chasles _ (sa s) (sb s) (sa s) (clamp s u) (sb s) GI) by (auto; apply Rbar_le_refl).
    rewrite <- (Q_chasles _ (sa s) (sb s) (clamp s u) (clamp s v) (sb s) GI) by (auto; apply Rbar_le_refl).
    assert (NN' : forall x, betw (sa s) (sb s) x -> 0 <= sf s x) by (intros x (X1 & X2); destruct s; try discriminate; apply NN; auto).
    assert (CA : forall x, betw (sa s) (sb s) x -> carried [s] x) by (intros x X; exists s; split; [left; auto|destruct s; try discriminate; auto]).
    assert (P : forall x y, Rbar_le (sa s) x -> Rbar_le x y -> Rbar_le y (sb s) -> (forall z : R, RbarIn x y z -> c <= g z) -> c * Q (sf s) x y <= Q (fun z => g z * sf s z) x y).
    { intros x y X XY Y Z. destruct (Rbar_le_lt_or_eq_dec _ _ XY) as [XY'| ->]; [|rewrite !Q_refl; lra].
      pose proof (integrable_sub _ _ _ x y HI' X XY' Y) as I1. pose proof (integrable_sub _ _ _ x y GI X XY' Y) as I2.
      assert (K : 0 <= Q (fun z => g z * sf s z + (- c) * sf s z) x y).
      { apply Q_nonneg; [apply integrable_plus; auto; apply integrable_scal; auto|]. intros z (Z1 & Z2). specialize (Z z (conj Z1 Z2)).
        assert (0 <= sf s z) by (apply NN'; split; [eapply Rbar_le_lt_trans; eauto|eapply Rbar_lt_le_trans; eauto]).
        assert (0 <= (g z - c) * sf s z) by (apply Rmult_le_pos; lra). lra. }
      rewrite Q_plus in K by (auto; apply integrable_scal; auto). rewrite Q_scal in K by auto. lra. }
    assert (E0 : Rbar_le (clamp s u) (clamp s v)).
    { apply clamp_mono; auto. }
    pose proof (P (sa s) (clamp s u) (Rbar_le_refl _) U1 U2) as PU. pose proof (P (clamp s v) (sb s) V1 V2 (Rbar_le_refl _)) as PV.
    assert (PM : 0 <= Q (fun z => g z * sf s z) (clamp s u) (clamp s v)).
    { destruct (Rbar_le_lt_or_eq_dec _ _ E0) as [E1| ->]; [|rewrite Q_refl; lra]. apply Q_nonneg; [apply (integrable_sub _ (sa s) (sb s)); auto|].
      intros z (Z1 & Z2). assert (B : betw (sa s) (sb s) z) by (split; [eapply Rbar_le_lt_trans; [exact U1|exact Z1]|eapply Rbar_lt_le_trans; [exact Z2|exact V2]]). apply Rmult_le_pos; auto. }
    assert (XU : c * Q (sf s) (sa s) (clamp s u) <= Q (fun z => g z * sf s z) (sa s) (clamp s u)).
    { apply PU. intros z (Z1 & Z2). apply GC; [apply CA; split; auto; eapply Rbar_lt_le_trans; eauto|]. left.
      destruct (Rlt_le_dec z u) as [|N]; auto. exfalso. destruct (Rbar_le_lt_dec (sa s) u) as [A|A].
      - assert (Rbar_le (clamp s u) u) by (unfold clamp; destruct (bltP u (sa s)); [exact A|destruct (bltP (sb s) u); [apply Rbar_lt_le; auto|apply Rbar_le_refl]]).
        apply (Rbar_lt_irrefl u). eapply Rbar_le_lt_trans; [|eapply Rbar_lt_le_trans; [exact Z2|exact H]]. exact N.
      - rewrite clamp_low in Z2 by (auto; apply Rbar_lt_le; auto). apply (Rbar_lt_irrefl z). eapply Rbar_lt_trans; eauto. }
    assert (XV : c * Q (sf s) (clamp s v) (sb s) <= Q (fun z => g z * sf s z) (clamp s v) (sb s)).
    { apply PV. intros z (Z1 & Z2). apply GC; [apply CA; split; auto; eapply Rbar_le_lt_trans; eauto|]. right.
      destruct (Rlt_le_dec v z) as [|N]; auto. exfalso. destruct (Rbar_le_lt_dec v (sb s)) as [A|A].
      - assert (Rbar_le v (clamp s v)) by (unfold clamp; destruct (bltP v (sa s)); [apply Rbar_lt_le; auto|destruct (bltP (sb s) v); [exact A|apply Rbar_le_refl]]).
        apply (Rbar_lt_irrefl v). eapply Rbar_le_lt_trans; [exact H|]. eapply Rbar_lt_le_trans; [exact Z1|]. exact N.
      - rewrite clamp_high in Z1 by (auto; apply Rbar_lt_le; auto). apply (Rbar_lt_irrefl z). eapply Rbar_lt_trans; eauto. }
    lra.
Qed.

Lemma markov g c (u v : R) l : Forall wf_seg l -> Forall nonneg_piece l -> Forall has_int l -> u <= v -> 0 <= c -> has_expect g l ->
  (forall x, carried l x -> 0 <= g x) -> (forall x, carried l x -> x < u \/ v < x -> c <= g x) ->
  c * (pprob l m_infty u + pprob l v p_infty) <= expect g l.
Proof.
  intros W NN HI UV C GI G0 GC. rewrite expect_contrib. unfold pprob. induction l as [|s l IH]; [simpl; lra|]. inversion W; inversion NN; inversion HI; subst. cbn [map]. rewrite !AtomFacts.sumR_cons.
  assert (c * (prob s m_infty u + prob s v p_infty) <= contrib g s).
  { apply markov_piece; auto; [apply GI; simpl; auto| |].
    - intros x (t & [<-|[]] & T). apply G0. exists s. split; [left; auto|auto].
    - intros x (t & [<-|[]] & T). apply GC. exists s. split; [left; auto|auto]. }
  assert (c * (sumR (map (fun s => prob s m_infty u) l) + sumR (map (fun s => prob s v p_infty) l)) <= sumR (map (contrib g) l)); [|lra].
  apply IH; auto.
  - intros t T. apply GI. right. exact T.
  - intros x (t & T1 & T2). apply G0. exists t. split; [right; auto|auto].
  - intros x (t & T1 & T2). apply GC. exists t. split; [right; auto|auto].
Qed.
