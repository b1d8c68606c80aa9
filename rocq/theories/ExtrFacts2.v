(** The whole of convmin and convmax. *)
From Coq Require Import Reals Lra Lia List Bool Sorted Permutation.
From Coquelicot Require Import Coquelicot.
From Verif Require Import Base Bisect Seg Piecewise PiecewiseSpec PiecewiseFacts PiecewiseFacts2 PiecewiseFacts3 PiecewiseFacts4 SplitFacts Integral IntegralFacts SegInt SegIntSpec SegIntFacts CumintFacts TransformSpec TransformFacts TransformFacts2 SubstFacts IntParts IntPartsFacts Indep IndepSpec AtomFacts AtomFacts2 AtomFacts3 ConvolFacts ExtrFacts IndepAsm AsmFacts ConvolFacts2.
Import List ListNotations.
Open Scope R_scope.

(** ** splitting keeps integrability and probabilities *)
Lemma piece_has_int s : integrable_piece s -> TransformSpec.has_int s.
Proof. intros H D. apply integrable_piece_int; auto. Qed.
Lemma split_integrable pts l : StronglySorted Rbar_lt pts -> Forall wf_seg l -> Forall integrable_piece l ->
  Forall integrable_piece (split_all pts l) /\ no_const (split_all pts l).
Proof.
  intros S W HI. split.
  - apply Forall_forall. intros t Ht. pose proof Ht as Ht'. apply split_all_In in Ht. destruct Ht as (s & Hs & Ht).
    rewrite Forall_forall in W, HI. destruct (split_seg_spec pts s S (W s Hs)) as (F & _). rewrite Forall_forall in F.
    destruct (F t Ht) as (Wt & Dt & Ft & At & Bt). specialize (HI s Hs).
    destruct (isDirac t) eqn:D; [destruct t; try discriminate; exact I|].
    pose proof (integrable_piece_int s (eq_sym Dt) HI) as HS.
    assert (IT : integrable (sf t) (sa t) (sb t)).
    { rewrite Ft. apply (integrable_sub (sf s) (sa s) (sb s)); auto. apply wf_lt; auto. }
    destruct t as [| | | | |a b f lf]; auto; try discriminate. destruct lf; auto. cbn [integrable_piece]. split; [exact IT|].
    intros c Ac Cb. destruct (split_from_right s _ _ _ Ht eq_refl) as (a' & b' & E & P & Eb).
    destruct s as [| | | | |a0 b0 f0 l0]; try discriminate. destruct l0; try discriminate. destruct HI as (HI1 & HI2).
    simpl in Ft, At, Bt. change (f = f0) in Ft. subst f0. destruct (Req_dec a0 a) as [<-|N].
    + apply HI2; lra.
    + apply HI1; simpl; lra.
  - apply Forall_forall. intros t Ht. apply split_all_In in Ht. destruct Ht as (s & Hs & Ht).
    destruct (split_from_form _ _ _ _ Ht) as (a' & b' & ->). unfold split_piece.
    destruct (isMInf s && _)%bool; auto. destruct (isPInf s && _)%bool; auto. destruct (hasLeftPole s && _)%bool; auto.
    destruct (hasRightPole s && _)%bool; auto. destruct (isDirac s); auto.
Qed.

Lemma mass_prob s : isDirac s = false -> wf_seg s -> mass s = prob s m_infty p_infty.
Proof.
  intros D W. pose proof (wf_le s W). rewrite prob_Q; simpl; auto. rewrite mass_Q, clamp_low, clamp_high; auto; destruct (sa s), (sb s); simpl; auto.
Qed.
Lemma mass_upto_prob s (x : R) : isDirac s = false -> wf_seg s -> mass_upto s x = prob s m_infty x.
Proof.
  intros D W. pose proof (wf_le s W). rewrite prob_Q; simpl; auto. rewrite mass_upto_cpart, (clamp_low s m_infty); auto; [|destruct (sa s); simpl; auto].
  destruct s; try discriminate; reflexivity.
Qed.
Lemma split_seg_nd pts s : StronglySorted Rbar_lt pts -> wf_seg s -> isDirac s = false -> Forall (fun t => isDirac t = false /\ wf_seg t) (split_seg pts s).
Proof.
  intros S W D. destruct (split_seg_spec pts s S W) as (F & _). eapply Forall_impl; [|exact F]. simpl. intros t (A & B & _). rewrite B. auto.
Qed.
Lemma split_sum (h : segment -> R) (k : segment -> R) pts l : StronglySorted Rbar_lt pts -> Forall wf_seg l ->
  (forall s, In s l -> isDirac s = false -> sumR (map h (split_seg pts s)) = h s) ->
  sumR (map h (split_all pts l)) = sumR (map h l).
Proof.
  intros S W H. unfold split_all. induction l as [|s l IH]; auto. inversion W; subst. cbn [flat_map map]. rewrite map_app, sumR_app, sumR_cons, IH; auto; [|intros; apply H; simpl; auto].
  f_equal. destruct (isDirac s) eqn:D; [|apply H; simpl; auto].
  destruct (split_seg_spec pts s S) as (_ & _ & _ & E & _); auto. rewrite E by auto. simpl. ring.
Qed.
Lemma split_masses pts l x : StronglySorted Rbar_lt pts -> Forall wf_seg l -> Forall integrable_piece l ->
  total_mass (split_all pts l) = total_mass l /\ cdf_spec (split_all pts l) x = cdf_spec l x.
Proof.
  intros S W HI. rewrite Forall_forall in HI. pose proof W as W'. rewrite Forall_forall in W'. split; apply (split_sum _ (fun _ => 0)); auto; intros s Hs D.
  - destruct (split_seg_prob pts s m_infty p_infty S (W' s Hs) (piece_has_int s (HI s Hs))) as (E & _); [simpl; auto|].
    rewrite mass_prob by auto. rewrite <- E. unfold pprob. apply sumR_ext. intros t Ht.
    pose proof (split_seg_nd pts s S (W' s Hs) D) as F. rewrite Forall_forall in F. destruct (F t Ht). apply mass_prob; auto.
  - destruct (split_seg_prob pts s m_infty x S (W' s Hs) (piece_has_int s (HI s Hs))) as (E & _); [simpl; auto|].
    rewrite mass_upto_prob by auto. rewrite <- E. unfold pprob. apply sumR_ext. intros t Ht.
    pose proof (split_seg_nd pts s S (W' s Hs) D) as F. rewrite Forall_forall in F. destruct (F t Ht). apply mass_upto_prob; auto.
Qed.
Lemma split_pm pts l z : StronglySorted Rbar_lt pts -> Forall wf_seg l -> pm (split_all pts l) z = pm l z.
Proof.
  intros S W. unfold pm. apply (split_sum _ (fun _ => 0)); auto. intros s Hs D. rewrite Forall_forall in W.
  pose proof (split_seg_nd pts s S (W s Hs) D) as F. rewrite Forall_forall in F. 
  rewrite sumR_zero; [destruct s; try discriminate; auto|]. intros v Hv. apply in_map_iff in Hv. destruct Hv as (t & <- & Ht).
  destruct (F t Ht) as (Dt & _). destruct t; try discriminate; auto.
Qed.
Lemma split_prob pts l x : StronglySorted Rbar_lt pts -> Forall wf_seg l -> Forall integrable_piece l ->
  prob_above (split_all pts l) x = prob_above l x /\ prob_below (split_all pts l) x = prob_below l x.
Proof.
  intros S W HI. unfold prob_above, prob_below. rewrite split_pm by auto.
  destruct (split_masses pts l x S W HI) as (-> & ->). auto.
Qed.

(** ** density and call *)
Lemma dens_zero l (x : R) : (forall s, In s l -> isDirac s = false -> ~ covers s x) -> dens l x = 0.
Proof.
  intros H. rewrite dens_sum. apply sumR_zero. intros v Hv. apply in_map_iff in Hv. destruct Hv as (s & <- & Hs).
  destruct (isDirac s) eqn:D; [apply dens1_dirac; auto|]. apply dens1_out. intros (A & B). apply (H s Hs D). split; auto. apply Rbar_lt_le; auto.
Qed.
Lemma dens_call_vec l (x : R) : ordered l -> Forall wf_seg l -> ~ is_end l x -> dens l x = call_vec l x.
Proof.
  intros O W N. symmetry. apply open_value_call_vec; auto.
  { intros H. apply getBreaks_In in H. apply N. destruct H as (s & Hs & H). exists s. auto. }
  assert (IN : forall s, In s l -> isDirac s = false -> covers s x -> Rbar_lt (sa s) x /\ Rbar_lt x (sb s)).
  { intros s Hs D (A & B). split; auto. destruct (Rbar_le_lt_or_eq_dec _ _ A) as [K|K]; auto. exfalso. apply N. exists s. auto. }
  unfold open_value. induction l as [|s l IH]; [right; split; auto; intros s []|].
  apply StronglySorted_inv in O. destruct O as (O & F). inversion W as [|? ? Ws Wl]; subst.
  rewrite dens_sum. cbn [map]. rewrite sumR_cons, <- dens_sum.
  destruct (isDirac s) eqn:D.
  - rewrite dens1_dirac, Rplus_0_l by auto. destruct IH as [(t & T1 & T)|(T1 & T2)]; auto.
    + intros (t & Ht & E). apply N. exists t. simpl. auto.
    + intros; apply IN; simpl; auto.
    + left. exists t. simpl. tauto.
    + right. split; auto. intros t [<-|Ht] Dt; auto; congruence.
  - destruct (Rbar_lt_dec (sa s) x) as [A|A]; [destruct (Rbar_lt_dec x (sb s)) as [B|B]|].
    + left. exists s. simpl. splits; auto; [split; auto; apply Rbar_lt_le; auto|]. rewrite dens1_in by auto.
      assert (E : dens l x = 0); [|rewrite E; ring].
      rewrite dens_sum. apply sumR_zero. intros v Hv. apply in_map_iff in Hv. destruct Hv as (t & <- & Ht).
      rewrite Forall_forall in F. destruct (F t Ht) as (F1 & _). apply dens1_out. intros (A' & B').
      apply (Rbar_lt_not_le _ _ B). apply Rbar_lt_le. eapply Rbar_le_lt_trans; eauto.
    + rewrite dens1_out, Rplus_0_l by tauto. destruct IH as [(t & T1 & T)|(T1 & T2)]; auto.
      * intros (t & Ht & E). apply N. exists t. simpl. auto.
      * intros; apply IN; simpl; auto.
      * left. exists t. simpl. tauto.
      * right. split; auto. intros t [<-|Ht] Dt; auto. intros (_ & K). auto.
    + rewrite dens1_out, Rplus_0_l by tauto. destruct IH as [(t & T1 & T)|(T1 & T2)]; auto.
      * intros (t & Ht & E). apply N. exists t. simpl. auto.
      * intros; apply IN; simpl; auto.
      * left. exists t. simpl. tauto.
      * right. split; auto. intros t [<-|Ht] Dt; auto. intros K. apply A. apply (IN s); simpl; auto.
Qed.
Lemma split_ends pts l y : StronglySorted Rbar_lt pts -> Forall wf_seg l -> is_end (split_all pts l) y -> is_end l y \/ In y pts.
Proof.
  intros S W (t & Ht & E). apply split_all_In in Ht. destruct Ht as (s & Hs & Ht). rewrite Forall_forall in W.
  destruct (split_seg_spec pts s S (W s Hs)) as (_ & _ & _ & _ & _ & _ & K & _).
  destruct (proj1 (K y)) as [H|[H|(H & _)]]; auto; [exists t; auto|left; exists s; auto|left; exists s; auto].
Qed.
Lemma split_dens pts l (x : R) : StronglySorted Rbar_lt pts -> ordered l -> Forall wf_seg l -> ~ is_end l x -> ~ In (Finite x) pts ->
  dens (split_all pts l) x = dens l x.
Proof.
  intros S O W N P. destruct (split_all_ordered pts l S O W) as (O' & W' & _).
  rewrite !dens_call_vec; auto; [apply call_vec_split; auto|]. intros H. apply split_ends in H; tauto.
Qed.
