(** The median absolute deviation and the inter-quantile range. *)
From Coq Require Import Reals Lra List Bool Sorted Permutation Lia.
From Coquelicot Require Import Coquelicot.
From Verif Require Import Base Seg Piecewise PiecewiseSpec PiecewiseFacts PiecewiseFacts2 PiecewiseFacts3 PiecewiseFacts4 Integral IntegralFacts SegInt SegIntSpec
  CumintFacts Transform TransformSpec TransformFacts TransformFacts2 TransformFacts3 TransformFacts4 TransformFacts5 OperationFacts IndepSpec AtomFacts CondFacts
  Root Quant QuantSpec QuantFacts QuantFacts2 QuantMain TransformMain Summ SummSpec SummFacts SummFacts2.
Import List ListNotations.
Open Scope R_scope.

(** ** A search that has ended does not change with more rounds *)
Lemma minf_more fn c n : forall k a b, (n <= k)%nat -> minf_loop fn c n a b <> SRunning -> minf_loop fn c k a b = minf_loop fn c n a b.
Proof.
  induction n as [|n IH]; intros k a b L H; simpl in H.
  - destruct k; simpl; destruct (rlt c (fn a)); congruence.
  - destruct k as [|k]; [lia|]. simpl. destruct (rlt c (fn a)); auto. apply IH; auto. lia.
Qed.
Lemma pinf_more fn c n : forall k a b, (n <= k)%nat -> pinf_loop fn c n a b <> SRunning -> pinf_loop fn c k a b = pinf_loop fn c n a b.
Proof.
  induction n as [|n IH]; intros k a b L H; simpl in H.
  - destruct k; simpl; destruct (rlt (fn b) c); congruence.
  - destruct k as [|k]; [lia|]. simpl. destruct (rlt (fn b) c); auto. apply IH; auto. lia.
Qed.
Lemma inv_piece_more solve n k s y v : (n <= k)%nat -> inv_piece solve n s y = Ok v -> inv_piece solve k s y = Ok v.
Proof.
  intros L. destruct s as [a b f|a b c|b f|a f|a m|a b f p]; simpl; auto.
  - destruct (req y 0); auto. unfold findinv_minf. destruct (negb (rle y (f b))); auto. intros H.
    rewrite (minf_more f y n k); auto. intros E. rewrite E in H. discriminate.
  - destruct (req y 1); auto. unfold findinv_pinf. destruct (negb (rle _ 0)); auto. intros H.
    rewrite (pinf_more f y n k); auto. intros E. rewrite E in H. discriminate.
Qed.
Lemma inv_cont_more solve n k l : (n <= k)%nat -> forall vals y x v, inv_cont solve n l vals y x = Ok v -> inv_cont solve k l vals y x = Ok v.
Proof.
  intros L. induction l as [|s l IH]; intros vals y x v; simpl; auto. destruct vals as [|w vals]; auto.
  destruct (_ || _)%bool.
  - destruct (inv_piece solve n s y) as [u|e] eqn:E; simpl; [|discriminate]. rewrite (inv_piece_more solve n k s y u L E). simpl. auto.
  - simpl. auto.
Qed.
Lemma quantile_more vinf solve n k eps l y v : (n <= k)%nat -> quantile vinf solve n eps l y = Ok v -> quantile vinf solve k eps l y = Ok v.
Proof.
  intros L. unfold quantile. destruct (cumint eps l) as [c|e]; simpl; [|discriminate]. unfold inverse_scalar.
  destruct (inv_cont solve n (segs c) (getSegVals vinf (segs c)) y QNone) as [u|e] eqn:E; simpl; [|discriminate].
  rewrite (inv_cont_more solve n k (segs c) L _ _ _ _ E). simpl. auto.
Qed.

(** ** Distribution functions and probabilities *)
Lemma nonneg_in s (x : R) : isDirac s = false -> nonneg_piece s -> Rbar_lt (sa s) x -> Rbar_lt x (sb s) -> 0 <= sf s x.
Proof. intros D N A B. destruct s; simpl in *; try discriminate; apply (N x); auto. Qed.
Lemma prob_nonneg s u v : wf_seg s -> has_int s -> nonneg_piece s -> 0 <= prob s u v.
Proof.
  intros W H N. destruct (isDirac s) eqn:D.
  - destruct s as [| | | |a m|]; try discriminate. simpl in *. destruct (Rbar_lt_dec u a); [destruct (Rbar_lt_dec a v)|]; lra.
  - assert (E : prob s u v = if Rbar_lt_dec (rmaxb u (sa s)) (rminb v (sb s)) then RInt_gen (sf s) (at_r (rmaxb u (sa s))) (at_l (rminb v (sb s))) else 0)
      by (destruct s; try discriminate; reflexivity).
    rewrite E. destruct (Rbar_lt_dec _ _) as [K|K]; [|lra].
    assert (L1 : Rbar_le (sa s) (rmaxb u (sa s))).
    { unfold rmaxb. destruct (Rbar_le_dec u (sa s)) as [J|J]; [apply Rbar_le_refl|]. apply Rbar_not_le in J. apply Rbar_lt_le; auto. }
    assert (L2 : Rbar_le (rminb v (sb s)) (sb s)).
    { unfold rminb. destruct (Rbar_le_dec v (sb s)); auto. apply Rbar_le_refl. }
    set (a := rmaxb u (sa s)) in *. set (b := rminb v (sb s)) in *.
    pose proof (integrable_sub _ _ _ a b (H D) L1 K L2) as HH.
    assert (X : 0 <= Q (sf s) a b).
    { apply Q_nonneg; auto. intros x (X1 & X2). apply nonneg_in; auto; [eapply Rbar_le_lt_trans|eapply Rbar_lt_le_trans]; eauto. }
    unfold Q in X. destruct (beqP a b) as [J|J]; [rewrite J in K; destruct (Rbar_lt_irrefl _ K)|]. destruct (bltP a b); [auto|contradiction].
Qed.
Lemma pprob_nonneg l u v : Forall wf_seg l -> Forall has_int l -> Forall nonneg_piece l -> 0 <= pprob l u v.
Proof.
  unfold pprob. induction l as [|s l IH]; intros W H N; simpl; [lra|]. inversion W; inversion H; inversion N; subst.
  pose proof (prob_nonneg s u v). intuition lra.
Qed.
Lemma pm_nonneg l z : Forall nonneg_piece l -> 0 <= pm l z.
Proof.
  induction l as [|s l IH]; intros N; [unfold pm; simpl; lra|]. inversion N; subst. rewrite pm_cons. specialize (IH H2).
  destruct s; simpl in *; try lra. destruct (Req_EM_T a z); lra.
Qed.
Lemma density_has_int l : density l -> Forall has_int l.
Proof. intros (_ & _ & H & _). eapply Forall_impl; [|exact H]. apply integrable_has_int. Qed.

Section Cdf.
Variable l : list segment.
Hypothesis DL : density l.
Hypothesis NN : Forall nonneg_piece l.
Let W : Forall wf_seg l. Proof. apply DL. Qed.
Let HI := density_has_int l DL.

Lemma below_cdf (x : R) : pprob l m_infty x <= cdf_spec l x.
Proof. rewrite cdf_pprob by exact W. pose proof (pm_nonneg l x NN). lra. Qed.
Lemma cdf_below (x y : R) : x < y -> cdf_spec l x <= pprob l m_infty y.
Proof.
  intros L. rewrite (pprob_cut l m_infty x y W HI) by (simpl; auto). rewrite cdf_pprob by exact W.
  pose proof (pprob_nonneg l x y W HI NN). lra.
Qed.

(** a median lies between the ends of the density *)
Lemma cdf_left A B (x : R) : in_hull l A B -> Rbar_lt x A -> cdf_spec l x = 0.
Proof.
  intros H L. rewrite cF_spec by exact W. apply cF_right; [exact W|]. intros s Hs. unfold in_hull in H. rewrite Forall_forall in H.
  eapply Rbar_lt_le_trans; [exact L|]. apply H; auto.
Qed.
Lemma cdf_right A B (x : R) : in_hull l A B -> Rbar_lt B x -> cdf_spec l x = total_mass l.
Proof.
  intros H L. unfold cdf_spec, total_mass. f_equal. apply map_ext_in. intros s Hs. unfold in_hull in H. rewrite Forall_forall in H.
  assert (K : Rbar_lt (sb s) x) by (eapply Rbar_le_lt_trans; [apply H; auto|exact L]).
  pose proof (proj1 (Forall_forall _ _) W s Hs) as Ws. pose proof (wf_le s Ws) as Ls.
  unfold mass_upto. destruct s as [| | | |a m|].
  5:{ simpl in K. destruct (Rle_dec a x); [auto|lra]. }
  all: destruct (Rbar_le_dec x _) as [J|J]; [exfalso; apply (Rbar_lt_not_le _ _ K); eapply Rbar_le_trans; eauto|];
       destruct (Rbar_le_dec _ x) as [J'|J']; [auto|exfalso; apply J'; apply Rbar_lt_le; exact K].
Qed.
Lemma median_in_hull A B (m : R) : total_mass l = 1 -> in_hull l A B -> is_quantile (cdf_spec l) (1 / 2) m -> Rbar_le A m /\ Rbar_le m B.
Proof.
  intros T H (Q1 & Q2). split; apply Rbar_not_lt; intros L.
  - rewrite (cdf_left A B m H L) in Q2. lra.
  - destruct (avoid [] B m L) as (x & X1 & X2 & _). simpl in X2. specialize (Q1 x X2). rewrite (cdf_right A B x H X1) in Q1. lra.
Qed.
End Cdf.

(** ** Shifting *)
Definition sh (m : R) (x : Rbar) : Rbar := affine (- m) 1 x.
Lemma sh_le m x y : Rbar_le x y -> Rbar_le (sh m x) (sh m y).
Proof. unfold sh, affine. destruct (Rlt_dec 0 1) as [_|H]; [|lra]. destruct x; destruct y; simpl; auto; lra. Qed.
Lemma sh_inj m x y : sh m x = sh m y -> x = y.
Proof. unfold sh, affine. destruct (Rlt_dec 0 1) as [_|H]; [|lra]. destruct x; destruct y; simpl; intros E; try discriminate; auto. injection E as E. f_equal. lra. Qed.
Lemma sh_lt m x y : Rbar_lt x y -> Rbar_lt (sh m x) (sh m y).
Proof. unfold sh, affine. destruct (Rlt_dec 0 1) as [_|H]; [|lra]. destruct x; destruct y; simpl; auto; lra. Qed.

Lemma shift_piece m s : wf_seg s -> has_int s -> cont_inside s -> nonneg_piece s -> exists t, seg_sas (- m) 1 s = Ok t /\
  sa t = sh m (sa s) /\ sb t = sh m (sb s) /\ isDirac t = isDirac s /\ wf_seg t /\ has_int t /\ nonneg_piece t /\ cont_inside t /\
  (forall a k, t = DiracSeg a k -> s = DiracSeg (a + m) k).
Proof.
  intros Ws Hs Cs Ns. destruct (shift_scale_piece_main (- m) 1 s) as (t & E & (I1 & I2 & I3 & I4 & I5 & _) & _); auto; try lra.
  destruct (rltP 0 1) as [_|H01]; [|lra]. unfold lo_end, hi_end in I4, I5. exists t. split; [exact E|]. split; [exact I4|]. split; [exact I5|].
  split; [exact I1|]. split; [exact I2|]. split; [exact I3|].
  assert (F : isDirac s = false -> forall x, sf t x = sf s (x + m)).
  { intros D x. destruct (rltP 0 1) as [_|H01]; [|lra]. clear - E D. unfold seg_sas in E.
    destruct (reqP 1 0) as [J|J]; [lra|]. destruct (rltP 0 1) as [_|H01]; [|lra].
    destruct s; try discriminate; injection E as <-; simpl; unfold shift_and_scale; replace (1 / 1) with 1 by field; rewrite ?Rabs_R1, Rmult_1_l;
    replace ((x - - m) * 1) with (x + m) by ring; reflexivity. }
  assert (X : forall x : R, Rbar_lt (sa t) x -> Rbar_lt x (sb t) -> Rbar_lt (sa s) (x + m) /\ Rbar_lt (x + m) (sb s)).
  { intros x X1 X2. rewrite I4 in X1. rewrite I5 in X2. clear - X1 X2. unfold affine in *. destruct (Rlt_dec 0 1) as [_|H]; [|lra].
    destruct (sa s); destruct (sb s); simpl in *; try tauto; split; auto; lra. }
  split; [|split].
  - destruct (isDirac s) eqn:D.
    + destruct s; try discriminate. simpl in E. injection E as <-. exact Ns.
    + assert (K : forall x : R, Rbar_lt (sa t) x -> Rbar_lt x (sb t) -> 0 <= sf t x).
      { intros x X1 X2. rewrite F by auto. destruct (X x X1 X2). apply nonneg_in; auto. }
      clear - K I1. destruct t; simpl in *; try discriminate; auto.
  - intros x D (X1 & X2). rewrite I1 in D. destruct (X x X1 X2) as (Y1 & Y2).
    apply (continuous_ext (fun x => sf s (x + m))); [intros; symmetry; apply F; auto|].
    apply (continuous_comp (fun x => x + m) (sf s)); [|apply Cs; auto; split; auto].
    apply (continuous_plus (fun x : R => x) (fun _ => m)); [apply continuous_id|apply continuous_const].
  - intros a k ->. destruct s; try discriminate I1. simpl in E. injection E as E1 E2. subst. f_equal. ring.
Qed.

Lemma shift_list eps m l : ordered l -> Forall wf_seg l -> Forall has_int l -> Forall cont_inside l -> Forall nonneg_piece l -> dirac_sep eps l ->
  exists l1 q, copyShiftedAndScaled eps l (- m) 1 = Ok q /\ segs q = l1 /\ ordered l1 /\ Forall wf_seg l1 /\ Forall has_int l1 /\ Forall cont_inside l1 /\
    Forall nonneg_piece l1 /\ dirac_sep eps l1 /\
    Forall2 (fun s t => sa t = sh m (sa s) /\ sb t = sh m (sb s) /\ isDirac t = isDirac s /\ (forall a k, t = DiracSeg a k -> s = DiracSeg (a + m) k)) l l1 /\
    forall u v, Rbar_lt u v -> pprob l1 (sh m u) (sh m v) = pprob l u v.
Proof.
  intros O W HI C N D.
  assert (S : image_sep eps (affine (- m) 1) l).
  { unfold image_sep, dirac_sep in *. clear - D. induction D as [|s l F D IH]; constructor; auto. eapply Forall_impl; [|exact F]. simpl.
    intros t. destruct s; auto. destruct t; auto. simpl. intros H. replace (a * 1 + - m - (a0 * 1 + - m)) with (a - a0) by ring. auto. }
  destruct (shift_scale_list_main eps (- m) 1 l) as (q & Q1 & Q2 & Q3 & Q4 & Q5); auto; try lra.
  destruct (rltP 0 1) as [_|H01]; [|lra].
  assert (F : exists l1, Forall2 (fun s t => seg_sas (- m) 1 s = Ok t /\ sa t = sh m (sa s) /\ sb t = sh m (sb s) /\ isDirac t = isDirac s /\ wf_seg t /\ has_int t /\
     nonneg_piece t /\ cont_inside t /\ (forall a k, t = DiracSeg a k -> s = DiracSeg (a + m) k)) l l1).
  { apply Forall_ex2. rewrite Forall_forall in *. intros s Hs. apply shift_piece; auto. }
  destruct F as (l1 & F).
  assert (G : Forall (fun t => wf_seg t /\ has_int t /\ nonneg_piece t /\ cont_inside t) l1) by (clear - F; induction F; constructor; tauto).
  assert (O1 : ordered l1).
  { clear - F O. revert O. induction F as [|s t l l1 H F IH]; intros O; [constructor|]. apply StronglySorted_inv in O. destruct O as (O & B).
    constructor; [apply IH; auto|]. apply Forall_forall. intros t' Ht'. destruct (Forall2_in_r _ _ _ t' F Ht') as (s' & Hs' & H').
    rewrite Forall_forall in B. destruct (B s' Hs') as (B1 & B2). destruct H as (_ & E3 & E4 & _). destruct H' as (_ & E1 & E2 & _). unfold before. rewrite E1, E2, E3, E4. split.
    - apply sh_le; auto.
    - intros K. apply sh_inj in K. auto. }
  assert (D1 : dirac_sep eps l1).
  { clear - F D. unfold dirac_sep in *. revert D. induction F as [|s t l l1 H F IH]; intros D; [constructor|]. inversion D; subst. constructor; [|apply IH; auto].
    apply Forall_forall. intros t' Ht'. destruct (Forall2_in_r _ _ _ t' F Ht') as (s' & Hs' & H'). rewrite Forall_forall in H2. specialize (H2 s' Hs').
    destruct t as [| | | |a k|]; auto. destruct t' as [| | | |b k'|]; auto.
    destruct H as (_ & _ & _ & _ & _ & _ & _ & _ & H). destruct H' as (_ & _ & _ & _ & _ & _ & _ & _ & H').
    rewrite (H a k eq_refl), (H' b k' eq_refl) in H2. replace (a + m - (b + m)) with (a - b) in H2 by ring. auto. }
  assert (W1 : Forall wf_seg l1) by (eapply Forall_impl; [|exact G]; simpl; tauto).
  destruct (addAll_ordered eps l1 O1 W1 D1) as (q' & E1 & E2 & _).
  assert (EQ : q' = q).
  { unfold copyShiftedAndScaled in Q1. rewrite (addMap_all eps _ l l1) in Q1; [congruence|]. eapply Forall2_imp; [|exact F]. simpl. tauto. }
  subst q'. exists l1, q.
  assert (GW : forall P : segment -> Prop, (forall t, wf_seg t /\ has_int t /\ nonneg_piece t /\ cont_inside t -> P t) -> Forall P l1).
  { intros P HP. eapply Forall_impl; [|exact G]. exact HP. }
  split; [exact Q1|]. split; [exact E2|]. split; [exact O1|]. split; [exact W1|].
  split; [apply GW; tauto|]. split; [apply GW; tauto|]. split; [apply GW; tauto|]. split; [exact D1|]. split.
  - eapply Forall2_imp; [|exact F]. cbv beta. intros s t (_ & H1 & H2 & H3 & _ & _ & _ & _ & H4). auto.
  - intros u v UV. rewrite <- E2. unfold lo_end, hi_end in Q5. apply Q5; auto.
Qed.
