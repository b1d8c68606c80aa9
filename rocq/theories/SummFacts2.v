(** The law of |X| is again a density without gaps; medianad. *)
From Coq Require Import Reals Lra List Bool Sorted Permutation Lia.
From Coquelicot Require Import Coquelicot.
From Verif Require Import Base Seg Piecewise PiecewiseSpec PiecewiseFacts PiecewiseFacts2 PiecewiseFacts3 PiecewiseFacts4 Integral SegInt SegIntSpec
  CumintFacts Transform TransformSpec TransformFacts TransformFacts2 TransformFacts3 TransformFacts4 TransformFacts5 OperationFacts IndepSpec AtomFacts CondFacts
  Root Quant QuantSpec QuantFacts QuantFacts2 QuantMain TransformMain Summ SummSpec SummFacts.
Import List ListNotations.
Open Scope R_scope.

Lemma Forall2_in_l {X Y} (P : X -> Y -> Prop) l l' x : Forall2 P l l' -> In x l -> exists y, In y l' /\ P x y.
Proof. induction 1 as [|a b l l' H F IH]; intros I; [destruct I|]. destruct I as [<-|I]; [exists b; simpl; auto|]. destruct (IH I) as (y & ? & ?). exists y; simpl; auto. Qed.
Lemma Forall2_in_r {X Y} (P : X -> Y -> Prop) l l' y : Forall2 P l l' -> In y l' -> exists x, In x l /\ P x y.
Proof. induction 1 as [|a b l l' H F IH]; intros I; [destruct I|]. destruct I as [<-|I]; [exists a; simpl; auto|]. destruct (IH I) as (x & ? & ?). exists x; simpl; auto. Qed.

Lemma integrable_has_int s : integrable_piece s -> has_int s.
Proof. intros H D. destruct s as [| | | | |? ? ? []]; simpl in *; try discriminate; auto. apply H. Qed.
Lemma has_int_integrable s : hasRightPole s = false -> has_int s -> integrable_piece s.
Proof. intros P H. destruct s as [| | | | |? ? ? []]; simpl in *; try discriminate; auto; apply (H eq_refl). Qed.

Section Fold.
Variables (eps : R) (l : list segment) (A B : Rbar).
Hypothesis eps0 : 0 <= eps.
Hypothesis O : ordered l.
Hypothesis W : Forall wf_seg l.
Hypothesis HI : Forall has_int l.
Hypothesis C : Forall cont_inside l.
Hypothesis N : Forall nonneg_piece l.
Hypothesis DS : dirac_sep eps l.
Hypothesis AS : atoms_even_sep eps Rabs l.
Hypothesis P : in_hull l A B.
Hypothesis PC : forall x : R, Rbar_lt A x -> Rbar_lt x B -> exists s, In s l /\ isDirac s = false /\ covers s x.
Hypothesis A0 : Rbar_le A 0.
Hypothesis B0 : Rbar_le 0 B.
Hypothesis T : total_mass l = 1.

Let L := split_all [Finite 0] l.
Let S0 : StronglySorted Rbar_lt [Finite 0].
Proof. constructor; constructor. Qed.
Let hi := rmaxb B (Rbar_opp A).

Lemma hi_B : Rbar_le B hi.
Proof. unfold hi, rmaxb. destruct (Rbar_le_dec B (Rbar_opp A)); auto. apply Rbar_le_refl. Qed.
Lemma hi_A : Rbar_le (Rbar_opp A) hi.
Proof. unfold hi, rmaxb. destruct (Rbar_le_dec B (Rbar_opp A)); [apply Rbar_le_refl|]. apply Rbar_lt_le, Rbar_not_le; auto. Qed.

Lemma L_shape u : In u L -> nonneg_piece u /\ wf_seg u /\ Rbar_le A (sa u) /\ Rbar_le (sb u) B.
Proof.
  intros Hu. destruct (split_all_shape _ l S0 W u Hu) as (s & Hs & _ & E1 & E2 & _ & NN & _).
  unfold in_hull in P. rewrite Forall_forall in P, N. destruct (P s Hs) as (H1 & H2).
  destruct (split_all_ordered [Finite 0] l S0 O W) as (_ & W' & _). rewrite Forall_forall in W'. split; [auto|]. split; [apply W'; auto|].
  split; eapply Rbar_le_trans; eauto.
Qed.
Lemma L_cover (x : R) : Rbar_lt A x -> Rbar_lt x B -> exists u, In u L /\ isDirac u = false /\ covers u x.
Proof.
  intros X Y. destruct (PC x X Y) as (s & H1 & H2 & H3). apply (split_all_covers _ l x s); auto.
Qed.

Variables (lp' ln' : list segment).
Hypothesis FP : Forall2 (fun s t => pos_side s /\ absComposition s = Ok t) (filter (fun s => ble 0 (sa s)) L) lp'.
Hypothesis FN : Forall2 (fun s t => neg_side s /\ absComposition s = Ok t) (filter (fun s => negb (ble 0 (sa s))) L) ln'.

Lemma lp_shape t : In t lp' -> nonneg_piece t /\ hasRightPole t = false /\ Rbar_le 0 (sa t) /\ Rbar_le (sb t) hi.
Proof.
  intros Ht. destruct (Forall2_in_r _ _ _ t FP Ht) as (s & Hs & PS & E). apply filter_In in Hs. destruct Hs as (Hs & _).
  destruct (L_shape s Hs) as (Ns & Ws & _ & E2). destruct (abs_pos_shape s t Ws PS E) as (-> & -> & _ & -> & NN). repeat split; auto.
  eapply Rbar_le_trans; [exact E2|apply hi_B].
Qed.
Lemma ln_shape t : In t ln' -> nonneg_piece t /\ hasRightPole t = false /\ Rbar_le 0 (sa t) /\ Rbar_le (sb t) hi.
Proof.
  intros Ht. destruct (Forall2_in_r _ _ _ t FN Ht) as (s & Hs & PS & E). apply filter_In in Hs. destruct Hs as (Hs & _).
  destruct (L_shape s Hs) as (Ns & Ws & E1 & _). destruct (abs_neg_shape s t Ws PS E) as (-> & -> & _ & -> & NN). repeat split; auto.
  - destruct PS as (_ & PS). destruct (sb s); simpl in *; auto; lra.
  - eapply Rbar_le_trans; [|apply hi_A]. destruct (sa s); destruct A; simpl in *; auto; lra.
Qed.

Lemma lp_cover (x : R) : 0 < x -> Rbar_lt x B -> exists t, In t lp' /\ isDirac t = false /\ covers t x.
Proof.
  intros X Y. destruct (L_cover x) as (u & Hu & Du & (C1 & C2)); auto. { eapply Rbar_le_lt_trans; [exact A0|auto]. }
  assert (Pu : ble 0 (sa u) = true).
  { destruct (bleP 0 (sa u)) as [|H]; auto. exfalso. apply (split_no_inside [Finite 0] l u 0 S0 W Hu); [left; auto|].
    split; [apply Rbar_not_le; auto|]. eapply Rbar_lt_trans; [|exact C2]. auto. }
  destruct (Forall2_in_l _ _ _ u FP) as (t & Ht & PS & E). { apply filter_In; auto. }
  destruct (L_shape u Hu) as (_ & Wu & _). destruct (abs_pos_shape u t Wu PS E) as (E1 & E2 & E3 & _).
  exists t. split; [|split]; auto; [congruence|]. unfold covers. rewrite E1, E2. auto.
Qed.
Lemma ln_cover (x : R) : 0 < x -> Rbar_lt x (Rbar_opp A) -> ~ In x (map (fun s => - real (sa s)) L) ->
  exists t, In t ln' /\ isDirac t = false /\ covers t x.
Proof.
  intros X Y F. destruct (L_cover (- x)) as (u & Hu & Du & (C1 & C2)).
  { destruct A; simpl in *; auto; lra. } { eapply Rbar_lt_le_trans; [|exact B0]. simpl; lra. }
  assert (Pu : negb (ble 0 (sa u)) = true).
  { destruct (bleP 0 (sa u)) as [H|]; auto. exfalso. pose proof (Rbar_le_trans _ _ _ H C1) as K. simpl in K. lra. }
  destruct (Forall2_in_l _ _ _ u FN) as (t & Ht & PS & E). { apply filter_In; auto. }
  destruct (L_shape u Hu) as (_ & Wu & _). destruct (abs_neg_shape u t Wu PS E) as (E1 & E2 & E3 & _).
  exists t. split; [|split]; auto; [congruence|]. unfold covers. rewrite E1, E2. split.
  - destruct (sb u); simpl in *; auto; lra.
  - destruct (sa u) as [y| |] eqn:Ey; simpl in *; auto. destruct (Req_dec x (- y)) as [H|H]; [|lra].
    exfalso. apply F. apply in_map_iff. exists u. rewrite Ey. simpl; auto.
Qed.
End Fold.

Lemma fold_density eps l A B : 0 <= eps -> ordered l -> Forall wf_seg l -> Forall has_int l -> Forall cont_inside l -> Forall nonneg_piece l ->
  dirac_sep eps l -> atoms_even_sep eps Rabs l -> in_hull l A B ->
  (forall x : R, Rbar_lt A x -> Rbar_lt x B -> exists s, In s l /\ isDirac s = false /\ covers s x) -> Rbar_le A 0 -> Rbar_le 0 B -> total_mass l = 1 ->
  exists q, copyAbsComposition eps l = Ok q /\ density (segs q) /\ Forall nonneg_piece (segs q) /\ total_mass (segs q) = 1 /\ even_law Rabs l (segs q).
Proof.
  intros E0 O W HI C N DS AS P PC A0 B0 T.
  destruct (abs_list eps l E0 O W HI C DS AS) as (q & Q & (Oq & Wq & Dq) & Hq & EL).
  exists q. split; auto.
  destruct (even_split_full Rabs Rabs _ Rabs_R0 Rabs_Ropp abs_ip abs_dv eps l O W HI C DS AS)
    as (p & lp & ln & E1 & E2 & G1 & G2 & H1 & H2 & X & W1 & W2 & _ & _ & (lp' & FP & PP) & (ln' & FN & PN)).
  change (evenComposition Rabs Rabs (fun _ => 1)) with absComposition in *.
  unfold copyAbsComposition in Q. rewrite E1 in Q. cbn [rbind] in Q. rewrite E2 in Q. cbn [rbind fst snd] in Q.
  pose proof (getBreaks_sorted (segs ln)) as SB.
  destruct G1 as (O1 & F1 & D1).
  destruct (splitByPoints_ok eps (segs lp) (getBreaks (segs ln)) SB O1 F1 D1) as (lp2 & K1 & K2 & _). rewrite K1 in Q. cbn [rbind] in Q.
  destruct (split_all_ordered _ (segs lp) SB O1 F1) as (O2 & F2 & P2).
  assert (D2 : dirac_sep eps (split_all (getBreaks (segs ln)) (segs lp))) by (apply dirac_sep_pos; rewrite P2; apply dirac_sep_pos; auto).
  rewrite <- K2 in O2, F2, P2, D2.
  assert (DL : forall a m, In (DiracSeg a m) (segs lp2) -> In (DiracSeg a m) (segs lp)).
  { intros a m Ha. rewrite K2 in Ha. assert (HH : In (DiracSeg a m) (getDiracs (split_all (getBreaks (segs ln)) (segs lp)))) by (apply filter_In; auto).
    rewrite split_diracs in HH; auto. apply filter_In in HH. tauto. }
  assert (X2 : cross_sep eps (segs lp2) (segs ln)) by (intros a m b k Ha Hb; apply (X a m b k); auto).
  destruct (operation_ok eps Rplus (segs lp2) (segs ln) E0) as (h & Q1 & _ & Q3 & Q4); auto. { split; auto. }
  rewrite Q in Q1. injection Q1 as <-.
  set (hi := rmaxb B (Rbar_opp A)).
  assert (SL : Forall (fun t => nonneg_piece t /\ hasRightPole t = false /\ Rbar_le 0 (sa t) /\ Rbar_le (sb t) hi) (segs lp)).
  { apply Forall_forall. intros t Ht. apply (Permutation_in _ (Permutation_sym PP)) in Ht. exact (lp_shape l A B O W N P lp' FP t Ht). }
  assert (SN : Forall (fun t => nonneg_piece t /\ hasRightPole t = false /\ Rbar_le 0 (sa t) /\ Rbar_le (sb t) hi) (segs ln)).
  { apply Forall_forall. intros t Ht. apply (Permutation_in _ (Permutation_sym PN)) in Ht. exact (ln_shape l A B O W N P PC A0 ln' FN t Ht). }
  assert (SL2 : Forall (fun t => nonneg_piece t /\ hasRightPole t = false /\ Rbar_le 0 (sa t) /\ Rbar_le (sb t) hi) (segs lp2)).
  { apply Forall_forall. intros t Ht. rewrite K2 in Ht. destruct (split_all_shape _ _ SB F1 t Ht) as (s & Hs & _ & L1 & L2 & _ & L3 & L4).
    rewrite Forall_forall in SL. destruct (SL s Hs) as (M1 & M2 & M3 & M4). repeat split; auto; eapply Rbar_le_trans; eauto. }
  assert (WL : forall s, In s (segs lp2) \/ In s (segs ln) -> Rbar_le 0 (sa s) /\ Rbar_le (sb s) hi /\ Rbar_le (sa s) (sb s)).
  { rewrite Forall_forall in SL2, SN. destruct G2 as (_ & F3 & _). rewrite Forall_forall in F2, F3.
    intros s [H|H]; [destruct (SL2 s H)|destruct (SN s H)]; repeat split; try tauto; apply wf_le; auto. }
  assert (PIECES : Forall (fun u => nonneg_piece u /\ hasRightPole u = false /\ Rbar_le 0 (sa u) /\ Rbar_le (sb u) hi) (segs q)).
  { apply Forall_forall. intros u Hu. destruct (isDirac u) eqn:D.
    - destruct u as [| | | |a m|]; try discriminate.
      assert (NQ : atoms_nodup (segs q)) by (eapply sep_nodup; eauto).
      assert (NL : atoms_nodup (segs lp2)) by (eapply sep_nodup; eauto).
      assert (NN : atoms_nodup (segs ln)) by (eapply sep_nodup; [eauto|apply G2]).
      pose proof (proj2 (mass_at_iff _ a m NQ) Hu) as M. rewrite Q4 in M. rewrite Forall_forall in SL2, SN.
      destruct (mass_at (segs lp2) a) as [m1|] eqn:M1; destruct (mass_at (segs ln) a) as [m2|] eqn:M2; simpl in M; try discriminate.
      + apply mass_at_iff in M1; auto. apply mass_at_iff in M2; auto. injection M as <-. destruct (SL2 _ M1) as (U1 & U2 & U3 & U4). destruct (SN _ M2) as (V1 & _).
        simpl in *. repeat split; auto; lra.
      + apply mass_at_iff in M1; auto. injection M as <-. destruct (SL2 _ M1) as (U1 & U2 & U3 & U4). simpl in *. repeat split; auto; lra.
      + apply mass_at_iff in M2; auto. injection M as <-. destruct (SN _ M2) as (U1 & U2 & U3 & U4). simpl in *. repeat split; auto; lra.
    - assert (Hu' : In u (op_pieces Rplus (segs lp2) (segs ln))) by (rewrite <- Q3; apply getSegments_cont; auto).
      destruct (plus_pieces_shape (segs lp2) (segs ln) u) as (U1 & U2 & U3 & U4); auto; try apply G2.
      { eapply Forall_impl; [|exact SL2]. simpl; tauto. } { eapply Forall_impl; [|exact SN]. simpl; tauto. }
      { eapply Forall_impl; [|exact SL2]. simpl; tauto. } { eapply Forall_impl; [|exact SN]. simpl; tauto. }
      repeat split; auto.
      + assert (K : exists s, (In s (segs lp2) \/ In s (segs ln)) /\ (sa u = sa s \/ sa u = sb s)) by (destruct U3 as [(s & ? & ?)|(s & ? & ?)]; exists s; auto).
        destruct K as (s & Hs & Es). destruct (WL s Hs) as (Z1 & Z2 & Z3). destruct Es as [->| ->]; auto. eapply Rbar_le_trans; eauto.
      + assert (K : exists s, (In s (segs lp2) \/ In s (segs ln)) /\ (sb u = sa s \/ sb u = sb s)) by (destruct U4 as [(s & ? & ?)|(s & ? & ?)]; exists s; auto).
        destruct K as (s & Hs & Es). destruct (WL s Hs) as (Z1 & Z2 & Z3). destruct Es as [->| ->]; auto. eapply Rbar_le_trans; eauto. }
  assert (TM : total_mass (segs q) = 1).
  { rewrite total_mass_pprob by auto. rewrite <- T, total_mass_pprob by auto. destruct EL as (_ & _ & EL). apply (EL m_infty p_infty); simpl; auto. }
  split; [|split; [|split]]; auto.
  - split; [|split; [|split; [|split]]]; auto.
    + intros E. rewrite E in TM. unfold total_mass in TM. simpl in TM. lra.
    + rewrite Forall_forall in PIECES, Hq |- *. intros s Hs. apply has_int_integrable; auto. apply PIECES; auto.
    + apply (filled_chained (segs q) 0 hi); auto.
      * unfold in_hull. eapply Forall_impl; [|exact PIECES]. simpl; tauto.
      * exists (map (fun s => - real (sa s)) (split_all [Finite 0] l)). intros x X1 X2' NF. simpl in X1.
        assert (K : exists s, (In s (segs lp2) \/ In s (segs ln)) /\ isDirac s = false /\ covers s x).
        { destruct (Rbar_lt_dec x B) as [LB|LB].
          - assert (K : exists t, In t lp' /\ isDirac t = false /\ covers t x) by exact (lp_cover l A B O W N P PC A0 lp' FP x X1 LB). destruct K as (t & T1 & T2 & T3).
            apply (Permutation_in _ PP) in T1. destruct (split_all_covers (getBreaks (segs ln)) (segs lp) x t) as (u & U1 & U2 & U3); auto.
            exists u. rewrite K2. auto.
          - assert (XA : Rbar_lt x (Rbar_opp A)) by (unfold hi, rmaxb in X2'; destruct (Rbar_le_dec B (Rbar_opp A)); auto; contradiction).
            assert (K : exists t, In t ln' /\ isDirac t = false /\ covers t x) by exact (ln_cover l A B O W N P PC A0 B0 ln' FN x X1 XA NF). destruct K as (t & T1 & T2 & T3).
            apply (Permutation_in _ PN) in T1. exists t. auto. }
        destruct K as (s & Hs & Ds & Cs). destruct G2 as (O3 & F3 & _).
        destruct (op_pieces_cover Rplus (segs lp2) (segs ln) x s) as (u & U1 & U2 & U3); auto.
        exists u. rewrite <- Q3 in U1. apply getSegments_cont in U1. tauto.
  - eapply Forall_impl; [|exact PIECES]. simpl; tauto.
Qed.
