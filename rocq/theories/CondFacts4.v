(** Proofs about conditional distributions: the three constructions. *)
From Coq Require Import Reals Lra Lia List Bool Sorted Permutation.
From Coquelicot Require Import Coquelicot.
From Verif Require Import Base Bisect Seg Piecewise PiecewiseSpec PiecewiseFacts PiecewiseFacts2 PiecewiseFacts3 PiecewiseFacts4 Integral IntegralFacts SegInt SegIntSpec IntParts IntPartsFacts Indep IndepSpec AtomFacts AtomFacts2 AtomFacts3 ConvolFacts IndepAsm ExtrFacts2 ExtrFacts3 ExtrMain TransformFacts QuotFacts CumintFacts ProdAsm ProdAsmSpec ProdAsmFacts DensLaw ProdConstFacts Discr Cond CondSpec CondFacts CondFacts2 CondFacts3.
From Verif Require TransformSpec.
Import List ListNotations.
Open Scope R_scope.

Lemma ind_false lo hi t : ind_in lo hi t = false <-> ~ RbarIn lo hi t.
Proof. rewrite <- ind_in_true. destruct (ind_in lo hi t); split; intros; auto; try discriminate; try tauto. Qed.
Lemma rmaxb_m x : rmaxb x m_infty = x.
Proof. unfold TransformSpec.rmaxb. destruct (Rbar_le_dec x m_infty) as [K|K]; auto. destruct x; simpl in K; tauto. Qed.
Lemma rminb_p x : rminb x p_infty = x.
Proof. unfold TransformSpec.rminb. destruct (Rbar_le_dec x p_infty) as [K|K]; auto. destruct x; simpl in K; tauto. Qed.
Lemma pop_below_atoms (L : R) l1 s l2 : Forall (fun s => Rbar_lt (sa s) L) l1 -> Rbar_le L (sa s) -> pop_below L (l1 ++ s :: l2) = Ok (s :: l2).
Proof.
  intros F H. induction F as [|x l F1 F2 IH]; simpl.
  - destruct (bltP (sa s) L) as [K|K]; auto. exfalso. apply (Rbar_lt_not_le L (sa s) K H).
  - destruct (bltP (sa x) L); [auto|tauto].
Qed.
Lemma pop_last_app l s : pop_last (l ++ [s]) = Ok (s, l).
Proof. unfold pop_last. rewrite rev_app_distr. simpl. rewrite rev_involutive. auto. Qed.
Lemma FOP_app {A} (R : A -> A -> Prop) l1 l2 : ForallOrdPairs R (l1 ++ l2) -> ForallOrdPairs R l1 /\ ForallOrdPairs R l2.
Proof.
  induction l1 as [|x l1 IH]; intros H; [split; auto; constructor|]. inversion H as [|? ? F G E]; subst. destruct (IH G) as (A1 & A2). split; auto. constructor; auto. apply Forall_app in F. tauto.
Qed.
Lemma sep_part eps l1 l2 l3 : dirac_sep eps (l1 ++ l2 ++ l3) -> dirac_sep eps l2.
Proof. intros H. apply FOP_app in H. destruct H as (_ & H). apply FOP_app in H. tauto. Qed.
Lemma le_neq_lt (x y : Rbar) : Rbar_le x y -> x <> y -> Rbar_lt x y.
Proof. intros H N. destruct (Rbar_le_lt_or_eq_dec x y H); tauto. Qed.

Section Gen.
Variables (eps ueps : R) (d : list segment).
Hypothesis He : 0 <= eps.
Hypothesis Od : ordered d.
Hypothesis Wd : Forall wf_seg d.
Hypothesis Id : Forall integrable_piece d.
Hypothesis Sd : dirac_sep eps d.
Hypothesis Ed : exists p : R, is_end d p.
Hypothesis NN : nonneg_law d.
Hypothesis TM : total_mass d = 1.

Lemma tail_gt (L : R) : 1 - cdf_spec d L = pprob d L p_infty.
Proof.
  rewrite cdf_pprob by auto. rewrite <- TM, total_mass_pprob by auto. rewrite (pprob_cut d m_infty L p_infty); simpl; auto using has_int_all. ring.
Qed.
Lemma tail_lt (U : R) : 1 - (prob_above d U + pm d U) = pprob d m_infty U.
Proof. unfold prob_above. rewrite TM, cdf_pprob by auto. ring. Qed.

Definition conditional (r : list segment) (lo hi : Rbar) : Prop :=
  good eps r /\ Forall integrable_piece r /\
  (forall u v, Rbar_lt u v -> pprob r u v = pprob d (rmaxb u lo) (rminb v hi) / pprob d lo hi) /\ total_mass r = 1 /\
  (forall z, pm r z = if ind_in lo hi z then pm d z / pprob d lo hi else 0).

Lemma cond_gt_ok (L : R) : (forall a m, In (DiracSeg a m) d -> a = L \/ eps < Rabs (a - L)) -> marks_sep ueps d [L] ->
  0 < pprob d L p_infty -> (L < 0 -> pm d 0 < pprob d L p_infty) ->
  exists r, cond_gt eps ueps L d = Ok r /\ conditional (segs r) L p_infty.
Proof.
  intros CS MS PP P0. destruct (max_left L eps d) as (q & Q & C); auto.
  pose proof C as (C1 & C2 & C3 & C4 & C5 & C6 & C7 & C8 & C9 & C10).
  destruct (atom_split (segs q) L) as (l1 & m & l2 & E & Em & F1 & F2 & N1 & N2); auto. { apply C8; auto. }
  assert (A1 : Forall (fun s => exists a m, s = DiracSeg a m /\ a < L) l1).
  { apply Forall_forall. intros s Hs. rewrite Forall_forall in F1. destruct (F1 s Hs) as (G1 & G2). destruct (isDirac s) eqn:D.
    - destruct s as [| | | |a m'|]; try discriminate. exists a, m'. split; auto. simpl in G1, G2. destruct G1 as [G1|G1]; auto. subst. tauto.
    - exfalso. assert (Hq : In s (segs q)) by (rewrite E, in_app_iff; auto). destruct (C9 s Hq D) as (_ & _ & G3 & _).
      rewrite Forall_forall in C2. pose proof (wf_lt s D (C2 s Hq)) as G4. apply (Rbar_lt_not_le (sb s) (sa s) G4). apply (Rbar_le_trans _ L); auto. }
  unfold cond_gt. rewrite point_ok. cbn [rbind]. rewrite Q. cbn [rbind]. rewrite E, pop_below_atoms. 2:{ eapply Forall_impl; [|exact A1]. intros s (a & m' & -> & H). exact H. } 2:{ apply Rbar_le_refl. }
  cbn [rbind pop_first fst snd height]. rewrite Em, C4, tail_gt.
  destruct (rescale_ok (segs q) d L p_infty [L]) with (l1 := l1 ++ [DiracSeg L m]) (l := l2) (l3 := @nil segment) (eps := eps) (ueps := ueps) as (r & R); auto.
  - apply (cap_integrable eps _ d L p_infty L _ C); auto.
  - apply (cap_nonneg eps _ d L p_infty L _ C); auto.
  - apply (cap_dens eps _ d L p_infty L _ C); auto.
  - apply (cap_end eps _ d L p_infty L _ C).
  - rewrite app_nil_r, <- app_assoc. auto.
  - apply Forall_app. split.
    + eapply Forall_impl; [|exact A1]. intros s (a & m' & -> & H). exists a, m'. split; auto. apply ind_false. intros (K & _). simpl in K. lra.
    + repeat constructor. exists L, m. split; auto. apply ind_self; auto.
  - intros a m' H. apply ind_in_true. rewrite Forall_forall in F2. destruct (F2 _ H) as (G1 & G2). simpl in G1, G2. split; simpl; auto. destruct G1 as [G1|G1]; auto. subst. tauto.
  - rewrite E in C3. apply (sep_part eps (l1 ++ [DiracSeg L m]) l2 []). rewrite app_nil_r, <- app_assoc. auto.
  - intros H. apply P0. apply ind_in_true in H. apply H.
  - exists r. destruct R as (R1 & R2 & R3 & R4 & R5 & R6). split; auto. unfold conditional. splits; auto.
Qed.

Lemma cond_lt_ok (U : R) : (forall a m, In (DiracSeg a m) d -> a = U \/ eps < Rabs (a - U)) -> marks_sep ueps d [U] ->
  (forall a m, In (DiracSeg a m) d -> a <= U) ->
  0 < pprob d m_infty U -> (0 < U -> pm d 0 < pprob d m_infty U) ->
  exists r, cond_lt eps ueps U d = Ok r /\ conditional (segs r) m_infty U.
Proof.
  intros CS MS NA PP P0. destruct (min_left U eps d) as (q & Q & C); auto.
  pose proof C as (C1 & C2 & C3 & C4 & C5 & C6 & C7 & C8 & C9 & C10).
  destruct (atom_split (segs q) U) as (l1 & m & l2 & E & Em & F1 & F2 & N1 & N2); auto. { apply C8; auto. }
  assert (A2 : l2 = []).
  { destruct l2 as [|s l2]; auto. exfalso. inversion F2 as [|? ? (G1 & G2) _]; subst. assert (Hq : In s (segs q)) by (rewrite E, in_app_iff; simpl; auto). destruct (isDirac s) eqn:D.
    - destruct s as [| | | |a m'|]; try discriminate. simpl in G1, G2. assert (K : In a (dirac_pos (segs q))) by (apply dirac_pos_In; eauto). apply C8 in K.
      destruct K as [->|K]; [tauto|]. apply dirac_pos_In in K. destruct K as (m'' & K). apply NA in K. apply G2. f_equal. lra.
    - destruct (C9 s Hq D) as (_ & _ & _ & G3).
      rewrite Forall_forall in C2. pose proof (wf_lt s D (C2 s Hq)) as G4. apply (Rbar_lt_not_le (sb s) (sa s) G4). apply (Rbar_le_trans _ U); auto. }
  subst l2.
  unfold cond_lt. rewrite point_ok. cbn [rbind]. rewrite Q. cbn [rbind]. rewrite E, pop_last_app.
  cbn [rbind fst snd height]. rewrite Em, C4, tail_lt.
  destruct (rescale_ok (segs q) d m_infty U [U]) with (l1 := @nil segment) (l := l1) (l3 := [DiracSeg U m]) (eps := eps) (ueps := ueps) as (r & R); auto.
  - apply (cap_integrable eps _ d m_infty U U _ C); auto.
  - apply (cap_nonneg eps _ d m_infty U U _ C); auto.
  - apply (cap_dens eps _ d m_infty U U _ C); auto.
  - apply (cap_end eps _ d m_infty U U _ C).
  - repeat constructor. exists U, m. split; auto. apply ind_self; auto.
  - intros a m' H. apply ind_in_true. rewrite Forall_forall in F1. destruct (F1 _ H) as (G1 & G2). simpl in G1, G2. split; simpl; auto. destruct G1 as [G1|G1]; auto. subst. tauto.
  - rewrite E in C3. apply (sep_part eps [] l1 [DiracSeg U m]). auto.
  - intros H. apply P0. apply ind_in_true in H. apply H.
  - exists r. destruct R as (R1 & R2 & R3 & R4 & R5 & R6). split; auto. unfold conditional. splits; auto.
Qed.

Lemma cond_between_ok (L U : R) : L < U -> eps < U - L ->
  (forall a m, In (DiracSeg a m) d -> (a = L \/ eps < a - L) /\ (a = U \/ eps < U - a)) -> marks_sep ueps d [L; U] ->
  0 < pprob d L U -> (L < 0 -> 0 < U -> pm d 0 < pprob d L U) ->
  exists r, cond_between eps ueps L U d = Ok r /\ conditional (segs r) L U.
Proof.
  intros LU EU CS MS PP P0.
  destruct (min_right U eps d) as (q1 & Q1 & C); auto.
  { intros a m H. destruct (CS a m H) as (_ & [K|K]); auto. right. rewrite Rabs_minus_sym. rewrite Rabs_right; lra. }
  pose proof C as (C1 & C2 & C3 & C4 & C5 & C6 & C7 & C8 & C9 & C10).
  assert (I1 : Forall integrable_piece (segs q1)) by (apply (cap_integrable eps _ d m_infty U U _ C); auto).
  assert (NQ1 := cap_nonneg eps _ d m_infty U U _ C NN).
  assert (D1 := cap_dens eps _ d m_infty U U _ C).
  destruct (max_right L eps (segs q1)) as (q & Q & B); auto.
  { intros a m H. assert (K : In a (dirac_pos (segs q1))) by (apply dirac_pos_In; eauto). apply C8 in K. destruct K as [->|K]; [right; rewrite Rabs_right; lra|].
    apply dirac_pos_In in K. destruct K as (m' & K). destruct (CS _ _ K) as ([->|G] & _); auto. right. rewrite Rabs_right; lra. }
  { exists U. assert (K : In U (dirac_pos (segs q1))) by (apply C8; auto). apply dirac_pos_In in K. destruct K as (m' & K). exists (DiracSeg U m'). simpl; auto. }
  pose proof B as (B1 & B2 & B3 & B4 & B5 & B6 & B7 & B8 & B9 & B10).
  assert (AT : forall a m, In (DiracSeg a m) (segs q) -> a = L \/ a = U \/ (L < a < U)).
  { intros a m H. assert (K : In a (dirac_pos (segs q))) by (apply dirac_pos_In; eauto). apply B8 in K. destruct K as [K|K]; auto. apply C8 in K. destruct K as [K|K]; auto.
    apply dirac_pos_In in K. destruct K as (m' & K). destruct (CS _ _ K) as ([G|G] & [G'|G']); auto. right; right. lra. }
  assert (E1 : forall s, In s (segs q1) -> Rbar_le (sb s) U).
  { intros s Hs. destruct (isDirac s) eqn:D; [|destruct (C9 s Hs D); tauto]. destruct s as [| | | |a m'|]; try discriminate. simpl.
    assert (K : In a (dirac_pos (segs q1))) by (apply dirac_pos_In; eauto). apply C8 in K. destruct K as [->|K]; [lra|]. apply dirac_pos_In in K. destruct K as (m'' & K). destruct (CS _ _ K) as (_ & [G|G]); lra. }
  assert (E2 : forall s, In s (segs q) -> Rbar_le (sb s) U).
  { intros s Hs. destruct (B7 (sb s)) as [G|(s' & Hs' & G)]; [exists s; auto|rewrite G; simpl; lra|]. apply (Rbar_le_trans _ (sb s')); auto. destruct G as [-> | ->]; [|apply Rbar_le_refl].
    destruct (isDirac s') eqn:D; [destruct s'; try discriminate; apply Rbar_le_refl|]. apply Rbar_lt_le, wf_lt; auto. rewrite Forall_forall in C2. auto. }
  destruct (atom_split (segs q) L) as (l0 & mL & l2 & E & Em & F1 & F2 & N1 & N2); auto. { apply B8; auto. }
  assert (A0 : l0 = []).
  { destruct l0 as [|s l0]; auto. exfalso. inversion F1 as [|? ? (G1 & G2) _]; subst. assert (Hq : In s (segs q)) by (rewrite E; simpl; auto). destruct (isDirac s) eqn:D.
    - destruct s as [| | | |a m'|]; try discriminate. simpl in G1, G2. destruct (AT a m' Hq) as [->|[->|K]]; [tauto|lra|lra].
    - destruct (B9 s Hq D) as (_ & _ & G3 & _).
      rewrite Forall_forall in B2. pose proof (wf_lt s D (B2 s Hq)) as G4. apply (Rbar_lt_not_le (sb s) (sa s) G4). apply (Rbar_le_trans _ L); auto. }
  subst l0. simpl in E.
  assert (UQ : In U (dirac_pos (segs q))) by (apply B8; right; apply C8; auto).
  assert (U2 : In U (dirac_pos l2)). { rewrite E in UQ. simpl in UQ. destruct UQ as [K|K]; [lra|auto]. }
  assert (O2 : ordered l2 /\ Forall wf_seg l2).
  { rewrite E in B1, B2. apply StronglySorted_inv in B1. inversion B2; subst. split; [apply B1|auto]. }
  destruct (atom_split l2 U) as (l & mU & l3 & E' & Em' & F1' & F2' & N1' & N2'); auto; try apply O2.
  assert (A3 : l3 = []).
  { destruct l3 as [|s l3]; auto. exfalso. inversion F2' as [|? ? (G1 & G2) _]; subst. assert (Hq : In s (segs q)) by (rewrite E; simpl; rewrite in_app_iff; simpl; auto). destruct (isDirac s) eqn:D.
    - destruct s as [| | | |a m'|]; try discriminate. simpl in G1, G2. destruct (AT a m' Hq) as [->|[->|K]]; [lra|tauto|lra].
    - rewrite Forall_forall in B2. pose proof (wf_lt s D (B2 s Hq)) as G4. apply (Rbar_lt_not_le (sb s) (sa s) G4). apply (Rbar_le_trans _ U); auto. }
  subst l3.
  assert (M1 : mL = cdf_spec d L).
  { rewrite Em, B4, (cdf_pprob (segs q1)), (cdf_pprob d) by auto. f_equal.
    - apply (agree_law (segs q1) d m_infty L (U :: fin_pts (getBreaks d))); auto using has_int_all; [simpl; auto| |].
      + intros t (T1 & T2) N. simpl in T2. rewrite D1; auto.
        * assert (K : ind_in m_infty U t = true) by (apply ind_in_true; split; simpl; auto; lra). rewrite K; auto.
        * intros [->|[]]. apply N; simpl; auto.
        * intros K. apply N. right. apply fin_pts_In, getBreaks_end; auto.
      + intros z (Z1 & Z2). simpl in Z2. apply C5. apply ind_in_true; split; simpl; auto; lra.
    - apply C5. apply ind_in_true; split; simpl; auto. }
  assert (M2 : mU = prob_above d U + pm d U).
  { rewrite Em'. rewrite <- C4, <- B5 by (apply ind_in_true; split; simpl; auto). rewrite E, pm_cons. unfold pm1. destruct (Req_EM_T L U); [lra|ring]. }
  unfold cond_between. rewrite !point_ok. cbn [rbind]. rewrite Q1. cbn [rbind]. rewrite Q. cbn [rbind]. rewrite E. cbn [rbind pop_first fst snd]. rewrite E', pop_last_app.
  cbn [rbind fst snd height].
  replace (1 - (mL + mU)) with (pprob d L U).
  2:{ rewrite M1, M2. pose proof (tail_gt L) as T1. pose proof (tail_lt U) as T2. rewrite (pprob_cut d L U p_infty) in T1; simpl; auto using has_int_all.
      unfold prob_above in *. rewrite TM in *. rewrite (cdf_pprob d U) in * by auto. pose proof TM as T3. rewrite total_mass_pprob in T3 by auto. rewrite (pprob_cut d m_infty U p_infty) in T3; simpl; auto using has_int_all. lra. }
  assert (I2 : Forall integrable_piece (segs q)) by (apply (cap_integrable eps _ (segs q1) L p_infty L _ B); auto).
  destruct (rescale_ok (segs q) d L U [L; U]) with (l1 := [DiracSeg L mL]) (l := l) (l3 := [DiracSeg U mU]) (eps := eps) (ueps := ueps) as (r & R); auto.
  - intros s x Hs D X1 X2. rewrite (kept_value (segs q) (segs q1) L p_infty [L] B1 B2 B6 (cap_end eps _ (segs q1) L p_infty L _ B) B9 s x Hs D X1 X2).
    rewrite dens_sum. assert (G : forall k, (forall s, In s k -> In s (segs q1)) -> 0 <= sumR (map (fun s => dens1 s x) k)).
    { induction k as [|s' k IH]; intros G; [simpl; lra|]. cbn [map]. rewrite sumR_cons. apply Rplus_le_le_0_compat; [|apply IH; intros; apply G; simpl; auto].
      unfold dens1. destruct (isDirac s') eqn:D'; [lra|]. destruct (Rbar_lt_dec (sa s') x) as [X3|]; [|lra]. destruct (Rbar_lt_dec x (sb s')) as [X4|]; [|lra]. apply NQ1; auto. apply G; simpl; auto. }
    apply G; auto.
  - intros t T1 T2. assert (T3 : ~ is_end (segs q1) t). { intros K. destruct (C7 t K) as [K'|K']; auto. injection K' as ->. apply T1; simpl; auto. }
    rewrite (cap_dens eps _ (segs q1) L p_infty L _ B) by (auto; simpl in *; tauto). rewrite D1 by (auto; simpl in *; tauto).
    unfold ind_in. destruct (Rbar_lt_dec L t); [|auto]. destruct (Rbar_lt_dec t p_infty) as [_|K]; [|simpl in K; tauto]. destruct (Rbar_lt_dec m_infty t) as [_|K]; [|simpl in K; tauto]. auto.
  - intros y Y. destruct (B7 y Y) as [K|K]; [injection K as ->; simpl; auto|]. destruct (C7 y K) as [K'|K']; auto. injection K' as ->. simpl; auto.
  - rewrite E, E'. auto.
  - repeat constructor. exists L, mL. split; auto. apply ind_self; auto.
  - repeat constructor. exists U, mU. split; auto. apply ind_self; auto.
  - intros a m' H. apply ind_in_true. assert (Hq : In (DiracSeg a m') (segs q)) by (rewrite E, E'; simpl; rewrite in_app_iff; auto).
    destruct (AT a m' Hq) as [->|[->|K]]; [exfalso; apply N2; rewrite E', dirac_pos_app, in_app_iff; left; apply dirac_pos_In; eauto| |split; simpl; lra].
    exfalso. apply N1'. apply dirac_pos_In; eauto.
  - intros z Z. apply ind_in_true in Z. destruct Z as (Z1 & Z2). simpl in Z1, Z2. rewrite B5, C5; auto; apply ind_in_true; split; simpl; auto.
  - rewrite E, E' in B3. apply (sep_part eps [DiracSeg L mL] l [DiracSeg U mU]). auto.
  - intros H. apply ind_in_true in H. destruct H as (H1 & H2). apply P0; auto.
  - exists r. destruct R as (R1 & R2 & R3 & R4 & R5 & R6). split; auto. unfold conditional. splits; auto.
Qed.
End Gen.
