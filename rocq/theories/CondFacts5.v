(** Proofs about conditional distributions: the range check, and what happens with atoms outside the interval. *)
From Coq Require Import Reals Lra Lia List Bool Sorted Permutation.
From Coquelicot Require Import Coquelicot.
From Verif Require Import Base Bisect Seg Piecewise PiecewiseSpec PiecewiseFacts PiecewiseFacts2 PiecewiseFacts3 PiecewiseFacts4 Integral IntegralFacts SegInt SegIntSpec IntParts IntPartsFacts Indep IndepSpec AtomFacts AtomFacts2 AtomFacts3 ConvolFacts IndepAsm ExtrFacts2 ExtrFacts3 ExtrMain TransformFacts QuotFacts CumintFacts ProdAsm ProdAsmSpec ProdAsmFacts DensLaw ProdConstFacts Discr Cond CondSpec CondFacts CondFacts2 CondFacts3 CondFacts4.
From Verif Require TransformSpec.
Import List ListNotations.
Open Scope R_scope.

Lemma range_ok d : (exists p : R, is_end d p) -> exists a b, pw_range d = Ok (a, b) /\ is_end d a /\ is_end d b /\ forall y, is_end d y -> Rbar_le a y /\ Rbar_le y b.
Proof.
  intros (p & Hp). unfold pw_range. pose proof (getBreaks_sorted d) as S. pose proof (fun y => getBreaks_end d y) as G.
  destruct (getBreaks d) as [|a t] eqn:E. { apply G in Hp. destruct Hp. }
  exists a, (last t a). split; auto.
  assert (L : In (last t a) (a :: t) /\ forall y, In y (a :: t) -> Rbar_le y (last t a)).
  { clear - S. revert a S. induction t as [|b t IH]; intros a S; [simpl; split; auto; intros y [<-|[]]; apply Rbar_le_refl|].
    inversion S as [|? ? S' F]; subst. destruct (IH b S') as (I1 & I2). assert (EL : last (b :: t) a = last t b). { destruct t as [|c t]; auto. simpl. clear. revert c. induction t; intros; simpl; auto. }
    rewrite EL. split; [right; auto|]. intros y [<-|H]; auto. apply (Rbar_le_trans _ b); auto. apply Rbar_lt_le. inversion F; auto. apply I2; simpl; auto. }
  splits.
  - apply G. simpl; auto.
  - apply G. apply L.
  - intros y Hy. apply G in Hy. split; [|apply L; auto]. inversion S as [|? ? S' F]; subst. destruct Hy as [<-|H]; [apply Rbar_le_refl|]. rewrite Forall_forall in F. apply Rbar_lt_le; auto.
Qed.
Lemma pprob_outside d u v : Forall wf_seg d -> Forall integrable_piece d -> (forall s, In s d -> Rbar_le (sb s) u \/ Rbar_le v (sa s)) -> pprob d u v = 0.
Proof.
  intros W I H. apply (pprob_zero d u v []); auto using has_int_all.
  - intros t (T1 & T2) _. rewrite dens_sum. clear I W. induction d as [|s d IH]; auto. cbn [map]. rewrite sumR_cons, IH by (intros; apply H; simpl; auto). unfold dens1. destruct (isDirac s); [ring|].
    destruct (Rbar_lt_dec (sa s) t) as [A|]; [|ring]. destruct (Rbar_lt_dec t (sb s)) as [B|]; [|ring]. exfalso. destruct (H s) as [K|K]; [simpl; auto| |].
    + apply (lt_irrefl t). apply (Rbar_lt_le_trans t (sb s)); auto. apply (Rbar_le_trans _ u); auto. apply Rbar_lt_le; auto.
    + apply (lt_irrefl t). apply (Rbar_lt_trans t v); auto. apply (Rbar_le_lt_trans v (sa s)); auto.
  - intros z (Z1 & Z2). apply pm_notin. intros K. apply dirac_pos_In in K. destruct K as (m & K). apply H in K. simpl in K. destruct K as [K|K].
    + apply (lt_irrefl z). apply (Rbar_le_lt_trans z u); auto.
    + apply (lt_irrefl z). apply (Rbar_lt_le_trans z v); auto.
Qed.
Lemma end_sa l s : In s l -> is_end l (sa s). Proof. exists s; auto. Qed.
Lemma end_sb l s : In s l -> is_end l (sb s). Proof. exists s; auto. Qed.

(** multiplication by a unit point of mass w *)
Lemma scale_one eps ueps d l pts w : 0 <= eps -> ordered l -> Forall wf_seg l -> Forall integrable_piece l -> dirac_sep eps l -> not_zero l ->
  marks_sep ueps d pts -> (forall y : R, is_end l y -> marked d pts y) -> 0 <= pm l 0 ->
  (forall s (x : R), In s l -> isDirac s = false -> Rbar_lt (sa s) x -> Rbar_lt x (sb s) -> 0 <= sf s x) ->
  exists r, convprod eps ueps l [DiracSeg 1 w] = Ok r /\ (forall z, pm (segs r) z = w * pm l z) /\ pprob (segs r) m_infty p_infty = w * pprob l m_infty p_infty.
Proof.
  intros He O W I Sl NZ MS RE P0 NQ.
  assert (CE : forall (p : R), cut_end l p -> marked d pts p).
  { intros p [K|(K & _)]; [apply RE; auto|]. unfold marked. destruct K as [K|[K|K]]; injection K; auto. }
  destruct (const_law eps ueps l 1 w) as (r & R1 & R2 & R3 & R4 & R5 & R6 & R7); auto.
  - intros u v Hu Hv L. assert (C1 : 1 <> 0) by lra. apply (c_prod l 1 w C1) in Hu. apply (c_prod l 1 w C1) in Hv. replace (u / 1) with u in Hu by field. replace (v / 1) with v in Hv by field. apply MS; auto.
  - unfold cont_mass. assert (H : forall s, In s (getSegments l) -> 0 <= mass s).
    { intros s Hs. unfold getSegments in Hs. apply filter_In in Hs. destruct Hs as (Hs & D). unfold isSegment in D. apply negb_true_iff in D.
      pose proof W as W'. pose proof I as I'. rewrite Forall_forall in W', I'. rewrite mass_Q by auto. apply Q_nonneg; [apply piece_has_int; auto|].
      intros x (X1 & X2). apply NQ; auto. }
    induction (getSegments l) as [|s k IH]; [simpl; lra|]. cbn [map]. rewrite sumR_cons. apply Rplus_le_le_0_compat; [apply H; simpl; auto|apply IH; intros; apply H; simpl; auto].
  - intros x m y k x' m' y' k' Hx [E|[]] Hx' [E'|[]]. injection E as <- <-. injection E' as <- <-. rewrite !Rmult_1_r.
    destruct (Req_EM_T x x'); auto. right. apply (proj1 (dirac_sep_iff eps l He) Sl); auto; apply dirac_pos_In; eauto.
  - exists r. splits; auto.
    + intros z. rewrite R4. replace (z / 1) with z by field. auto.
    + destruct (R7 m_infty p_infty) as (K & _); [simpl; auto|]. rewrite !mult_one in K. apply K. lra.
Qed.

Section Outside.
Variables (eps ueps : R) (d : list segment).
Hypothesis He : 0 <= eps.
Hypothesis Od : ordered d.
Hypothesis Wd : Forall wf_seg d.
Hypothesis Id : Forall integrable_piece d.
Hypothesis Sd : dirac_sep eps d.
Hypothesis Ed : exists p : R, is_end d p.
Hypothesis NN : nonneg_law d.

Lemma cond_lt_atom_ok (U : R) : atoms_apart eps d U -> marks_sep ueps d [U] -> U <> 0 ->
  (exists a m, In (DiracSeg a m) d /\ U < a) ->
  exists r, cond_lt eps ueps U d = Ok r /\ pm (segs r) U = prob_above d U + pm d U /\ (forall z, z < U -> pm (segs r) z = pm d z).
Proof.
  intros CS MS U0 (a & m & Ha & AU). destruct (min_left U eps d) as (q & Q & C); auto.
  pose proof C as (C1 & C2 & C3 & C4 & C5 & C6 & C7 & C8 & C9 & C10).
  assert (HaQ : In a (dirac_pos (segs q))) by (apply C8; right; apply dirac_pos_In; eauto).
  assert (HUQ : In U (dirac_pos (segs q))) by (apply C8; auto).
  destruct (exists_last (l := segs q)) as (l & s & E). { intros E. rewrite E in HaQ. destruct HaQ. }
  assert (Hs : In s (segs q)) by (rewrite E, in_app_iff; simpl; auto).
  pose proof C1 as C1'. rewrite E in C1'. apply SS_app in C1'. destruct C1' as (Ol & _ & OB).
  assert (SA : exists a' m', s = DiracSeg a' m' /\ U < a').
  { apply dirac_pos_In in HaQ. destruct HaQ as (m0 & HaQ). rewrite E, in_app_iff in HaQ. destruct HaQ as [K|[->|[]]]; [|exists a, m0; auto].
    destruct (OB (DiracSeg a m0) s) as (G1 & G2); simpl; auto. simpl in G1, G2. destruct (isDirac s) eqn:D.
    - destruct s as [| | | |a' m'|]; try discriminate. exists a', m'. split; auto. simpl in G1. lra.
    - exfalso. destruct (C9 s Hs D) as (_ & _ & _ & G3). rewrite Forall_forall in C2. pose proof (wf_lt s D (C2 s Hs)) as G4.
      assert (K1 : Rbar_lt U (sb s)) by (apply (Rbar_lt_trans U a); auto; apply (Rbar_le_lt_trans a (sa s)); auto).
      apply (lt_irrefl U). apply (Rbar_lt_le_trans U (sb s)); auto. }
  destruct SA as (a' & m' & -> & AU').
  assert (NL : ~ In a' (dirac_pos l)). { intros K. apply dirac_pos_In in K. destruct K as (m0 & K). destruct (OB _ (DiracSeg a' m') K) as (_ & G); simpl; auto. }
  assert (PM : forall z, z <> a' -> pm l z = pm (segs q) z). { intros z N. rewrite E, pm_app, pm_cons. unfold pm1. destruct (Req_EM_T a' z); [congruence|]. change (pm [] z) with 0. ring. }
  assert (M0 : m' = 0). { assert (K : pm (segs q) a' = 0) by (apply C10; [lra|apply ind_false; intros (_ & K); simpl in K; lra]). rewrite E, pm_app, pm_cons, pm_notin in K by auto. unfold pm1, pm in K. simpl in K. destruct (Req_EM_T a' a'); [lra|congruence]. }
  subst m'.
  unfold cond_lt. rewrite point_ok. cbn [rbind]. rewrite Q. cbn [rbind]. rewrite E, pop_last_app. cbn [rbind fst snd height]. unfold rescale. destruct (reqP (1 - 0) 0); [lra|]. rewrite point_ok. cbn [rbind].
  assert (IQ := cap_integrable eps _ d m_infty U U _ C Od Wd Id).
  destruct (scale_one eps ueps d l [U] (1 / (1 - 0))) as (r & R1 & R2 & R3); auto.
  - rewrite E in C2. apply Forall_app in C2. tauto.
  - rewrite E in IQ. apply Forall_app in IQ. tauto.
  - rewrite E in C3. apply FOP_app in C3. apply C3.
  - rewrite E, dirac_pos_app, in_app_iff in HUQ. simpl in HUQ. destruct HUQ as [K|[K|[]]]; [|lra]. apply dirac_pos_In in K. destruct K as (m0 & K). exists (DiracSeg U m0). split; auto. intros m1 K1. injection K1 as K1 _. auto.
  - intros y (s & Hy & G). destruct (cap_end eps _ d m_infty U U _ C y) as [K|K]; [exists s; split; auto; rewrite E, in_app_iff; auto| |]; unfold marked; auto.
  - destruct (Req_EM_T 0 a') as [<-|N]; [rewrite pm_notin by auto; lra|]. rewrite PM by auto. destruct (ind_in m_infty U 0) eqn:Z; [rewrite C5 by auto; apply nn_pm; auto|rewrite C10 by auto; lra].
  - intros s x Hs' D. apply (cap_nonneg eps _ d m_infty U U _ C NN); auto. rewrite E, in_app_iff; auto.
  - exists r. splits; auto.
    + rewrite R2, PM, C4 by lra. field.
    + intros z Z. rewrite R2, PM, C5 by (try apply ind_in_true; try split; simpl; auto; lra). field.
Qed.

Lemma cond_between_atom_ok (L U : R) : L < U -> eps < U - L -> atoms_apart eps d L -> atoms_apart eps d U -> marks_sep ueps d [L; U] -> L <> 0 ->
  (forall a m, In (DiracSeg a m) d -> a <= U) -> (exists a m, In (DiracSeg a m) d /\ a < L) -> total_mass d = 1 -> 0 < pprob d m_infty U ->
  exists r, cond_between eps ueps L U d = Ok r /\ pm (segs r) L = cdf_spec d L / pprob d m_infty U /\ (forall z, L < z < U -> pm (segs r) z = pm d z / pprob d m_infty U).
Proof.
  intros LU EU CSL CSU MS L0 NA (a & m & Ha & AL) TM PP.
  destruct (min_right U eps d) as (q1 & Q1 & C); auto.
  pose proof C as (C1 & C2 & C3 & C4 & C5 & C6 & C7 & C8 & C9 & C10).
  assert (I1 : Forall integrable_piece (segs q1)) by (apply (cap_integrable eps _ d m_infty U U _ C); auto).
  assert (NQ1 := cap_nonneg eps _ d m_infty U U _ C NN).
  assert (D1 := cap_dens eps _ d m_infty U U _ C).
  destruct (max_right L eps (segs q1)) as (q & Q & B); auto.
  { intros a0 m0 H. assert (K : In a0 (dirac_pos (segs q1))) by (apply dirac_pos_In; eauto). apply C8 in K. destruct K as [->|K]; [right; rewrite Rabs_right; lra|].
    apply dirac_pos_In in K. destruct K as (m' & K). apply (CSL _ _ K). }
  { exists U. assert (K : In U (dirac_pos (segs q1))) by (apply C8; auto). apply dirac_pos_In in K. destruct K as (m' & K). exists (DiracSeg U m'). simpl; auto. }
  pose proof B as (B1 & B2 & B3 & B4 & B5 & B6 & B7 & B8 & B9 & B10).
  assert (I2 : Forall integrable_piece (segs q)) by (apply (cap_integrable eps _ (segs q1) L p_infty L _ B); auto).
  assert (AT : forall a m, In (DiracSeg a m) (segs q) -> a = L \/ a = U \/ a <= U).
  { intros b n H. assert (K : In b (dirac_pos (segs q))) by (apply dirac_pos_In; eauto). apply B8 in K. destruct K as [K|K]; auto. apply C8 in K. destruct K as [K|K]; auto.
    apply dirac_pos_In in K. destruct K as (m' & K). apply NA in K. auto. }
  assert (E1 : forall s, In s (segs q1) -> Rbar_le (sb s) U).
  { intros s Hs. destruct (isDirac s) eqn:D; [|destruct (C9 s Hs D); tauto]. destruct s as [| | | |b m'|]; try discriminate. simpl.
    assert (K : In b (dirac_pos (segs q1))) by (apply dirac_pos_In; eauto). apply C8 in K. destruct K as [->|K]; [lra|]. apply dirac_pos_In in K. destruct K as (m'' & K). apply NA in K. auto. }
  assert (E2 : forall s, In s (segs q) -> Rbar_le (sb s) U).
  { intros s Hs. destruct (B7 (sb s)) as [G|(s' & Hs' & G)]; [exists s; auto|rewrite G; simpl; lra|]. apply (Rbar_le_trans _ (sb s')); auto. destruct G as [-> | ->]; [|apply Rbar_le_refl].
    destruct (isDirac s') eqn:D; [destruct s'; try discriminate; apply Rbar_le_refl|]. apply Rbar_lt_le, wf_lt; auto. rewrite Forall_forall in C2. auto. }
  assert (HaQ : In a (dirac_pos (segs q))) by (apply B8; right; apply C8; right; apply dirac_pos_In; eauto).
  assert (HLQ : In L (dirac_pos (segs q))) by (apply B8; auto).
  assert (HUQ : In U (dirac_pos (segs q))) by (apply B8; right; apply C8; auto).
  (* the first piece is an empty atom below L *)
  destruct (segs q) as [|s l] eqn:E; [destruct HaQ|]. assert (Hs : In s (s :: l)) by (simpl; auto).
  pose proof B1 as B1'. apply StronglySorted_inv in B1'. destruct B1' as (Ol & OB). rewrite Forall_forall in OB.
  assert (SA : exists a' m', s = DiracSeg a' m' /\ a' < L).
  { apply dirac_pos_In in HaQ. destruct HaQ as (m0 & [->|K]); [exists a, m0; auto|].
    destruct (OB (DiracSeg a m0) K) as (G1 & G2). simpl in G1, G2. destruct (isDirac s) eqn:D.
    - destruct s as [| | | |a' m'|]; try discriminate. exists a', m'. split; auto. simpl in G1. lra.
    - exfalso. destruct (B9 s Hs D) as (_ & _ & G3 & _). rewrite Forall_forall in B2. pose proof (wf_lt s D (B2 s Hs)) as G4.
      apply (lt_irrefl L). apply (Rbar_le_lt_trans L (sa s)); auto. apply (Rbar_lt_trans _ (sb s)); auto. apply (Rbar_le_lt_trans _ a); auto. }
  destruct SA as (a' & m' & -> & AL').
  assert (NL : ~ In a' (dirac_pos l)). { intros K. apply dirac_pos_In in K. destruct K as (m0 & K). destruct (OB _ K) as (_ & G). apply G; auto. }
  assert (PM : forall z, z <> a' -> pm l z = pm (DiracSeg a' m' :: l) z). { intros z N. rewrite pm_cons. unfold pm1. destruct (Req_EM_T a' z); [congruence|]. ring. }
  assert (M0 : m' = 0). { assert (K : pm (DiracSeg a' m' :: l) a' = 0) by (apply B10; [lra|apply ind_false; intros (K & _); simpl in K; lra]). rewrite pm_cons, (pm_notin l) in K by auto. unfold pm1 in K. destruct (Req_EM_T a' a'); [lra|congruence]. }
  subst m'.
  (* the last one is the atom at U *)
  assert (U2 : In U (dirac_pos l)). { simpl in HUQ. destruct HUQ as [K|K]; [lra|auto]. }
  assert (O2 : Forall wf_seg l) by (inversion B2; auto).
  destruct (atom_split l U) as (k & mU & l3 & E' & Em' & F1' & F2' & N1' & N2'); auto.
  assert (A3 : l3 = []).
  { destruct l3 as [|s l3]; auto. exfalso. inversion F2' as [|? ? (G1 & G2) _]; subst. assert (Hq : In s (DiracSeg a' 0 :: k ++ DiracSeg U (pm (k ++ DiracSeg U mU :: s :: l3) U) :: s :: l3)) by (simpl; rewrite in_app_iff; simpl; auto).
    assert (Hq' : In s (DiracSeg a' 0 :: k ++ DiracSeg U mU :: s :: l3)) by (simpl; rewrite in_app_iff; simpl; auto). destruct (isDirac s) eqn:D.
    - destruct s as [| | | |b m'|]; try discriminate. simpl in G1, G2. destruct (AT b m' Hq') as [->|[->|K]]; [lra|tauto|]. apply G2. f_equal. lra.
    - rewrite Forall_forall in B2. pose proof (wf_lt s D (B2 s Hq')) as G4. apply (Rbar_lt_not_le (sb s) (sa s) G4). apply (Rbar_le_trans _ U); auto. }
  subst l3.
  assert (PK : forall z, z <> U -> pm k z = pm l z). { intros z N. rewrite E', pm_app, pm_cons. unfold pm1. destruct (Req_EM_T U z); [congruence|]. change (pm [] z) with 0. ring. }
  assert (M2 : mU = prob_above d U + pm d U).
  { rewrite Em', PM, B5, C4 by (try (apply ind_in_true; split; simpl; auto); lra). auto. }
  assert (M1 : pm k L = cdf_spec d L).
  { rewrite PK, PM, B4, (cdf_pprob (segs q1)), (cdf_pprob d) by (auto; lra). f_equal.
    - apply (agree_law (segs q1) d m_infty L (U :: fin_pts (getBreaks d))); auto using has_int_all; [simpl; auto| |].
      + intros t (T1 & T2) N. simpl in T2. rewrite D1; auto.
        * assert (K : ind_in m_infty U t = true) by (apply ind_in_true; split; simpl; auto; lra). rewrite K; auto.
        * intros [->|[]]. apply N; simpl; auto.
        * intros K. apply N. right. apply fin_pts_In, getBreaks_end; auto.
      + intros z (Z1 & Z2). simpl in Z2. apply C5. apply ind_in_true; split; simpl; auto; lra.
    - apply C5. apply ind_in_true; split; simpl; auto. }
  unfold cond_between. rewrite !point_ok. cbn [rbind]. rewrite Q1. cbn [rbind]. rewrite Q. cbn [rbind]. rewrite E. cbn [rbind pop_first fst snd]. rewrite E', pop_last_app.
  cbn [rbind fst snd height].
  replace (1 - (0 + mU)) with (pprob d m_infty U).
  2:{ rewrite M2. rewrite <- (tail_lt d Wd TM U). ring. }
  unfold rescale. destruct (reqP (pprob d m_infty U) 0); [lra|]. rewrite point_ok. cbn [rbind].
  assert (KQ : forall s, In s k -> In s (DiracSeg a' 0 :: l)) by (intros; simpl; right; rewrite E', in_app_iff; auto).
  destruct (scale_one eps ueps d k [L; U] (1 / pprob d m_infty U)) as (r & R1 & R2 & R3); auto.
  - rewrite E' in Ol. apply SS_app in Ol. tauto.
  - apply Forall_forall. intros s H. rewrite Forall_forall in B2. auto.
  - apply Forall_forall. intros s H. rewrite Forall_forall in I2. auto.
  - rewrite E' in B3. apply (sep_part eps [DiracSeg a' 0] k [DiracSeg U mU]). auto.
  - simpl in HLQ. destruct HLQ as [K|K]; [lra|]. rewrite E', dirac_pos_app, in_app_iff in K. simpl in K. destruct K as [K|[K|[]]]; [|lra]. apply dirac_pos_In in K. destruct K as (m0 & K). exists (DiracSeg L m0). split; auto. intros m1 K1. injection K1 as K1 _. auto.
  - intros y (s & Hy & G). destruct (B7 y) as [K|K]; [exists s; auto| |]. { injection K as ->. unfold marked; simpl; auto 6. } destruct (C7 y K) as [K'|K']. { injection K' as ->. unfold marked; simpl; auto 8. } unfold marked; auto.
  - destruct (Req_EM_T 0 U) as [<-|N]; [rewrite pm_notin by auto; lra|]. rewrite PK by auto. destruct (Req_EM_T 0 a') as [<-|N']; [rewrite pm_notin by auto; lra|]. rewrite PM by auto.
    destruct (ind_in L p_infty 0) eqn:Z; [rewrite B5 by auto|rewrite B10 by auto; lra]. destruct (ind_in m_infty U 0) eqn:Z'; [rewrite C5 by auto; apply nn_pm; auto|rewrite C10 by auto; lra].
  - intros s x Hs' D X1 X2. rewrite (kept_value _ (segs q1) L p_infty [L] B1 B2 B6 (cap_end eps _ (segs q1) L p_infty L _ B) B9 s x (KQ s Hs') D X1 X2).
    rewrite dens_sum. assert (G : forall k, (forall s, In s k -> In s (segs q1)) -> 0 <= sumR (map (fun s => dens1 s x) k)).
    { clear - NQ1. induction k as [|s' k IH]; intros G; [simpl; lra|]. cbn [map]. rewrite sumR_cons. apply Rplus_le_le_0_compat; [|apply IH; intros; apply G; simpl; auto].
      unfold dens1. destruct (isDirac s') eqn:D'; [lra|]. destruct (Rbar_lt_dec (sa s') x) as [X3|]; [|lra]. destruct (Rbar_lt_dec x (sb s')) as [X4|]; [|lra]. apply NQ1; auto. apply G; simpl; auto. }
    apply G; auto.
  - exists r. splits; auto.
    + rewrite R2, M1. field. lra.
    + intros z Z. rewrite R2, PK, PM, B5, C5 by (try apply ind_in_true; try split; simpl; auto; lra). field. lra.
Qed.
End Outside.
