(** Proofs about conditional distributions: pieces kept and their rescaling. *)
From Coq Require Import Reals Lra Lia List Bool Sorted Permutation.
From Coquelicot Require Import Coquelicot.
From Verif Require Import Base Bisect Seg Piecewise PiecewiseSpec PiecewiseFacts PiecewiseFacts2 PiecewiseFacts3 PiecewiseFacts4 Integral IntegralFacts SegInt SegIntSpec IntParts IntPartsFacts Indep IndepSpec AtomFacts AtomFacts2 AtomFacts3 ConvolFacts IndepAsm ExtrFacts2 ExtrFacts3 TransformFacts QuotFacts CumintFacts ProdAsm ProdAsmSpec ProdAsmFacts DensLaw ProdConstFacts Discr Cond CondSpec CondFacts.
From Verif Require TransformSpec.
Import List ListNotations.
Open Scope R_scope.

Lemma dens_at l s (t : R) : ordered l -> In s l -> isDirac s = false -> Rbar_lt (sa s) t -> Rbar_lt t (sb s) -> dens l t = sf s t.
Proof.
  intros O Hs D T1 T2. rewrite dens_sum. destruct (in_split _ _ Hs) as (l1 & l2 & ->). rewrite map_app, sumR_app. cbn [map]. rewrite sumR_cons.
  assert (Z : forall s', In s' l1 \/ In s' l2 -> dens1 s' t = 0).
  { intros s' Hs'. unfold dens1. destruct (isDirac s') eqn:D'; auto. destruct (Rbar_lt_dec (sa s') t) as [A'|A']; auto. destruct (Rbar_lt_dec t (sb s')) as [B'|B']; auto. exfalso.
    assert (K : before s' s \/ before s s').
    { apply SS_app in O. destruct O as (_ & O2 & O3). apply StronglySorted_inv in O2. destruct O2 as (_ & F). rewrite Forall_forall in F.
      destruct Hs' as [H|H]; [left; apply O3; simpl; auto|right; apply F; auto]. }
    destruct K as [(K & _)|(K & _)].
    - pose proof (Rbar_lt_le_trans _ _ _ B' K) as M. apply (lt_irrefl t (Rbar_lt_trans t (sa s) t M T1)); auto.
    - pose proof (Rbar_lt_le_trans _ _ _ T2 K) as M. apply (lt_irrefl t (Rbar_lt_trans t (sa s') t M A')); auto. }
  assert (S0 : forall k, (forall s', In s' k -> dens1 s' t = 0) -> sumR (map (fun s => dens1 s t) k) = 0).
  { intros k. induction k as [|s' k IH]; intros K; auto. cbn [map]. rewrite sumR_cons, K, IH; simpl; auto; [ring|]. intros; apply K; simpl; auto. }
  rewrite !S0 by auto. unfold dens1. rewrite D. destruct (Rbar_lt_dec (sa s) t); [|tauto]. destruct (Rbar_lt_dec t (sb s)); [ring|tauto].
Qed.
Lemma has_int_all l : Forall integrable_piece l -> Forall TransformSpec.has_int l.
Proof. intros H. eapply Forall_impl; [|exact H]. intros; apply piece_has_int; auto. Qed.

Lemma nn_dens d (t : R) : nonneg_law d -> 0 <= dens d t.
Proof.
  intros NN. rewrite dens_sum. induction NN as [|s k H N IH]; [simpl; lra|]. cbn [map]. rewrite sumR_cons. apply Rplus_le_le_0_compat; auto.
  unfold dens1. destruct (isDirac s) eqn:D; [lra|]. destruct (Rbar_lt_dec (sa s) t) as [A|A]; [|lra]. destruct (Rbar_lt_dec t (sb s)) as [B|B]; [|lra]. destruct s; try discriminate; auto.
Qed.
Lemma nn_pm d (z : R) : nonneg_law d -> 0 <= pm d z.
Proof.
  intros NN. induction NN as [|s k H N IH]; [unfold pm; simpl; lra|]. rewrite pm_cons. apply Rplus_le_le_0_compat; auto. unfold pm1. destruct s; try lra. destruct (Req_EM_T a z); lra.
Qed.

Section Kept.
Variables (q d : list segment) (lo hi : Rbar) (pts : list R).
Hypothesis Oq : ordered q.
Hypothesis Wq : Forall wf_seg q.
Hypothesis Od : ordered d.
Hypothesis Wd : Forall wf_seg d.
Hypothesis Id : Forall integrable_piece d.
Hypothesis CV : forall x : R, ~ In x pts -> ~ is_end d x -> call_vec q x = if ind_in lo hi x then dens d x else 0.
Hypothesis EN : forall y : R, is_end q y -> In y pts \/ is_end d y.
Hypothesis PC : forall s, In s q -> isDirac s = false -> (integrable (sf s) (sa s) (sb s) -> integrable_piece s) /\
   (forall p : R, In p pts \/ is_end d p -> ~ (Rbar_lt (sa s) p /\ Rbar_lt p (sb s))) /\ Rbar_le lo (sa s) /\ Rbar_le (sb s) hi.

Lemma kept_value s (x : R) : In s q -> isDirac s = false -> Rbar_lt (sa s) x -> Rbar_lt x (sb s) -> sf s x = dens d x.
Proof.
  intros Hs D A B. destruct (PC s Hs D) as (_ & P2 & P3 & P4).
  assert (N : ~ (In x pts \/ is_end d x)) by (intros K; apply (P2 x K); auto).
  rewrite <- (dens_at q s x), (dens_call_vec q x), CV; auto.
  assert (E : ind_in lo hi x = true). { apply ind_in_true. split; [apply (Rbar_le_lt_trans lo (sa s) x)|apply (Rbar_lt_le_trans x (sb s) hi)]; auto. }
  rewrite E; auto.
Qed.
Lemma kept_integrable : Forall integrable_piece q.
Proof.
  apply Forall_forall. intros s Hs. destruct (isDirac s) eqn:D; [destruct s; try discriminate; exact I|].
  destruct (PC s Hs D) as (P1 & P2 & P3 & P4). apply P1.
  assert (L : Rbar_lt (sa s) (sb s)) by (rewrite Forall_forall in Wq; apply wf_lt; auto).
  apply (integrable_ext (dens d)); [intros x (X1 & X2); symmetry; apply kept_value; auto|].
  destruct (dens_between d (sa s) (sb s) L Od Wd) as [(s' & Hs' & D' & A & B & E)|E].
  - intros p Hp. apply P2. auto.
  - apply (integrable_ext (sf s')); [intros x X; symmetry; auto|]. apply (integrable_sub _ (sa s') (sb s')); auto. rewrite Forall_forall in Id. apply piece_has_int; auto.
  - apply integrable_zero; auto.
Qed.
(** density of the whole function *)
Lemma kept_dens (t : R) : ~ In t pts -> ~ is_end d t -> dens q t = if ind_in lo hi t then dens d t else 0.
Proof. intros N1 N2. rewrite dens_call_vec; auto. intros K. apply EN in K. tauto. Qed.

End Kept.

Section Rest.
Variables (q d : list segment) (lo hi : Rbar) (pts : list R).
Hypothesis Oq : ordered q.
Hypothesis Wq : Forall wf_seg q.
Hypothesis Iq : Forall integrable_piece q.
Hypothesis NQ : forall s (x : R), In s q -> isDirac s = false -> Rbar_lt (sa s) x -> Rbar_lt x (sb s) -> 0 <= sf s x.
Hypothesis Od : ordered d.
Hypothesis Wd : Forall wf_seg d.
Hypothesis Id : Forall integrable_piece d.
Hypothesis DQ : forall t : R, ~ In t pts -> ~ is_end d t -> dens q t = if ind_in lo hi t then dens d t else 0.
Hypothesis EN : forall y : R, is_end q y -> In y pts \/ is_end d y.
(** the pieces that remain *)
Variables (l1 l l3 : list segment).
Hypothesis Eq : q = l1 ++ l ++ l3.
Hypothesis K1 : Forall (fun s => exists a m, s = DiracSeg a m /\ ind_in lo hi a = false) l1.
Hypothesis K3 : Forall (fun s => exists a m, s = DiracSeg a m /\ ind_in lo hi a = false) l3.
Hypothesis K2 : forall a m, In (DiracSeg a m) l -> ind_in lo hi a = true.
Hypothesis PQ : forall z, ind_in lo hi z = true -> pm q z = pm d z.

Lemma out_pm k z : Forall (fun s => exists a m, s = DiracSeg a m /\ ind_in lo hi a = false) k -> ind_in lo hi z = true -> pm k z = 0.
Proof.
  intros F Z. apply pm_notin. intros H. apply dirac_pos_In in H. destruct H as (m & H). rewrite Forall_forall in F. destruct (F _ H) as (a & m' & E & N). injection E as -> ->. congruence.
Qed.
Lemma out_dens k t : Forall (fun s => exists a m, s = DiracSeg a m /\ ind_in lo hi a = false) k -> dens k t = 0.
Proof.
  induction 1 as [|s k (a & m & -> & _) F IH]; auto. rewrite dens_sum in *. cbn [map]. rewrite sumR_cons, IH. unfold dens1. simpl. ring.
Qed.
Lemma rest_dens (t : R) : ~ In t pts -> ~ is_end d t -> dens l t = if ind_in lo hi t then dens d t else 0.
Proof.
  intros N1 N2. rewrite <- DQ by auto. rewrite Eq, !dens_sum, !map_app, !sumR_app, <- !dens_sum, (out_dens l1), (out_dens l3); auto. ring.
Qed.
Lemma rest_pm z : pm l z = if ind_in lo hi z then pm d z else 0.
Proof.
  destruct (ind_in lo hi z) eqn:E.
  - rewrite <- PQ by auto. rewrite Eq, !pm_app, (out_pm l1), (out_pm l3); auto. ring.
  - apply pm_notin. intros H. apply dirac_pos_In in H. destruct H as (m & H). apply K2 in H. congruence.
Qed.
Lemma rest_in s : In s l -> In s q.
Proof. intros H. rewrite Eq, !in_app_iff. auto. Qed.
Lemma rest_ordered : ordered l /\ Forall wf_seg l /\ Forall integrable_piece l.
Proof.
  split; [|split].
  - unfold ordered in *. rewrite Eq in Oq. apply SS_app in Oq. destruct Oq as (_ & O & _). apply SS_app in O. tauto.
  - apply Forall_forall. intros s Hs. rewrite Forall_forall in Wq. apply Wq, rest_in; auto.
  - apply Forall_forall. intros s Hs. rewrite Forall_forall in Iq. apply Iq, rest_in; auto.
Qed.
Lemma rest_law u v : Rbar_lt u v -> pprob l u v = pprob d (rmaxb u lo) (rminb v hi).
Proof.
  intros L. destruct rest_ordered as (_ & W & I).
  apply (restrict_law l d lo hi (pts ++ fin_pts (getBreaks d))); auto using has_int_all.
  - intros t N. apply rest_dens; [intros K|intros K]; apply N; apply in_app_iff; auto. right. apply fin_pts_In, getBreaks_end; auto.
  - apply rest_pm.
Qed.
Lemma rest_ends (y : R) : is_end l y -> marked d pts y.
Proof. intros (s & Hs & E). destruct (EN y) as [K|K]; [exists s; split; auto; apply rest_in; auto| |]; unfold marked; auto. Qed.
Lemma rest_total : pprob l m_infty p_infty = pprob d lo hi.
Proof.
  rewrite rest_law by (simpl; auto). unfold TransformSpec.rmaxb, TransformSpec.rminb. f_equal.
  - destruct (Rbar_le_dec m_infty lo) as [K|K]; auto. exfalso. apply K. destruct lo; simpl; auto.
  - destruct (Rbar_le_dec p_infty hi) as [K|K]; auto. destruct hi; simpl in *; tauto.
Qed.

(** rescaling *)
Variables (eps ueps : R).
Hypothesis He : 0 <= eps.
Hypothesis Sl : dirac_sep eps l.
Hypothesis NN : nonneg_law d.
Hypothesis PP : 0 < pprob d lo hi.
Hypothesis P0 : ind_in lo hi 0 = true -> pm d 0 < pprob d lo hi.
Hypothesis MS : marks_sep ueps d pts.

Lemma point_ok c p : point_pdf eps c p = Ok [DiracSeg c p].
Proof. reflexivity. Qed.
Lemma mult_one x : Rbar_mult x 1 = x.
Proof. rewrite Rbar_mult_comm. destruct x as [x| |]; [simpl; f_equal; ring|apply mul_p_inf; lra|apply mul_p_inf; lra]. Qed.
Lemma rest_not_zero : not_zero l.
Proof.
  destruct (Exists_dec (fun s => isDirac s = false \/ sa s <> Finite 0) l) as [E|E].
  { intros s. destruct (Bool.bool_dec (isDirac s) false); [auto|]. destruct (Rbar_eq_dec (sa s) 0); [right; tauto|auto]. }
  - apply Exists_exists in E. destruct E as (s & Hs & [K|K]); exists s; split; auto; intros m ->; [discriminate|]. apply K; auto.
  - exfalso.
    assert (A : forall s, In s l -> exists m, s = DiracSeg 0 m).
    { intros s Hs. destruct s as [| | | |a m|]; try (exfalso; apply E; apply Exists_exists; eexists; split; [exact Hs|left; reflexivity]).
      destruct (Req_EM_T a 0) as [->|N]; eauto. exfalso. apply E. apply Exists_exists. eexists; split; [exact Hs|right]. simpl. intros K. injection K; auto. }
    assert (T : pprob l m_infty p_infty = pm l 0).
    { unfold TransformSpec.pprob, pm. apply sumR_ext. intros s Hs. destruct (A s Hs) as (m & ->). cbn [TransformSpec.prob].
      destruct (Rbar_lt_dec m_infty 0) as [_|K]; [|simpl in K; tauto]. destruct (Rbar_lt_dec 0 p_infty) as [_|K]; [|simpl in K; tauto]. destruct (Req_EM_T 0 0); congruence. }
    rewrite rest_total, rest_pm in T. destruct (ind_in lo hi 0); [specialize (P0 eq_refl); lra|lra].
Qed.
Lemma rescale_ok : exists r, rescale eps ueps l (pprob d lo hi) = Ok r /\ good eps (segs r) /\ Forall integrable_piece (segs r) /\
  (forall u v, Rbar_lt u v -> pprob (segs r) u v = pprob d (rmaxb u lo) (rminb v hi) / pprob d lo hi) /\ total_mass (segs r) = 1 /\
  (forall z, pm (segs r) z = if ind_in lo hi z then pm d z / pprob d lo hi else 0).
Proof.
  unfold rescale. destruct (reqP (pprob d lo hi) 0) as [E|_]; [lra|]. rewrite point_ok. cbn [rbind]. set (w := 1 / pprob d lo hi).
  destruct rest_ordered as (O & W & I).
  assert (CE : forall (p : R), cut_end l p -> marked d pts p).
  { intros p [K|(K & _)]; [apply rest_ends; auto|]. unfold marked. destruct K as [K|[K|K]]; injection K; auto. }
  destruct (const_law eps ueps l 1 w) as (r & R1 & R2 & R3 & R4 & R5 & R6 & R7); auto.
  - apply rest_not_zero.
  - intros u v Hu Hv L. assert (C1 : 1 <> 0) by lra. apply (c_prod l 1 w C1) in Hu. apply (c_prod l 1 w C1) in Hv. replace (u / 1) with u in Hu by field. replace (v / 1) with v in Hv by field. apply MS; auto.
  - unfold cont_mass. assert (H : forall s, In s (getSegments l) -> 0 <= mass s).
    { intros s Hs. unfold getSegments in Hs. apply filter_In in Hs. destruct Hs as (Hs & D). unfold isSegment in D. apply negb_true_iff in D.
      pose proof W as W'. pose proof I as I'. rewrite Forall_forall in W', I'. rewrite mass_Q by auto. apply Q_nonneg; [apply piece_has_int; auto|].
      intros x (X1 & X2). apply NQ; auto. apply rest_in; auto. }
    induction (getSegments l) as [|s k IH]; [simpl; lra|]. cbn [map]. rewrite sumR_cons. apply Rplus_le_le_0_compat; [apply H; simpl; auto|apply IH; intros; apply H; simpl; auto].
  - rewrite rest_pm. destruct (ind_in lo hi 0); [apply nn_pm; auto|lra].
  - intros x m y k x' m' y' k' Hx [E|[]] Hx' [E'|[]]. injection E as <- <-. injection E' as <- <-. rewrite !Rmult_1_r.
    destruct (Req_EM_T x x'); auto. right. apply (proj1 (dirac_sep_iff eps l He) Sl); auto; apply dirac_pos_In; eauto.
  - exists r. unfold w in *. splits; auto.
    + intros u v L. destruct (R7 u v L) as (K & _). rewrite !mult_one in K. rewrite K, rest_law by (auto; lra). field. lra.
    + rewrite total_mass_pprob by apply R2. destruct (R7 m_infty p_infty) as (K & _); [simpl; auto|]. rewrite !mult_one in K. rewrite K, rest_total by lra. field. lra.
    + intros z. rewrite R4. replace (z / 1) with z by field. rewrite rest_pm. destruct (ind_in lo hi z); field; lra.
Qed.
End Rest.
