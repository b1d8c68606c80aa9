(** Proofs about conditional distributions: largest and smallest of a variable and a constant. *)
From Coq Require Import Reals Lra Lia List Bool Sorted Permutation.
From Coquelicot Require Import Coquelicot.
From Verif Require Import Base Bisect Seg Piecewise PiecewiseSpec PiecewiseFacts PiecewiseFacts2 PiecewiseFacts3 PiecewiseFacts4 Integral IntegralFacts SegInt SegIntSpec IntParts IntPartsFacts Indep IndepSpec AtomFacts AtomFacts2 AtomFacts3 ConvolFacts IndepAsm ExtrFacts2 ExtrFacts3 ExtrMain TransformFacts QuotFacts CumintFacts ProdAsm ProdAsmSpec ProdAsmFacts DensLaw ProdConstFacts Discr Cond CondSpec CondFacts CondFacts2.
From Verif Require TransformSpec.
Import List ListNotations.
Open Scope R_scope.

(** q is the density of max or min of c and a variable with density d: mass w at c, d inside (lo,hi) *)
Definition capped (eps : R) (q d : list segment) (lo hi : Rbar) (c w : R) : Prop :=
  ordered q /\ Forall wf_seg q /\ dirac_sep eps q /\ pm q c = w /\
  (forall z, ind_in lo hi z = true -> pm q z = pm d z) /\
  (forall x : R, ~ In x [c] -> ~ is_end d x -> call_vec q x = if ind_in lo hi x then dens d x else 0) /\
  (forall y : Rbar, is_end q y -> y = Finite c \/ is_end d y) /\
  (forall b, In b (dirac_pos q) <-> b = c \/ In b (dirac_pos d)) /\
  (forall s, In s q -> isDirac s = false -> (integrable (sf s) (sa s) (sb s) -> integrable_piece s) /\
     (forall p : R, In p [c] \/ is_end d p -> ~ (Rbar_lt (sa s) p /\ Rbar_lt p (sb s))) /\ Rbar_le lo (sa s) /\ Rbar_le (sb s) hi) /\
  (forall z, z <> c -> ind_in lo hi z = false -> pm q z = 0).

Section Point.
Variable c : R.
Let k := [DiracSeg c 1].
Lemma pt_below x : prob_below k x = if ind_in c p_infty x then 1 else 0.
Proof.
  unfold prob_below, cdf_spec, pm, k, ind_in. simpl. destruct (Rle_dec c x), (Req_EM_T c x), (Rbar_lt_dec c x) as [A|A]; simpl in A; destruct (Rbar_lt_dec x p_infty) as [B|B]; simpl in B; try tauto; lra.
Qed.
Lemma pt_above x : prob_above k x = if ind_in m_infty c x then 1 else 0.
Proof.
  unfold prob_above, total_mass, cdf_spec, k, ind_in. simpl. destruct (Rle_dec c x), (Rbar_lt_dec x c) as [A|A]; simpl in A; destruct (Rbar_lt_dec m_infty x) as [B|B]; simpl in B; try tauto; lra.
Qed.
Lemma pt_pm z : pm k z = if Req_EM_T c z then 1 else 0.
Proof. unfold pm, k. simpl. destruct (Req_EM_T c z); ring. Qed.
Lemma pt_dens x : dens k x = 0.
Proof. unfold k. rewrite dens_sum. cbn [map]. rewrite sumR_cons. unfold dens1. simpl. ring. Qed.
Lemma pt_end (y : Rbar) : is_end k y <-> y = Finite c.
Proof.
  split.
  - intros (s & [<-|[]] & [E|E]); exact E.
  - intros ->. exists (DiracSeg c 1). simpl; auto.
Qed.
Lemma ind_self lo hi : lo = Finite c \/ hi = Finite c -> ind_in lo hi c = false.
Proof. intros H. unfold ind_in. destruct (Rbar_lt_dec lo c) as [A|A]; auto. destruct (Rbar_lt_dec c hi) as [B|B]; auto. destruct H as [-> | ->]; [apply lt_irrefl in A|apply lt_irrefl in B]; tauto. Qed.

Lemma bmax_ge p r : Rbar_le p (bmax p r) /\ Rbar_le r (bmax p r).
Proof. unfold bmax. destruct (bltP p r) as [H|H]; split; auto using Rbar_le_refl, Rbar_lt_le. apply Rbar_not_lt_le; auto. Qed.
Lemma bmin_le p r : Rbar_le (bmin p r) p /\ Rbar_le (bmin p r) r.
Proof. unfold bmin. destruct (bltP r p) as [H|H]; split; auto using Rbar_le_refl, Rbar_lt_le. apply Rbar_not_lt_le; auto. Qed.
Lemma le_p_inf x : Rbar_le x p_infty. Proof. destruct x; simpl; auto. Qed.
Lemma m_inf_le x : Rbar_le m_infty x. Proof. destruct x; simpl; auto. Qed.

Variables (eps : R) (d : list segment).
Hypothesis He : 0 <= eps.
Hypothesis Od : ordered d.
Hypothesis Wd : Forall wf_seg d.
Hypothesis Id : Forall integrable_piece d.
Hypothesis Sd : dirac_sep eps d.
Hypothesis CS : forall a m, In (DiracSeg a m) d -> a = c \/ eps < Rabs (a - c).
Hypothesis Ed : exists p : R, is_end d p.

Lemma pt_cross : cross_sep eps k d /\ cross_sep eps d k.
Proof.
  split; intros a m b n H1 H2.
  - destruct H1 as [E|[]]. injection E as <- <-. destruct (CS _ _ H2) as [->|H]; auto. right. rewrite Rabs_minus_sym; auto.
  - destruct H2 as [E|[]]. injection E as <- <-. eauto.
Qed.
Lemma max_left : exists q, convmax eps k d = Ok q /\ capped eps (segs q) d c p_infty c (cdf_spec d c).
Proof.
  destruct (max_struct eps k d) as (q & Q1 & Q2 & Q3 & Q4 & Q5 & Q6 & Q7 & Q8 & Q9); auto; try (repeat constructor; fail).
  { apply pt_cross. } { exists c. apply pt_end; auto. }
  exists q. split; auto. unfold capped. splits; auto.
  - rewrite Q4, pt_pm, pt_below, ind_self by auto. destruct (Req_EM_T c c); [|congruence]. unfold prob_below. ring.
  - intros z Z. rewrite Q4, pt_pm, pt_below, Z. destruct (Req_EM_T c z) as [<-|N]; [rewrite ind_self in Z by auto; discriminate|ring].
  - intros x X1 X2. rewrite Q5; auto; [|rewrite pt_end; intros E; injection E as <-; simpl in X1; tauto]. rewrite pt_dens, pt_below. destruct (ind_in c p_infty x); ring.
  - intros y Y. apply Q6 in Y. rewrite pt_end in Y. tauto.
  - intros b. rewrite Q8. simpl. intuition.
  - intros s Hs D. destruct (Q9 s Hs D) as (A & B & (p & r & C1 & C2 & C3) & _). splits; auto using le_p_inf.
    + intros p' [[<-|[]]|H]; [apply B; left; apply pt_end; auto|apply B; auto].
    + rewrite C3. apply pt_end in C1. subst. apply bmax_ge.
  - intros z N Z. rewrite Q4, pt_pm, pt_below, Z. destruct (Req_EM_T c z); [congruence|ring].
Qed.
Lemma max_right : exists q, convmax eps d k = Ok q /\ capped eps (segs q) d c p_infty c (cdf_spec d c).
Proof.
  destruct (max_struct eps d k) as (q & Q1 & Q2 & Q3 & Q4 & Q5 & Q6 & Q7 & Q8 & Q9); auto; try (repeat constructor; fail).
  { apply pt_cross. } { exists c. apply pt_end; auto. }
  exists q. split; auto. unfold capped. splits; auto.
  - rewrite Q4, pt_pm, pt_below, ind_self by auto. destruct (Req_EM_T c c); [|congruence]. unfold prob_below. ring.
  - intros z Z. rewrite Q4, pt_pm, pt_below, Z. destruct (Req_EM_T c z) as [<-|N]; [rewrite ind_self in Z by auto; discriminate|ring].
  - intros x X1 X2. rewrite Q5; auto; [|rewrite pt_end; intros E; injection E as <-; simpl in X1; tauto]. rewrite pt_dens, pt_below. destruct (ind_in c p_infty x); ring.
  - intros y Y. apply Q6 in Y. rewrite pt_end in Y. tauto.
  - intros b. rewrite Q8. simpl. intuition.
  - intros s Hs D. destruct (Q9 s Hs D) as (A & B & (p & r & C1 & C2 & C3) & _). splits; auto using le_p_inf.
    + intros p' [[<-|[]]|H]; [apply B; right; apply pt_end; auto|apply B; auto].
    + rewrite C3. apply pt_end in C2. subst. apply bmax_ge.
  - intros z N Z. rewrite Q4, pt_pm, pt_below, Z. destruct (Req_EM_T c z); [congruence|ring].
Qed.
Lemma min_left : exists q, convmin eps k d = Ok q /\ capped eps (segs q) d m_infty c c (prob_above d c + pm d c).
Proof.
  destruct (min_struct eps k d) as (q & Q1 & Q2 & Q3 & Q4 & Q5 & Q6 & Q7 & Q8 & Q9); auto; try (repeat constructor; fail).
  { apply pt_cross. } { exists c. apply pt_end; auto. }
  exists q. split; auto. unfold capped. splits; auto.
  - rewrite Q4, pt_pm, pt_above, ind_self by auto. destruct (Req_EM_T c c); [|congruence]. ring.
  - intros z Z. rewrite Q4, pt_pm, pt_above, Z. destruct (Req_EM_T c z) as [<-|N]; [rewrite ind_self in Z by auto; discriminate|ring].
  - intros x X1 X2. rewrite Q5; auto; [|rewrite pt_end; intros E; injection E as <-; simpl in X1; tauto]. rewrite pt_dens, pt_above. destruct (ind_in m_infty c x); ring.
  - intros y Y. apply Q6 in Y. rewrite pt_end in Y. tauto.
  - intros b. rewrite Q8. simpl. intuition.
  - intros s Hs D. destruct (Q9 s Hs D) as (A & B & _ & (p & r & C1 & C2 & C3)). splits; auto using m_inf_le.
    + intros p' [[<-|[]]|H]; [apply B; left; apply pt_end; auto|apply B; auto].
    + rewrite C3. apply pt_end in C1. subst. apply bmin_le.
  - intros z N Z. rewrite Q4, pt_pm, pt_above, Z. destruct (Req_EM_T c z); [congruence|ring].
Qed.
Lemma min_right : exists q, convmin eps d k = Ok q /\ capped eps (segs q) d m_infty c c (prob_above d c + pm d c).
Proof.
  destruct (min_struct eps d k) as (q & Q1 & Q2 & Q3 & Q4 & Q5 & Q6 & Q7 & Q8 & Q9); auto; try (repeat constructor; fail).
  { apply pt_cross. } { exists c. apply pt_end; auto. }
  exists q. split; auto. unfold capped. splits; auto.
  - rewrite Q4, pt_pm, pt_above, ind_self by auto. destruct (Req_EM_T c c); [|congruence]. ring.
  - intros z Z. rewrite Q4, pt_pm, pt_above, Z. destruct (Req_EM_T c z) as [<-|N]; [rewrite ind_self in Z by auto; discriminate|ring].
  - intros x X1 X2. rewrite Q5; auto; [|rewrite pt_end; intros E; injection E as <-; simpl in X1; tauto]. rewrite pt_dens, pt_above. destruct (ind_in m_infty c x); ring.
  - intros y Y. apply Q6 in Y. rewrite pt_end in Y. tauto.
  - intros b. rewrite Q8. simpl. intuition.
  - intros s Hs D. destruct (Q9 s Hs D) as (A & B & _ & (p & r & C1 & C2 & C3)). splits; auto using m_inf_le.
    + intros p' [[<-|[]]|H]; [apply B; right; apply pt_end; auto|apply B; auto].
    + rewrite C3. apply pt_end in C2. subst. apply bmin_le.
  - intros z N Z. rewrite Q4, pt_pm, pt_above, Z. destruct (Req_EM_T c z); [congruence|ring].
Qed.
End Point.

(** an atom splits the pieces *)
Lemma atom_split q c : ordered q -> Forall wf_seg q -> In c (dirac_pos q) -> exists l1 m l2, q = l1 ++ DiracSeg c m :: l2 /\ m = pm q c /\
  Forall (fun s => Rbar_le (sb s) c /\ sa s <> Finite c) l1 /\ Forall (fun s => Rbar_le c (sa s) /\ sb s <> Finite c) l2 /\ ~ In c (dirac_pos l1) /\ ~ In c (dirac_pos l2).
Proof.
  intros O W H. apply dirac_pos_In in H. destruct H as (m & H). destruct (in_split _ _ H) as (l1 & l2 & ->). exists l1, m, l2.
  apply SS_app in O. destruct O as (_ & O2 & O3). apply StronglySorted_inv in O2. destruct O2 as (_ & F).
  assert (A : Forall (fun s => Rbar_le (sb s) c /\ sa s <> Finite c) l1).
  { apply Forall_forall. intros s Hs. apply (O3 s (DiracSeg c m)); simpl; auto. }
  assert (B : Forall (fun s => Rbar_le c (sa s) /\ sb s <> Finite c) l2).
  { eapply Forall_impl; [|exact F]. intros s (B1 & B2). split; auto. }
  assert (N1 : ~ In c (dirac_pos l1)). { intros K. apply dirac_pos_In in K. destruct K as (m' & K). rewrite Forall_forall in A. apply A in K. destruct K as (_ & K). apply K; auto. }
  assert (N2 : ~ In c (dirac_pos l2)). { intros K. apply dirac_pos_In in K. destruct K as (m' & K). rewrite Forall_forall in B. apply B in K. destruct K as (_ & K). apply K; auto. }
  splits; auto. rewrite pm_app, pm_cons, !pm_notin by auto. unfold pm1. destruct (Req_EM_T c c); [ring|congruence].
Qed.

Section Capped.
Variables (eps : R) (q d : list segment) (lo hi : Rbar) (c w : R).
Hypothesis C : capped eps q d lo hi c w.
Hypothesis Od : ordered d.
Hypothesis Wd : Forall wf_seg d.
Hypothesis Id : Forall integrable_piece d.
Hypothesis NN : nonneg_law d.
Lemma cap_end (y : R) : is_end q y -> In y [c] \/ is_end d y.
Proof. intros H. destruct C as (_ & _ & _ & _ & _ & _ & E & _). destruct (E y H) as [K|K]; auto. injection K as ->. simpl; auto. Qed.
Lemma cap_integrable : Forall integrable_piece q.
Proof. destruct C as (C1 & C2 & C3 & C4 & C5 & C6 & C7 & C8 & C9 & C10). apply (kept_integrable q d lo hi [c]); auto using cap_end. Qed.
Lemma cap_nonneg s (x : R) : In s q -> isDirac s = false -> Rbar_lt (sa s) x -> Rbar_lt x (sb s) -> 0 <= sf s x.
Proof. destruct C as (C1 & C2 & C3 & C4 & C5 & C6 & C7 & C8 & C9 & C10). intros. rewrite (kept_value q d lo hi [c] C1 C2 C6 cap_end C9) by auto. apply nn_dens; auto. Qed.
Lemma cap_dens (t : R) : ~ In t [c] -> ~ is_end d t -> dens q t = if ind_in lo hi t then dens d t else 0.
Proof. destruct C as (C1 & C2 & C3 & C4 & C5 & C6 & C7 & C8 & C9 & C10). apply (kept_dens q d lo hi [c]); auto using cap_end. Qed.
End Capped.
