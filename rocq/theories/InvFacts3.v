(** Proofs about the levels the inverse loses, and about the complementary distribution function. *)
From Coq Require Import Reals Lra Lia List Bool Arith Sorted Permutation.
From Coquelicot Require Import Coquelicot.
From Verif Require Import Base Bisect Seg Piecewise PiecewiseSpec PiecewiseFacts PiecewiseFacts2 PiecewiseMain Integral IntegralFacts SegInt SegIntSpec SegIntFacts CumintFacts CumintFacts2
  Quant QuantSpec QuantFacts QuantFacts2 QuantMain Wide WideMain Std StdSpec StdFacts StdFacts2 StdMain Inv InvSpec InvFacts InvFacts2.
Import List ListNotations.
Open Scope R_scope.

Lemma In_cums l s : In s l -> isDirac s = false -> forall f0, exists k, In (cumpiece s k) (cums l f0).
Proof.
  induction l as [|t l IH]; intros I D f0; [destruct I|]. destruct I as [->|I].
  - exists f0. cbn [cums]. rewrite D. simpl. auto.
  - destruct (IH I D (f0 + cmass t)) as (k & K). exists k. cbn [cums]. apply in_or_app. auto.
Qed.

Lemma sum_no_atoms l x : Forall (fun s => isDirac s = false) l -> sumR (map (fun s => atom_at s x) l) = 0.
Proof.
  induction l as [|s l IH]; intros H; [reflexivity|]. inversion H as [|? ? D F]; subst. change (atom_at s x + sumR (map (fun s => atom_at s x) l) = 0).
  rewrite (IH F). destruct s; try discriminate D; simpl; ring.
Qed.

Section Lost.
Variables (eps : R) (l : list segment) (c : pwf) (vinf : segment -> R).
Hypothesis DL : density l.
Hypothesis NN : Forall nonneg_piece l.
Hypothesis TM : total_mass l = 1.
Hypothesis E : cumint eps l = Ok c.
Hypothesis EL : end_limits vinf (segs c).
Let tab := inv_tab (getSegVals vinf (segs c)) (cF l 0).
Let ub := epsunique (1 / 10000) (map Finite tab).

(** the value at the left end of a piece is a break value *)
Lemma left_value s (a : R) : In s l -> isDirac s = false -> sa s = a -> In (cF l a) tab.
Proof.
  intros Is D Ea. apply (tab_in l c vinf). right.
  destruct (cumint_pieces eps l DL) as (q1 & lead & tail & a0 & b0 & E1 & P1 & SQ & C & PQ & _ & HL & HT). rewrite E in E1. injection E1 as <-.
  destruct (In_cums l s Is D 0) as (k & K). assert (It : In (cumpiece s k) (segs c)) by (rewrite SQ; apply in_or_app; right; apply in_or_app; auto).
  exists (cumpiece s k). split; auto. left. symmetry. destruct (cumpiece_ends s k) as (A1 & _).
  destruct (lo_finite vinf (cF l) (segs c) C (fun t Ht => pieces_ok eps l c t DL E Ht) (cumpiece s k) a It) as (A & _); [congruence|auto].
Qed.
(** a break value close to another one below it is lost *)
Lemma lost u v : In u tab -> u < v -> v - u <= 1 / 10000 -> v <= 1 -> 0 <= v -> ~ In (Finite v) ub.
Proof.
  intros U L G V1 V0 K. apply (epsunique_gap (1 / 10000) (map Finite tab) u v) in K; auto; [|apply in_map; auto].
  rewrite Rmax_left in K by (rewrite Rabs_pos_eq; lra). lra.
Qed.

Section Fine.
Hypothesis NA : Forall (fun s => isDirac s = false) l.
Hypothesis BD : forall s, In s l -> is_finite (sa s) /\ is_finite (sb s) /\ mass s <= 1 / 10000.

Lemma join t u (b : R) : In t (segs c) -> In u (segs c) -> sb t = b -> sa u = b -> hi vinf t = lo vinf u.
Proof.
  intros It Iu Eb Ea. pose proof (cq_cont eps l c DL E) as C.
  assert (PO : forall t, In t (segs c) -> exists h, continuity h /\ (forall x : R, Rbar_le (sa t) x -> Rbar_le x (sb t) -> sf t x = h x) /\ (forall x : R, covers t x -> h x = cF l x))
    by (intros; eapply pieces_ok; eauto).
  destruct (lo_finite vinf (cF l) (segs c) C PO u b Iu Ea) as (-> & _).
  destruct (hi_finite vinf (cF l) (segs c) 0 ltac:(lra) (cq_mono l DL NN) C PO t b It Eb) as (_ & _ & ->).
  destruct (PO t It) as (h & H1 & H2 & H3).
  assert (HB : Rbar_lt (sa t) b). { rewrite <- Eb. rewrite Forall_forall in C. destruct (C t It) as (D1 & D2). apply nd_lt; auto. }
  rewrite (H2 b) by (first [apply Rbar_lt_le; exact HB|rewrite Eb; apply Rbar_le_refl]).
  eapply (filterlim_locally_unique (F := at_left b) (cF l)).
  - apply (filterlim_ext_loc h).
    + generalize (at_left_lt b (sa t) HB). apply filter_imp. intros x (X1 & X2). apply H3. split; [apply Rbar_lt_le; auto|rewrite Eb; auto].
    + apply (filterlim_filter_le_1 (F := locally b) (G := at_left b) h); [apply filter_le_within|]. apply continuity_pt_filterlim. apply H1.
  - destruct DL as (_ & W & HI & _). pose proof (cF_left_lim l W HI b) as K. rewrite sum_no_atoms, Rminus_0_r in K by auto. exact K.
Qed.

Lemma step t : In t (segs c) -> hi vinf t - lo vinf t <= 1 / 10000.
Proof.
  intros It. pose proof (cq_cont eps l c DL E) as C. pose proof (cq_path eps l c DL E) as PT.
  assert (PO : forall t, In t (segs c) -> exists h, continuity h /\ (forall x : R, Rbar_le (sa t) x -> Rbar_le x (sb t) -> sf t x = h x) /\ (forall x : R, covers t x -> h x = cF l x))
    by (intros; eapply pieces_ok; eauto).
  pose proof (cq_mono l DL NN) as MO.
  destruct (cumint_pieces eps l DL) as (q1 & lead & tail & a0 & b0 & E1 & P1 & SQ & _ & PQ & _ & HL & HT). rewrite E in E1. injection E1 as <-.
  pose proof It as It'. rewrite SQ in It. apply in_app_or in It. destruct DL as (_ & W & HI & _). destruct It as [It|It].
  - destruct HL as [->|(r & Ea & ->)]; [destruct It|]. destruct It as [<-|[]].
    destruct (hi_finite vinf (cF l) (segs c) 0 ltac:(lra) MO C PO _ r It' eq_refl) as (_ & _ & ->). simpl sf.
    rewrite (lo_minf vinf (segs c) (cq_m eps l c vinf DL E EL) _ It' eq_refl). lra.
  - apply in_app_or in It. destruct It as [It|It].
    + destruct (cums_In l 0 t It) as (s & k & Is & D & ->). destruct (BD s Is) as (Fa & Fb & M).
      rewrite Forall_forall in W, HI. pose proof (W s Is) as Ws. rewrite <- (cmass_mass s Ws) in M.
      destruct (cumpiece_ends s k) as (A1 & A2 & _). unfold is_finite in Fa, Fb. 
      rewrite <- Fa in A1. rewrite <- Fb in A2.
      destruct (lo_finite vinf (cF l) (segs c) C PO _ _ It' A1) as (_ & ->).
      destruct (hi_finite vinf (cF l) (segs c) 0 ltac:(lra) MO C PO _ _ It' A2) as (_ & _ & ->).
      assert (LE : Rbar_le (sa s) (sb s)) by (apply Rbar_lt_le, nd_lt; auto).
      unfold cumpiece. rewrite !cumint_value; auto; rewrite ?Fa, ?Fb; auto using Rbar_le_refl.
      assert (Z : cpart s (real (sa s)) = 0).
      { destruct (cpart_G s D Ws (HI s Is)) as (G & _ & HG). rewrite HG, Fa, clamp_id by auto using Rbar_le_refl. ring. }
      assert (Z2 : cpart s (real (sb s)) = cmass s).
      { destruct (cpart_G s D Ws (HI s Is)) as (G & PG & HG). rewrite HG, Fb, clamp_id by auto using Rbar_le_refl. symmetry. apply cmass_G; auto. }
      rewrite Z, Z2. lra.
    + destruct HT as [->|(r & Eb & ->)]; [destruct It|]. destruct It as [<-|[]].
      destruct (lo_finite vinf (cF l) (segs c) C PO _ r It' eq_refl) as (_ & ->). simpl sf.
      rewrite (hi_pinf vinf (segs c) (cq_p eps l c vinf DL TM E EL) _ It' eq_refl), <- (cmasses_spec l W), TM. lra.
Qed.

Lemma between v : forall L a b, (forall t, In t L -> In t (segs c)) -> L <> [] -> path a L b -> (forall t r, L = t :: r -> lo vinf t < v) -> (forall t r, L = r ++ [t] -> v <= hi vinf t) ->
  exists t, In t (segs c) /\ lo vinf t < v <= hi vinf t.
Proof.
  induction L as [|t L IH]; intros a b I N P H T; [congruence|]. destruct (Rle_lt_dec v (hi vinf t)) as [K|K].
  - exists t. split; [apply I; simpl; auto|]. split; auto. apply (H t L); auto.
  - destruct L as [|u L]; [exfalso; specialize (T t [] eq_refl); lra|].
    destruct P as (_ & P). apply (IH (sb t) b); auto; try discriminate.
    + intros x Hx. apply I. simpl; auto.
    + intros x r [= <- <-]. destruct P as (P & _).
      assert (It : In t (segs c)) by (apply I; simpl; auto). assert (Iu : In u (segs c)) by (apply I; simpl; auto).
      pose proof (cq_cont eps l c DL E) as C. rewrite Forall_forall in C. pose proof (proj2 (C u Iu)) as Wu. pose proof (proj2 (C t It)) as Wt. pose proof (proj1 (C t It)) as Dt. pose proof (proj1 (C u Iu)) as Du.
      destruct (sa u) as [b0| |] eqn:Ea.
      * rewrite <- (join t u b0); auto.
      * exfalso. destruct u; discriminate.
      * exfalso. destruct t; simpl in *; discriminate.
    + intros x r Ex. apply (T x (t :: r)). rewrite Ex. reflexivity.
Qed.

Lemma fine_ub : ub = [Finite 0].
Proof.
  pose proof (ub_0 eps l c vinf DL NN TM E EL) as H0. pose proof (ub_sorted l c vinf) as S. pose proof (ub_in l c vinf) as I. fold tab ub in H0, S, I.
  assert (A : forall x, In x ub -> x = Finite 0).
  { intros x Hx. destruct (I x Hx) as (v & -> & Hv). pose proof (tab_range eps l c vinf DL NN TM E EL v Hv) as R0.
    destruct (Req_dec v 0) as [->|Nz]; auto. exfalso.
    pose proof (cq_path eps l c DL E) as P. pose proof (cq_cont eps l c DL E) as C.
    destruct (between v (segs c) m_infty p_infty) as (t & It & T1 & T2); auto.
    - apply (segs_ne eps l c DL E).
    - intros t r Et. assert (It : In t (segs c)) by (rewrite Et; simpl; auto). assert (Em : sa t = m_infty) by (rewrite Et in P; apply P).
      rewrite (lo_minf vinf (segs c)); auto; [lra|eapply cq_m; eauto|]. apply (sa_minf (segs c)); auto.
    - intros t r Et. assert (It : In t (segs c)) by (rewrite Et; apply in_or_app; simpl; auto).
      assert (Em : sb t = p_infty). { rewrite Et in P. apply path_app_inv in P. destruct P as (u & _ & P). simpl in P. apply P. }
      rewrite (hi_pinf vinf (segs c)); auto; [lra|eapply cq_p; eauto|]. apply (sb_pinf (segs c)); auto.
    - apply (lost (lo vinf t) v); auto; try lra.
      + apply (tab_in l c vinf). right. exists t. auto.
      + pose proof (step t It). lra. }
  destruct ub as [|x [|y r]]; [destruct H0|rewrite (A x); simpl; auto|]. exfalso. inversion S as [|? ? ? F]; subst. inversion F as [|? ? F1 _]; subst.
  rewrite (A x), (A y) in F1 by (simpl; auto). simpl in F1. lra.
Qed.
End Fine.
End Lost.
