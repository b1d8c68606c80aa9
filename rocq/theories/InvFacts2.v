(** Proofs about the break values of the inverse, and the law of a number sampled by inversion. *)
From Coq Require Import Reals Lra Lia List Bool Arith Sorted Permutation.
From Coquelicot Require Import Coquelicot.
From Verif Require Import Base Bisect Seg Piecewise PiecewiseSpec PiecewiseFacts PiecewiseFacts2 Integral IntegralFacts SegInt SegIntSpec SegIntFacts CumintFacts CumintFacts2
  Quant QuantSpec QuantFacts QuantFacts2 QuantMain Wide WideMain Std StdSpec StdFacts StdFacts2 StdMain Inv InvSpec InvFacts.
Import List ListNotations.
Open Scope R_scope.

Lemma flag_no (l : list Rbar) i : flag (no_poles l) i = false.
Proof. unfold flag, no_poles. revert i. induction l; intros [|i]; simpl; auto. Qed.
Lemma removelast_length {A} (l : list A) : length (removelast l) = (length l - 1)%nat.
Proof. induction l as [|x [|y l] IH]; auto. change (removelast (x :: y :: l)) with (x :: removelast (y :: l)). simpl length in *. rewrite IH. lia. Qed.

(** the pieces between sorted finite break values, from the first to the last *)
Lemma inv_make eps q (bp : list Rbar) : StronglySorted Rbar_lt bp -> Forall (fun x => is_finite x) bp -> (2 <= length bp)%nat ->
  exists p, make_pwf eps q bp (inv_lpoles bp) (inv_rpoles bp) = Ok p /\ segs p <> [] /\ Forall continuous_piece (segs p) /\
    (forall s, In s (segs p) -> forall x, sf s x = q x) /\ path (nth 0 bp m_infty) (segs p) (last bp m_infty).
Proof.
  intros S F N. destruct bp as [|x0 [|x1 bt]]; [simpl in N; lia|simpl in N; lia|]. destruct bt as [|x2 bt].
  - inversion F as [|? ? F0 F1]; subst. inversion F1 as [|? ? F2 _]; subst. destruct x0 as [a| |]; try discriminate F0. destruct x1 as [b| |]; try discriminate F2.
    assert (AB : Rbar_lt a b) by (inversion S as [|? ? ? K]; subst; inversion K; auto).
    exists (PW [PoleSeg a b q false] [Finite a; Finite b]). splits.
    + unfold make_pwf. cbn [last]. rewrite (proj2 (blt_true _ _) AB), (proj2 (ble_true (Finite b) (Finite b)) (Rbar_le_refl _)). 
      cbn [andb length Nat.eqb inv_lpoles inv_rpoles no_poles map removelast app]. unfold add_first. cbn [brks at_ix nth_error rbind]. unfold add_piece. cbn [brks at_ix nth_error rbind mk_piece negb andb].
      rewrite (add_end eps [Finite a; Finite b] [] (Finite a)); auto; simpl; auto.
    + discriminate.
    + repeat constructor. exact AB.
    + intros s [<-|[]] x. reflexivity.
    + simpl. auto.
  - set (bp := x0 :: x1 :: x2 :: bt) in *. 
    assert (LR : length (inv_rpoles bp) = length bp). { unfold inv_rpoles, no_poles. rewrite app_length, map_length, removelast_length. simpl. lia. }
    assert (LL : length (inv_lpoles bp) = length bp). { unfold inv_lpoles, no_poles, bp. simpl. rewrite map_length. auto. }
    assert (FL : forall i, (0 < i)%nat -> flag (inv_lpoles bp) i = false). { intros [|i] Hi; [lia|]. change (flag (no_poles (x1 :: x2 :: bt)) i = false). apply flag_no. }
    assert (FR : forall i, (i < length bp - 1)%nat -> flag (inv_rpoles bp) i = false).
    { intros i Hi. unfold flag, inv_rpoles. rewrite app_nth1; [apply flag_no|]. unfold no_poles. rewrite map_length, removelast_length. auto. }
    destruct (make_pieces_exact_main eps q bp (inv_lpoles bp) (inv_rpoles bp) S LL LR) as (p & E & _ & L1 & T & PO).
    + intros [|i] Hi _ _; [right; apply FR; unfold bp; simpl; lia|left; apply FL; lia].
    + intros i Hi _. apply FR. lia.
    + unfold bp; simpl; lia.
    + unfold bp; simpl; lia.
    + exists p. assert (PO' : forall s, In s (segs p) -> isDirac s = false /\ (forall x, sf s x = q x) /\ Rbar_lt (sa s) (sb s)).
      { intros s Hs. apply In_nth_error in Hs. destruct Hs as (j & Hj). pose proof (PO j s Hj) as (P1 & P2 & P3 & P4 & _).
        assert (J : (j < length (segs p))%nat) by (apply nth_error_Some; congruence). splits; auto. rewrite P2, P3. apply sorted_nth; auto. lia. }
      splits.
      * exact E.
      * intros K. rewrite K in L1. discriminate.
      * apply Forall_forall. intros s Hs. destruct (PO' s Hs) as (P1 & _ & P3). split; auto. destruct s; simpl in *; auto; discriminate.
      * intros s Hs. apply (PO' s Hs).
      * apply tiles_path. exact T.
Qed.

Section Law.
Variables (eps : R) (l : list segment) (c : pwf) (vinf : segment -> R).
Hypothesis DL : density l.
Hypothesis NN : Forall nonneg_piece l.
Hypothesis TM : total_mass l = 1.
Hypothesis E : cumint eps l = Ok c.
Hypothesis EL : end_limits vinf (segs c).

Let tab := inv_tab (getSegVals vinf (segs c)) (cF l 0).
Lemma vals_In w : In w (getSegVals vinf (segs c)) <-> exists t, In t (segs c) /\ w = (lo vinf t, hi vinf t).
Proof. unfold getSegVals. rewrite in_map_iff. split; intros (t & A & B); exists t; split; auto. Qed.
Lemma tab_in v : In v tab <-> v = cF l 0 \/ exists t, In t (segs c) /\ (v = lo vinf t \/ v = hi vinf t).
Proof.
  unfold tab. rewrite tab_In. split; (intros [K|K]; [auto|right]).
  - destruct K as (w & Hw & K). apply vals_In in Hw. destruct Hw as (t & Ht & ->). exists t. auto.
  - destruct K as (t & Ht & K). exists (lo vinf t, hi vinf t). split; auto. apply vals_In. eauto.
Qed.
Lemma tab_range v : In v tab -> 0 <= v <= 1.
Proof.
  rewrite tab_in. intros [->|(t & Ht & [->| ->])]; [apply (cq_bounds l DL NN TM)|eapply cq_lo; eauto|eapply cq_hi; eauto].
Qed.
Lemma segs_ne : segs c <> [].
Proof. intros K. pose proof (cq_path eps l c DL E) as P. rewrite K in P. simpl in P. discriminate. Qed.
Lemma tab_0 : In 0 tab.
Proof.
  apply tab_in. right. pose proof (cq_path eps l c DL E) as P. destruct (segs c) as [|t r] eqn:ES; [destruct (segs_ne ES)|].
  exists t. split; [left; auto|]. left. symmetry. rewrite <- ES in *. assert (It : In t (segs c)) by (rewrite ES; left; auto).
  rewrite ES in P. destruct P as (P & _). apply (lo_minf vinf (segs c)); auto; [eapply cq_m; eauto|]. apply (sa_minf (segs c)); auto. eapply cq_cont; eauto.
Qed.
Lemma tab_1 : In 1 tab.
Proof.
  apply tab_in. right. pose proof (cq_path eps l c DL E) as P. destruct (segs c) as [|t r _] eqn:ES using rev_ind; [destruct (segs_ne ES)|].
  exists t. assert (It : In t (segs c)) by (rewrite ES; apply in_or_app; simpl; auto). split; [rewrite <- ES; auto|]. right. symmetry. 
  apply path_app_inv in P. destruct P as (u & _ & P). simpl in P. destruct P as (_ & P). rewrite <- ES in *.
  apply (hi_pinf vinf (segs c)); auto; [eapply cq_p; eauto|]. apply (sb_pinf (segs c)); auto. eapply cq_cont; eauto.
Qed.

(** the values are levels of the density *)
Lemma ends_l t (b : R) : In t (segs c) -> sa t = b \/ sb t = b -> exists s, In s l /\ (sa s = b \/ sb s = b).
Proof.
  intros It Hb. destruct (cumint_pieces eps l DL) as (q1 & lead & tail & a0 & b0 & E1 & P1 & SQ & C & PQ & _ & HL & HT). rewrite E in E1. injection E1 as <-.
  rewrite SQ in It. apply in_app_or in It. destruct It as [It|It].
  - destruct HL as [->|(r & Ea & ->)]; [destruct It|]. destruct It as [<-|[]]. simpl in Hb. destruct Hb as [Hb|Hb]; [discriminate|]. injection Hb as <-.
    destruct l as [|s l0]; [destruct DL; congruence|]. simpl in P1. exists s. split; [left; auto|]. left. rewrite <- Ea. apply P1.
  - apply in_app_or in It. destruct It as [It|It].
    + destruct (cums_In l 0 t It) as (s & k & Is & D & ->). destruct (cumpiece_ends s k) as (A1 & A2 & _). rewrite A1, A2 in Hb. eauto.
    + destruct HT as [->|(r & Eb & ->)]; [destruct It|]. destruct It as [<-|[]]. simpl in Hb. destruct Hb as [Hb|Hb]; [|discriminate]. injection Hb as <-.
      destruct l as [|s l0 _] using rev_ind; [destruct DL; congruence|]. apply path_app_inv in P1. destruct P1 as (u & _ & P1). simpl in P1.
      exists s. split; [apply in_or_app; simpl; auto|]. right. rewrite <- Eb. apply P1.
Qed.
Lemma tab_level v : In v tab -> v = 0 \/ v = 1 \/ level l v.
Proof.
  assert (W : Forall wf_seg l) by apply DL.
  assert (PO : forall t, In t (segs c) -> exists h, continuity h /\ (forall x : R, Rbar_le (sa t) x -> Rbar_le x (sb t) -> sf t x = h x) /\ (forall x : R, covers t x -> h x = cF l x))
    by (intros; eapply pieces_ok; eauto).
  pose proof (cq_cont eps l c DL E) as CC.
  rewrite tab_in. intros [->|(t & It & [->| ->])].
  - right. right. left. rewrite cF_spec; auto.
  - destruct (sa t) as [a| |] eqn:Ea.
    + right. right. right. destruct (ends_l t a It (or_introl Ea)) as (s & Is & Hs). exists s, a. splits; auto. left. rewrite cF_spec by auto.
      eapply (lo_finite vinf (cF l) (segs c)); eauto.
    + exfalso. destruct t; discriminate.
    + left. apply (lo_minf vinf (segs c)); auto; [eapply cq_m; eauto|]. apply (sa_minf (segs c)); auto.
  - destruct (sb t) as [b| |] eqn:Eb.
    + right. right. right. destruct (ends_l t b It (or_intror Eb)) as (s & Is & Hs). exists s, b. splits; auto. right.
      assert (HB : Rbar_lt (sa t) b). { rewrite <- Eb. rewrite Forall_forall in CC. destruct (CC t It) as (D1 & D2). apply nd_lt; auto. }
      assert (H : hi vinf t = sf t b).
      { unfold hi. rewrite Eb. simpl. rewrite Forall_forall in CC. apply cont_call; auto; [apply Rbar_lt_le; auto|rewrite Eb; apply Rbar_le_refl]. }
      destruct (PO t It) as (h & H1 & H2 & H3). rewrite H, (H2 b) by (first [apply Rbar_lt_le; exact HB|rewrite Eb; apply Rbar_le_refl]).
      apply (filterlim_ext_loc h).
      * generalize (at_left_lt b (sa t) HB). apply filter_imp. intros x (X1 & X2). rewrite cF_spec by auto. apply H3. split; [apply Rbar_lt_le; auto|rewrite Eb; auto].
      * apply (filterlim_filter_le_1 (F := locally b) (G := at_left b) h); [apply filter_le_within|]. apply continuity_pt_filterlim. apply H1.
    + right. left. apply (hi_pinf vinf (segs c)); auto; [eapply cq_p; eauto|]. apply (sb_pinf (segs c)); auto.
    + exfalso. destruct t; discriminate.
Qed.

Let bp := inv_breaks (getSegVals vinf (segs c)) (cF l 0).
Let ub := epsunique (1 / 10000) (map Finite tab).
Lemma in_tab (v : R) : In (Finite v) (map Finite tab) <-> In v tab.
Proof. rewrite in_map_iff. split; [intros (x & [= <-] & H); auto|eauto]. Qed.
Lemma ub_0 : In (Finite 0) ub.
Proof.
  destruct (epsunique_dropped_main (1 / 10000) (map Finite tab) 0) as [|(u & U1 & U2 & _)]; auto; [apply in_tab, tab_0|].
  apply in_tab, tab_range in U1. lra.
Qed.
Lemma bp_ub : bp = ub.
Proof.
  unfold bp, inv_breaks. fold tab. fold ub. replace (existsb (beq (Finite 0)) ub) with true; auto. symmetry. apply existsb_exists.
  exists (Finite 0). split; [apply ub_0|]. destruct (beqP (Finite 0) (Finite 0)); auto.
Qed.
Lemma ub_sorted : StronglySorted Rbar_lt ub.
Proof. apply epsunique_separated_main. Qed.
Lemma ub_in x : In x ub -> exists v : R, x = v /\ In v tab.
Proof. intros H. destruct (epsunique_separated_main (1 / 10000) (map Finite tab)) as (_ & K & _). apply K in H. apply in_map_iff in H. destruct H as (v & <- & H). eauto. Qed.
Lemma ub_head : nth 0 ub m_infty = Finite 0.
Proof.
  pose proof ub_0 as H. pose proof ub_sorted as S. pose proof ub_in as I. destruct ub as [|x r]; [destruct H|]. simpl. destruct H as [H|H]; auto.
  exfalso. destruct (I x (or_introl eq_refl)) as (v & -> & Hv). apply tab_range in Hv. inversion S as [|? ? ? F]; subst. rewrite Forall_forall in F.
  specialize (F _ H). simpl in F. lra.
Qed.
Lemma ub_fin : Forall (fun x => is_finite x) ub.
Proof. apply Forall_forall. intros x Hx. destruct (ub_in x Hx) as (v & -> & _). reflexivity. Qed.
Lemma ub_last : exists top : R, last ub m_infty = top /\ 0 <= top <= 1 /\ In (Finite top) ub /\ forall x, In x ub -> Rbar_le x top.
Proof.
  pose proof ub_in as I. pose proof ub_sorted as S. destruct ub as [|x r _] eqn:EU using rev_ind; [destruct (in_nil ub_0) || (pose proof ub_0 as K; rewrite EU in K; destruct K)|].
  destruct (I x) as (v & -> & Hv); [apply in_or_app; simpl; auto|]. exists v. rewrite last_last. split; [auto|]. split; [apply tab_range; auto|]. split; [apply in_or_app; simpl; auto|].
  intros y Hy. apply in_app_or in Hy. destruct Hy as [Hy|[<-|[]]]; [|apply Rbar_le_refl]. apply SS_app in S. destruct S as (_ & _ & S). apply Rbar_lt_le, S; simpl; auto.
Qed.

Lemma invcdf_cases q : (invcdf eps vinf q l = Err EAssert /\ ub = [Finite 0]) \/
  exists p top, invcdf eps vinf q l = Ok p /\ 0 < top <= 1 /\ In (Finite top) ub /\ (forall x, In x ub -> Rbar_le x top) /\
    forall y, (0 <= y <= top -> call_scalar (segs p) y = Ok (q y) /\ call_vec (segs p) y = q y) /\
              (y < 0 \/ top < y -> call_scalar (segs p) y = Ok 0 /\ call_vec (segs p) y = 0).
Proof.
  unfold invcdf. rewrite E. cbn [rbind]. unfold invfun. destruct (cumint_cdf eps l DL) as (c' & E' & _ & _ & _ & V). rewrite E in E'. injection E' as <-.
  rewrite (proj1 (V 0)). cbn [rbind]. cbv zeta. fold bp. rewrite bp_ub.
  destruct (Nat.le_gt_cases 2 (length ub)) as [N|N].
  - right. destruct (inv_make eps q ub ub_sorted ub_fin N) as (p & P1 & P2 & P3 & P4 & P5).
    destruct ub_last as (top & T1 & T2 & T3 & T4). rewrite ub_head, T1 in P5. exists p, top. split; [auto|]. split; [|split; [auto|split; [auto|]]].
    + split; [|apply T2]. pose proof ub_head as H0. pose proof ub_sorted as S. destruct ub as [|x [|y r]]; [simpl in N; lia|simpl in N; lia|].
      simpl in H0. subst x. inversion S as [|? ? ? F]; subst. inversion F as [|? ? F1 _]; subst. pose proof (T4 y ltac:(simpl; auto)) as K.
      exact (Rbar_lt_le_trans _ _ _ F1 K).
    + intros y. destruct (flat_value q (segs p) (Finite 0) (Finite top) P2 P3 P4 P5 y) as (A & B). split; [intros Y; apply A; simpl; lra|intros Y; apply B; simpl; lra].
  - left. pose proof ub_0 as H0. destruct ub as [|x [|y r]]; [destruct H0| |simpl in N; lia]. destruct H0 as [->|[]]. split; auto.
Qed.
Lemma top_one : (forall v, level l v -> v = 1 \/ v < 1 - 1 / 10000) -> In (Finite 1) ub.
Proof.
  intros H. destruct (epsunique_dropped_main (1 / 10000) (map Finite tab) 1) as [|(u & U1 & U2 & U3 & _)]; auto; [apply in_tab, tab_1|].
  exfalso. apply in_tab in U1. rewrite Rabs_R1, Rmax_left in U3 by lra. destruct (tab_level u U1) as [->|[->|K]]; try lra. destruct (H u K); lra.
Qed.
End Law.

(** the law of a quantile taken at a uniformly distributed level *)
Lemma quantile_law F T x : 0 <= F x <= 1 -> (forall y, 0 < y < 1 -> is_quantile F y (T y)) -> (forall u v, u <= v -> F u <= F v) ->
  is_RInt (below T x) 0 1 (F x).
Proof.
  intros B Q M. evar_last; [apply (is_RInt_Chasles (V := R_NormedModule) (below T x) 0 (F x) 1 (scal (F x - 0) (1 : R_NormedModule)) (scal (1 - F x) (0 : R_NormedModule)))|
    unfold plus, scal; simpl; unfold mult; simpl; ring].
  - apply (is_RInt_ext (fun _ => 1)); [|apply @is_RInt_const]. intros y Hy. rewrite Rmin_left, Rmax_right in Hy by lra. unfold below.
    destruct (Rle_dec (T y) x) as [|N]; auto. exfalso. destruct (Q y ltac:(lra)) as (Q1 & _). specialize (Q1 x ltac:(lra)). lra.
  - apply (is_RInt_ext (fun _ => 0)); [|apply @is_RInt_const]. intros y Hy. rewrite Rmin_left, Rmax_right in Hy by lra. unfold below.
    destruct (Rle_dec (T y) x) as [K|]; auto. exfalso. destruct (Q y ltac:(lra)) as (_ & Q2). apply M in K. lra.
Qed.
