(** Proofs about transformations, part 5: instances (square, absolute value, reciprocal). *)
From Coq Require Import Reals Lra List Bool Sorted Permutation.
From Coquelicot Require Import Coquelicot.
From Verif Require Import Base Bisect Seg Piecewise PiecewiseSpec PiecewiseFacts PiecewiseFacts2 PiecewiseFacts3 PiecewiseFacts4
  Integral IntegralFacts SegInt SegIntSpec SegIntFacts SubstFacts Transform TransformSpec TransformFacts TransformFacts2
  TransformFacts3 OperationFacts TransformFacts4.
Import List ListNotations.
Open Scope R_scope.

Lemma pprob_below l y z : Forall wf_seg l -> Forall (within 0 p_infty) l -> Rbar_le y z -> Rbar_le z 0 -> pprob l y z = 0.
Proof.
  intros W Wi YZ Z. unfold pprob. induction l as [|s l IH]; simpl; auto. inversion W; inversion Wi; subst. rewrite IH; auto.
  rewrite prob_right_zero; auto; [lra|]. apply (Rbar_le_trans _ 0); auto. apply H5.
Qed.

Lemma square_ip : inverse_pair true (ext_even (fun x => x * x)) sqrt 0 p_infty.
Proof.
  split; [|split].
  - intros x y X L _. destruct x as [x| |]; destruct y as [y| |]; simpl in *; try tauto. nra.
  - intros x (X & _). simpl in X. exists (x * x). split; auto. rewrite sqrt_square; lra.
  - intros y (Y & _). simpl in *. rewrite Rmult_0_l in Y. split; [split; simpl; auto; apply sqrt_lt_R0; auto|].
    rewrite sqrt_sqrt; auto. lra.
Qed.
Lemma square_dv : derivative_on sqrt (fun x => 1 / 2 / sqrt x) 0 p_infty.
Proof.
  intros y (Y & _). simpl in Y. assert (S : sqrt y <> 0) by (apply Rgt_not_eq, sqrt_lt_R0; auto). split.
  - auto_derive; auto. field; auto.
  - apply (ex_derive_continuous (K := R_AbsRing) (V := R_NormedModule)). auto_derive; auto.
Qed.

Lemma abs_ip : inverse_pair true (ext_even Rabs) Rabs 0 p_infty.
Proof.
  split; [|split].
  - intros x y X L _. destruct x as [x| |]; destruct y as [y| |]; simpl in *; try tauto. rewrite !Rabs_right; lra.
  - intros x (X & _). simpl in X. exists x. simpl. rewrite Rabs_right; auto; lra.
  - intros y (Y & _). simpl in *. rewrite Rabs_R0 in Y. rewrite (Rabs_right y) by lra. rewrite Rabs_right by lra.
    split; auto. split; simpl; auto.
Qed.
Lemma abs_dv : derivative_on Rabs (fun _ => 1) 0 p_infty.
Proof.
  intros y (Y & _). simpl in Y. split; [|apply continuous_const].
  apply (is_derive_ext_loc (fun x => x)).
  - exists (mkposreal y Y). intros z Hz. unfold ball in Hz; simpl in Hz. unfold AbsRing_ball, abs, minus, plus, opp in Hz; simpl in Hz.
    apply Rabs_def2 in Hz. rewrite Rabs_right; lra.
  - apply (is_derive_id (K := R_AbsRing)).
Qed.

Lemma even_ext_le g ginv u v : inverse_pair true (ext_even g) ginv 0 p_infty -> Rbar_le 0 u -> Rbar_lt u v -> Rbar_le (ext_even g u) (ext_even g v).
Proof. intros IP U UV. apply (g_le true (ext_even g) ginv 0 p_infty IP u v); auto; [apply Rbar_lt_le; auto|destruct v; simpl; auto]. Qed.

Lemma even_ext_pos g ginv y v : g 0 = 0 -> inverse_pair true (ext_even g) ginv 0 p_infty -> Rbar_lt y 0 -> Rbar_lt 0 v -> Rbar_le y (ext_even g v).
Proof.
  intros G0 IP Y V. apply (Rbar_le_trans _ 0); [apply Rbar_lt_le; auto|].
  replace (Finite 0) with (ext_even g 0) by (simpl; rewrite G0; auto). eapply even_ext_le; eauto using Rbar_le_refl.
Qed.

Lemma square_list eps l : 0 <= eps -> ordered l -> Forall wf_seg l -> Forall has_int l -> Forall cont_inside l ->
  dirac_sep eps l -> atoms_even_sep eps (fun x => x * x) l ->
  exists q, copySquareComposition eps l = Ok q /\ good eps (segs q) /\ Forall has_int (segs q) /\ even_law (fun x => x * x) l (segs q).
Proof.
  intros E0 O W HI C DS S.
  assert (ge : forall x : R, (- x) * (- x) = x * x) by (intros; ring).
  destruct (even_split (fun x => x * x) sqrt _ (Rmult_0_l 0) ge square_ip square_dv eps l O W HI C DS S)
    as (p & lp & ln & E1 & E2 & G1 & G2 & H1 & H2 & X & W1 & W2 & L1 & L2).
  unfold copySquareComposition. rewrite E1. cbn [rbind]. unfold squareComposition. rewrite E2. cbn [rbind fst snd].
  assert (B1 : forall y z, Rbar_le y z -> Rbar_le z 0 -> pprob (segs lp) y z = 0) by (intros; apply pprob_below; auto; apply G1).
  assert (B2 : forall y z, Rbar_le y z -> Rbar_le z 0 -> pprob (segs ln) y z = 0) by (intros; apply pprob_below; auto; apply G2).
  destruct (segs ln) as [|sn rn] eqn:En.
  - exists lp. splits; auto. split; auto. split.
    + intros u v U UV. destruct (L1 u v U UV) as (L3 & L4). rewrite L3.
      change (pprob [] (ext_even (fun x => x * x) u) (ext_even (fun x => x * x) v)) with 0 in L4. lra.
    + intros y v Y V. rewrite <- (L2 y v Y V). change (pprob [] y (ext_even (fun x => x * x) v)) with 0. lra.
  - destruct (segs lp) as [|sp rp] eqn:Ep; rewrite <- En in *.
    + exists ln. splits; auto. split; auto. split.
      * intros u v U UV. destruct (L1 u v U UV) as (L3 & L4). rewrite L4.
        change (pprob [] (ext_even (fun x => x * x) u) (ext_even (fun x => x * x) v)) with 0 in L3. lra.
      * intros y v Y V. rewrite <- (L2 y v Y V). change (pprob [] y (ext_even (fun x => x * x) v)) with 0. lra.
    + rewrite <- Ep in *.
      destruct (operation_prob eps (segs lp) (segs ln) E0 G1 G2 X H1 H2) as (q & Q1 & Q2 & Q3 & Q4).
      exists q. splits; auto. split; [|split].
      * intros y z YZ Z. rewrite Q4, B1, B2; auto. lra.
      * intros u v U UV. rewrite Q4 by (eapply even_ext_le; eauto using square_ip). destruct (L1 u v U UV) as (-> & ->). auto.
      * intros y v Y V. rewrite Q4; auto. apply (even_ext_pos (fun x => x * x) sqrt); auto using square_ip. ring.
Qed.

Lemma getBreaks_sorted l : StronglySorted Rbar_lt (getBreaks l).
Proof. unfold getBreaks. apply np_unique_sorted. Qed.

Lemma abs_list eps l : 0 <= eps -> ordered l -> Forall wf_seg l -> Forall has_int l -> Forall cont_inside l ->
  dirac_sep eps l -> atoms_even_sep eps Rabs l ->
  exists q, copyAbsComposition eps l = Ok q /\ good eps (segs q) /\ Forall has_int (segs q) /\ even_law Rabs l (segs q).
Proof.
  intros E0 O W HI C DS S.
  destruct (even_split Rabs Rabs _ Rabs_R0 Rabs_Ropp abs_ip abs_dv eps l O W HI C DS S)
    as (p & lp & ln & E1 & E2 & G1 & G2 & H1 & H2 & X & W1 & W2 & L1 & L2).
  unfold copyAbsComposition. rewrite E1. cbn [rbind]. unfold absComposition. rewrite E2. cbn [rbind fst snd].
  pose proof (getBreaks_sorted (segs ln)) as SB.
  destruct G1 as (O1 & F1 & D1).
  destruct (splitByPoints_ok eps (segs lp) (getBreaks (segs ln)) SB O1 F1 D1) as (lp2 & K1 & K2 & _). rewrite K1. cbn [rbind].
  destruct (split_all_ordered _ (segs lp) SB O1 F1) as (O2 & F2 & P2).
  assert (D2 : dirac_sep eps (split_all (getBreaks (segs ln)) (segs lp))) by (apply dirac_sep_pos; rewrite P2; apply dirac_sep_pos; auto).
  assert (H3 : Forall has_int (segs lp2)) by (rewrite K2; apply (split_all_prob _ (segs lp) 0 0); auto using Rbar_le_refl).
  assert (PR : forall u v, Rbar_le u v -> pprob (segs lp2) u v = pprob (segs lp) u v) by (intros; rewrite K2; apply split_all_prob; auto).
  assert (X2 : cross_sep eps (segs lp2) (segs ln)).
  { intros a m b k Ha Hb. apply (X a m b k); auto. rewrite K2 in Ha.
    assert (HH : In (DiracSeg a m) (getDiracs (split_all (getBreaks (segs ln)) (segs lp)))) by (apply filter_In; auto).
    rewrite split_diracs in HH; auto. apply filter_In in HH. tauto. }
  destruct (operation_prob eps (segs lp2) (segs ln) E0) as (q & Q1 & Q2 & Q3 & Q4); auto.
  { rewrite K2. split; auto. }
  exists q. splits; auto.
  assert (B1 : forall y z, Rbar_le y z -> Rbar_le z 0 -> pprob (segs lp) y z = 0) by (intros; apply pprob_below; auto).
  assert (B2 : forall y z, Rbar_le y z -> Rbar_le z 0 -> pprob (segs ln) y z = 0) by (intros; apply pprob_below; auto; apply G2).
  split; [|split].
  - intros y z YZ Z. rewrite Q4, PR, B1, B2; auto. lra.
  - intros u v U UV. assert (LE : Rbar_le (ext_even Rabs u) (ext_even Rabs v)) by (eapply even_ext_le; eauto using abs_ip).
    rewrite Q4, PR; auto. destruct (L1 u v U UV) as (-> & ->). auto.
  - intros y v Y V. assert (LE : Rbar_le y (ext_even Rabs v)) by (apply (even_ext_pos Rabs Rabs); auto using abs_ip, Rabs_R0).
    rewrite Q4, PR; auto.
Qed.

(** ** Reciprocal *)
Lemma inv_lt x y : 0 < x -> x < y -> 1 / y < 1 / x.
Proof. intros. unfold Rdiv. rewrite !Rmult_1_l. apply Rinv_lt_contravar; auto. nra. Qed.
Lemma inv_pos x : 0 < x -> 0 < 1 / x.
Proof. intros. apply Rdiv_lt_0_compat; lra. Qed.
Lemma inv_opp x : x <> 0 -> 1 / - x = - (1 / x).
Proof. intros. field. auto. Qed.
Lemma inv_inv x : x <> 0 -> 1 / (1 / x) = x.
Proof. intros. field. auto. Qed.

Lemma inv_ip_pos : inverse_pair false one_over_x inv_fun 0 p_infty.
Proof.
  split; [|split].
  - intros x y X L _. destruct x as [x| |]; destruct y as [y| |]; simpl in *; try tauto.
    + destruct (reqP y 0) as [E|E]; [lra|]. destruct (reqP x 0) as [E'|E']; simpl; auto. apply inv_lt; lra.
    + destruct (reqP x 0); simpl; auto. apply inv_pos. lra.
  - intros x (X & _). simpl in X. exists (1 / x). simpl. destruct (reqP x 0); [lra|]. split; auto. unfold inv_fun. apply inv_inv. auto.
  - intros y (Y & _). simpl in Y. unfold inv_fun.
    pose proof (inv_pos y Y). split; [split; simpl; auto|]. simpl. destruct (reqP (1 / y) 0); [lra|]. f_equal. apply inv_inv. lra.
Qed.
Lemma inv_neg x : x < 0 -> 1 / x < 0.
Proof. intros. replace x with (- - x) by ring. rewrite inv_opp by lra. pose proof (inv_pos (- x)). lra. Qed.
Lemma inv_ip_neg : inverse_pair false one_over_neg inv_fun m_infty 0.
Proof.
  split; [|split].
  - intros x y _ L Y. destruct x as [x| |]; destruct y as [y| |]; simpl in *; try tauto.
    + destruct (reqP x 0) as [E|E]; [lra|]. destruct (reqP y 0) as [E'|E']; simpl; auto.
      pose proof (inv_lt (- y) (- x)). rewrite !inv_opp in H by auto. lra.
    + destruct (reqP y 0); simpl; auto. apply inv_neg. lra.
  - intros x (_ & X). simpl in X. exists (1 / x). simpl. destruct (reqP x 0); [lra|]. split; auto. unfold inv_fun. apply inv_inv. auto.
  - intros y (_ & Y). simpl in Y. unfold inv_fun.
    pose proof (inv_neg y Y). split; [split; simpl; auto|]. simpl. destruct (reqP (1 / y) 0); [lra|]. f_equal. apply inv_inv. lra.
Qed.
Lemma inv_dv y : y <> 0 -> is_derive inv_fun y (- inv_deriv y) /\ continuous (fun y => - inv_deriv y) y.
Proof.
  intros N. unfold inv_fun, inv_deriv. split.
  - auto_derive; auto. field; auto.
  - apply (ex_derive_continuous (K := R_AbsRing) (V := R_NormedModule)). auto_derive; auto.
Qed.

Lemma probInverse_pos pole s : isDirac s = false -> wf_seg s -> has_int s -> cont_inside s -> pos_side s ->
  exists t, probInverse pole s = Ok t /\ image_piece false one_over_x 0 p_infty s t.
Proof.
  intros D W HI C P. unfold pos_side in P. pose proof (wf_lt s D W) as L.
  assert (Wi : within 0 p_infty s) by (split; auto; destruct (sb s); simpl; auto).
  assert (T : exists t, probInverse pole s = Ok t /\ isDirac t = false /\
       sa t = one_over_x (sb s) /\ sb t = one_over_x (sa s) /\ forall y, sf t y = prob_comp (sf s) inv_fun inv_deriv y).
  { unfold probInverse. destruct (beqP (sa s) 0) as [E|E].
    - rewrite E in *. unfold one_over_x at 5. destruct (reqP 0 0) as [_|]; [|tauto].
      assert (exists y, one_over_x (sb s) = Finite y /\ 0 <= y) as (y & -> & Y).
      { destruct (sb s) as [b| |] eqn:EB; simpl in *; try tauto; [|exists 0; split; auto; lra].
        destruct (reqP b 0); [lra|]. exists (1 / b). split; auto. apply Rlt_le, inv_pos; auto. }
      rewrite (blt_no y 0) by auto. eexists; splits; reflexivity.
    - destruct (beqP (sb s) 0) as [E2|E2].
      { exfalso. rewrite E2 in L. exact (Rbar_lt_not_le _ _ L P). }
      pose proof (g_lt false one_over_x inv_fun 0 p_infty inv_ip_pos (sa s) (sb s) P L (proj2 Wi)) as GL. unfold lo_end, hi_end in GL.
      destruct (bleP (one_over_x (sa s)) (one_over_x (sb s))) as [H|_]; [exfalso; exact (Rbar_lt_not_le _ _ GL H)|].
      assert (exists x, one_over_x (sa s) = Finite x /\ 0 < x) as (x & EX & X).
      { destruct (sa s) as [a| |] eqn:EA; simpl in *; try tauto. destruct (reqP a 0); [subst; tauto|]. exists (1 / a). split; auto.
        apply inv_pos. destruct P; auto. subst; tauto. }
      assert (exists y, one_over_x (sb s) = Finite y) as (y & EY).
      { destruct (sb s) as [b| |] eqn:EB; simpl in *; eauto. destruct (reqP b 0); [subst; tauto|]. eauto. }
      rewrite EX, EY. destruct (beqP x 0) as [H|_]; [injection H as H; lra|]. cbn [andb].
      eexists; splits; reflexivity. }
  destruct T as (t & E & Dt & E1 & E2 & F). exists t. split; auto.
  apply (image_smooth false one_over_x inv_fun (fun y => - inv_deriv y) 0 p_infty s t inv_ip_pos); auto.
  - intros y (Y1 & Y2). apply inv_dv. unfold lo_end in Y1.
    assert (Rbar_le 0 (one_over_x (sb s))).
    { destruct (sb s) as [b| |]; simpl in *; try tauto; try lra. destruct (reqP b 0); simpl; auto. apply Rlt_le, inv_pos.
      destruct (sa s); simpl in *; try tauto. lra. }
    assert (Rbar_lt 0 y) by (apply (Rbar_le_lt_trans _ (one_over_x (sb s))); auto). simpl in H0. lra.
  - intros y. rewrite F. unfold prob_comp. rewrite Rabs_Ropp. auto.
Qed.

Lemma probInverse_neg pole s : isDirac s = false -> wf_seg s -> has_int s -> cont_inside s -> neg_side s ->
  exists t, probInverse pole s = Ok t /\ image_piece false one_over_neg m_infty 0 s t.
Proof.
  intros D W HI C (P1 & P2). pose proof (wf_lt s D W) as L.
  assert (Wi : within m_infty 0 s) by (split; auto; destruct (sa s); simpl; auto).
  assert (XX : exists x, one_over_x (sa s) = Finite x /\ one_over_neg (sa s) = Finite x /\ x <= 0 /\ (x = 0 -> sa s = m_infty)).
  { destruct (sa s) as [a| |] eqn:EA; simpl in *; try tauto; [|exists 0; splits; auto; lra].
    destruct (reqP a 0); [lra|]. exists (1 / a). pose proof (inv_neg a P1). splits; auto; lra. }
  destruct XX as (x & X1 & X2 & X3 & X4).
  assert (T : exists t, probInverse pole s = Ok t /\ isDirac t = false /\
       sa t = one_over_neg (sb s) /\ sb t = one_over_neg (sa s) /\ forall y, sf t y = prob_comp (sf s) inv_fun inv_deriv y).
  { unfold probInverse. destruct (beqP (sa s) 0) as [E|E]; [rewrite E in P1; simpl in P1; lra|].
    destruct (beqP (sb s) 0) as [E2|E2].
    - rewrite X1, (blt_no 0 x) by auto. rewrite E2, X2. unfold one_over_neg. destruct (reqP 0 0); [|tauto]. eexists; splits; reflexivity.
    - assert (YY : exists y, one_over_x (sb s) = Finite y /\ one_over_neg (sb s) = Finite y /\ y < 0).
      { destruct (sb s) as [b| |] eqn:EB; simpl in *; try tauto; [|destruct (sa s); tauto].
        destruct (reqP b 0) as [->|]; [tauto|]. exists (1 / b). splits; auto. apply inv_neg. lra. }
      destruct YY as (y & Y1 & Y2 & Y3).
      pose proof (g_lt false one_over_neg inv_fun m_infty 0 inv_ip_neg (sa s) (sb s) (proj1 Wi) L P2) as GL. unfold lo_end, hi_end in GL.
      rewrite X2, Y2 in *. rewrite X1, Y1.
      destruct (bleP x y) as [H|_]; [exfalso; exact (Rbar_lt_not_le _ _ GL H)|].
      destruct (beq x 0 && pole)%bool; eexists; splits; reflexivity. }
  destruct T as (t & E & Dt & E1 & E2 & F). exists t. split; auto.
  apply (image_smooth false one_over_neg inv_fun (fun y => - inv_deriv y) m_infty 0 s t inv_ip_neg); auto.
  - intros y (Y1 & Y2). apply inv_dv. unfold hi_end in Y2. rewrite X2 in Y2. simpl in Y2. lra.
  - intros y. rewrite F. unfold prob_comp. rewrite Rabs_Ropp. auto.
Qed.

Lemma addAll_good eps l : Forall wf_seg l -> dirac_sep eps l -> ForallOrdPairs (fun s t => before s t \/ before t s) l ->
  exists q, addAll eps empty_pwf l = Ok q /\ Permutation l (segs q) /\ ordered (segs q) /\ Forall wf_seg (segs q).
Proof.
  intros W D OP. assert (C : all_compatible eps l) by (apply (dirac_sep_pairs eps l D tt OP); auto).
  destruct (addAll_compatible eps l empty_pwf) as (q & Q1 & Q2 & Q3 & Q4); simpl; auto.
  { constructor. }
  { intros s t _ []. }
  exists q. auto.
Qed.

Lemma no_dirac_sep eps l : Forall (fun s => isDirac s = false) l -> dirac_sep eps l.
Proof. intros H. apply dirac_sep_pos. rewrite dirac_pos_cont; auto. constructor. Qed.

Lemma inverse_list eps pole l : ordered l -> Forall wf_seg l -> Forall has_int l -> Forall cont_inside l ->
  Forall (fun s => isDirac s = false) l ->
  exists q, copyProbInverse eps l pole = Ok q /\ ordered (segs q) /\ Forall wf_seg (segs q) /\ Forall has_int (segs q) /\
    (forall u v, Rbar_le 0 u -> Rbar_lt u v -> pprob (segs q) (one_over_x v) (one_over_x u) = pprob l u v) /\
    (forall u v, Rbar_lt u v -> Rbar_le v 0 -> pprob (segs q) (one_over_neg v) (one_over_neg u) = pprob l u v).
Proof.
  intros O W HI C ND. pose proof (no_dirac_sep eps l ND) as DS.
  assert (S0 : StronglySorted Rbar_lt [Finite 0]) by (constructor; constructor).
  destruct (splitByPoints_ok eps l [Finite 0] S0 O W DS) as (p & E & Es & _).
  destruct (split_all_ordered [Finite 0] l S0 O W) as (O' & W' & P').
  assert (HI' : Forall has_int (split_all [Finite 0] l)) by (apply (split_all_prob [Finite 0] l 0 0); auto using Rbar_le_refl).
  assert (C' : Forall cont_inside (split_all [Finite 0] l)) by (apply split_all_cont; auto).
  assert (PR : forall u v, Rbar_le u v -> pprob (split_all [Finite 0] l) u v = pprob l u v) by (intros; apply split_all_prob; auto).
  assert (NI : forall s, In s (split_all [Finite 0] l) -> ~ inside s 0).
  { intros s Hs. apply (split_no_inside [Finite 0] l s 0); auto. left; auto. }
  assert (ND' : Forall (fun s => isDirac s = false) (split_all [Finite 0] l)).
  { eapply Forall_impl; [|apply (split_all_pieces [Finite 0] l S0 W)]. intros t (s & Hs & Ds & _). rewrite Ds.
    rewrite Forall_forall in ND. apply ND; auto. }
  unfold copyProbInverse. rewrite E. cbn [rbind]. rewrite Es. set (L := split_all [Finite 0] l) in *.
  assert (F : exists L', Forall2 (fun s t => probInverse pole s = Ok t /\
     (pos_side s /\ image_piece false one_over_x 0 p_infty s t \/ neg_side s /\ image_piece false one_over_neg m_infty 0 s t)) L L').
  { apply Forall_ex2. apply Forall_forall. intros s Hs. rewrite Forall_forall in W', HI', C', ND'.
    destruct (Rbar_lt_le_dec (sa s) 0) as [H|H].
    - assert (N : neg_side s). { split; auto. apply Rbar_not_lt. intros K. apply (NI s Hs). split; auto. }
      destruct (probInverse_neg pole s) as (t & T1 & T2); auto. exists t; auto.
    - destruct (probInverse_pos pole s) as (t & T1 & T2); auto. exists t; auto. }
  destruct F as (L' & F).
  assert (IW : forall s t, pos_side s /\ image_piece false one_over_x 0 p_infty s t \/ neg_side s /\ image_piece false one_over_neg m_infty 0 s t -> wf_seg t /\ has_int t /\ isDirac t = isDirac s).
  { intros s t [(_ & I)|(_ & I)]; splits; apply I. }
  assert (WT : Forall wf_seg L' /\ Forall has_int L' /\ Forall (fun s => isDirac s = false) L').
  { clear - F IW ND'. induction F as [|s t L L' (_ & H) F IH]; [splits; constructor|]. inversion ND'; subst.
    destruct (IW s t H) as (A1 & A2 & A3). destruct IH as (I1 & I2 & I3); auto. splits; constructor; auto. congruence. }
  destruct WT as (W1 & H1 & D1).
  assert (LP : forall s t, wf_seg s -> isDirac s = false -> pos_side s -> image_piece false one_over_x 0 p_infty s t -> Rbar_le 0 (sa t)).
  { intros s t Ws Ds Ps (_ & _ & _ & I4 & _). rewrite I4. unfold lo_end. pose proof (wf_lt s Ds Ws) as Ls. unfold pos_side in Ps.
    destruct (sb s) as [b| |]; simpl; try lra.
    destruct (reqP b 0); simpl; auto. apply Rlt_le, inv_pos. destruct (sa s); simpl in *; try tauto; lra. }
  assert (LN : forall s t, wf_seg s -> isDirac s = false -> neg_side s -> image_piece false one_over_neg m_infty 0 s t -> Rbar_le (sb t) 0).
  { intros s t Ws Ds (Ps & _) (_ & _ & _ & _ & I5 & _). rewrite I5. unfold hi_end.
    destruct (sa s) as [a| |]; simpl in *; try tauto; try lra. destruct (reqP a 0); simpl; auto. apply Rlt_le, inv_neg; auto. }
  assert (OP : ForallOrdPairs (fun s t => before s t \/ before t s) L').
  { clear - F O' W' ND' LP LN. revert O' W' ND'. induction F as [|s s' L L' (_ & H) F IH]; intros O' W' ND'; [constructor|].
    apply StronglySorted_inv in O'. destruct O' as (O' & FO). inversion W'; inversion ND'; subst.
    constructor; [|apply IH; auto]. apply Forall_forall. intros t' Ht'.
    assert (exists t, In t L /\ (pos_side t /\ image_piece false one_over_x 0 p_infty t t' \/ neg_side t /\ image_piece false one_over_neg m_infty 0 t t')) as (t & Ht & K).
    { clear - F Ht'. induction F as [|x y L L' (_ & H) F IH]; [destruct Ht'|]. destruct Ht' as [<-|Ht']; [exists x; simpl; auto|].
      destruct (IH Ht') as (t & ? & ?). exists t; simpl; auto. }
    rewrite Forall_forall in FO, H3, H7. specialize (FO t Ht). specialize (H3 t Ht). specialize (H7 t Ht). cbv beta in *.
    assert (CR : forall s t s' t', wf_seg s -> wf_seg t -> isDirac s = false -> isDirac t = false -> pos_side s -> neg_side t ->
       image_piece false one_over_x 0 p_infty s s' -> image_piece false one_over_neg m_infty 0 t t' -> before t' s').
    { clear - LP LN. intros s t s' t' Ws Wt Ds Dt Ps Nt Is It.
      pose proof (LP s s' Ws Ds Ps Is) as A1. pose proof (LN t t' Wt Dt Nt It) as A2. split; [apply (Rbar_le_trans _ 0); auto|].
      destruct It as (J1 & J2 & _). destruct Is as (K1 & K2 & _). rewrite Dt in J1. rewrite Ds in K1.
      pose proof (wf_lt t' J1 J2) as B1. pose proof (wf_lt s' K1 K2) as B2. intros EQ. rewrite EQ in B1.
      apply (Rbar_lt_irrefl 0). apply (Rbar_le_lt_trans _ (sa s')); auto. apply (Rbar_lt_le_trans _ (sb s')); auto.
      apply (Rbar_le_trans _ (sb t')); auto. apply Rbar_lt_le; auto. }
    destruct H as [(P & I1)|(P & I1)]; destruct K as [(P' & I2)|(P' & I2)].
    - right. apply (image_before false one_over_x inv_fun 0 p_infty s t); auto using inv_ip_pos.
      + split; auto. destruct (sb s); simpl; auto.
      + split; auto. destruct (sb t); simpl; auto.
    - right. apply (CR s t s' t'); auto.
    - left. apply (CR t s t' s'); auto.
    - right. apply (image_before false one_over_neg inv_fun m_infty 0 s t); auto using inv_ip_neg.
      + split; [destruct (sa s); simpl; auto|apply P].
      + split; [destruct (sa t); simpl; auto|apply P']. }
  destruct (addAll_good eps L' W1 (no_dirac_sep eps L' D1) OP) as (q & Q1 & Q2 & Q3 & Q4).
  exists q. rewrite (addMap_all eps _ L L'); [|eapply Forall2_imp; [|exact F]; simpl; tauto]. splits; auto.
  - rewrite Forall_forall in *. intros s Hs. apply H1. apply (Permutation_in _ (Permutation_sym Q2)); auto.
  - intros u v U UV. rewrite <- (pprob_perm L'); auto. rewrite <- PR by (apply Rbar_lt_le; auto).
    unfold pprob. apply Forall2_sum.
    assert (UV' := g_lt false one_over_x inv_fun 0 p_infty inv_ip_pos u v U UV). unfold lo_end, hi_end in UV'.
    assert (VP : Rbar_le v p_infty) by (destruct v; simpl; auto). specialize (UV' VP).
    assert (G0 : Rbar_le 0 (one_over_x v)).
    { destruct v as [v| |]; simpl; try lra. destruct (reqP v 0); simpl; auto. apply Rlt_le, inv_pos. destruct u; simpl in *; try tauto; lra. }
    eapply Forall2_imp; [|exact (Forall2_and_l _ _ L L' (Forall_and W' ND') F)]. simpl. intros s t ((Ws & Ds) & _ & H).
    destruct (IW s t H) as (Wt & _ & _). destruct H as [(P & I)|(P & I)].
    + destruct I as (_ & _ & _ & _ & _ & I). apply (I u v); auto.
    + rewrite prob_left_zero; auto using Rbar_lt_le; [|apply (Rbar_le_trans _ 0); auto; apply (LN s t); auto].
      rewrite prob_left_zero; auto using Rbar_lt_le. apply (Rbar_le_trans _ 0); auto. apply P.
  - intros u v UV V. rewrite <- (pprob_perm L'); auto. rewrite <- PR by (apply Rbar_lt_le; auto).
    unfold pprob. apply Forall2_sum.
    assert (UM : Rbar_le m_infty u) by (destruct u; simpl; auto).
    assert (UV' := g_lt false one_over_neg inv_fun m_infty 0 inv_ip_neg u v UM UV V). unfold lo_end, hi_end in UV'.
    assert (G0 : Rbar_le (one_over_neg u) 0).
    { destruct u as [u| |]; simpl; try lra. destruct (reqP u 0); simpl; auto. apply Rlt_le, inv_neg. destruct v; simpl in *; try tauto; lra. }
    eapply Forall2_imp; [|exact (Forall2_and_l _ _ L L' (Forall_and W' ND') F)]. simpl. intros s t ((Ws & Ds) & _ & H).
    destruct (IW s t H) as (Wt & _ & _). destruct H as [(P & I)|(P & I)].
    + rewrite prob_right_zero; auto using Rbar_lt_le; [|apply (Rbar_le_trans _ 0); auto; apply (LP s t); auto].
      rewrite prob_right_zero; auto using Rbar_lt_le. apply (Rbar_le_trans _ 0); auto.
    + destruct I as (_ & _ & _ & _ & _ & I). apply (I u v); auto.
Qed.
