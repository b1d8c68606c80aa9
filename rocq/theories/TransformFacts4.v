(** Proofs about transformations, part 4: square and absolute value. *)
From Coq Require Import Reals Lra List Bool Sorted Permutation.
From Coquelicot Require Import Coquelicot.
From Verif Require Import Base Bisect Seg Piecewise PiecewiseSpec PiecewiseFacts PiecewiseFacts2 PiecewiseFacts3 PiecewiseFacts4
  Integral IntegralFacts SegInt SegIntSpec SegIntFacts SubstFacts Transform TransformSpec TransformFacts TransformFacts2
  TransformFacts3 OperationFacts.
Import List ListNotations.
Open Scope R_scope.

Lemma prob_left_zero s u v : wf_seg s -> Rbar_le (sb s) u -> Rbar_le u v -> prob s u v = 0.
Proof.
  intros W H UV. destruct (isDirac s) eqn:D.
  - destruct s as [| | | |a m|]; try discriminate. simpl in *. destruct (Rbar_lt_dec u a) as [L|]; auto.
    exfalso. exact (Rbar_lt_not_le _ _ L H).
  - rewrite prob_Q; auto. rewrite !clamp_high; auto using wf_le; [apply Q_refl|]. apply (Rbar_le_trans _ u); auto.
Qed.
Lemma prob_right_zero s u v : wf_seg s -> Rbar_le v (sa s) -> Rbar_le u v -> prob s u v = 0.
Proof.
  intros W H UV. destruct (isDirac s) eqn:D.
  - destruct s as [| | | |a m|]; try discriminate. simpl in *. destruct (Rbar_lt_dec u a) as [|]; auto.
    destruct (Rbar_lt_dec a v) as [L|]; auto. exfalso. exact (Rbar_lt_not_le _ _ L H).
  - rewrite prob_Q; auto. rewrite !clamp_low; auto using wf_le; [apply Q_refl|]. apply (Rbar_le_trans _ v); auto.
Qed.
(** outside the piece the interval can be extended *)
Lemma prob_low s u u' v : isDirac s = false -> wf_seg s -> Rbar_le u (sa s) -> Rbar_le u' (sa s) -> Rbar_le u v -> Rbar_le u' v ->
  prob s u v = prob s u' v.
Proof. intros D W H1 H2 H3 H4. rewrite !prob_Q; auto. rewrite (clamp_low s u), (clamp_low s u'); auto using wf_le. Qed.
Lemma prob_high s u v v' : isDirac s = false -> wf_seg s -> Rbar_le (sb s) v -> Rbar_le (sb s) v' -> Rbar_le u v -> Rbar_le u v' ->
  prob s u v = prob s u v'.
Proof. intros D W H1 H2 H3 H4. rewrite !prob_Q; auto. rewrite (clamp_high s v), (clamp_high s v'); auto using wf_le. Qed.

Lemma perm_pairs {X} (P : X -> X -> Prop) l l' : (forall x y, P x y -> P y x) -> Permutation l l' ->
  ForallOrdPairs P l -> ForallOrdPairs P l'.
Proof.
  intros Sy. induction 1 as [|x l l' H IH|x y l|l1 l2 l3 H1 IH1 H2 IH2]; auto.
  - intros F. inversion F; subst. constructor; auto. rewrite Forall_forall in *. intros z Hz. apply H2.
    apply (Permutation_in _ (Permutation_sym H)); auto.
  - intros F. inversion F as [|? ? F1 F2]; subst. inversion F2 as [|? ? F3 F4]; subst. inversion F1; subst.
    constructor; constructor; auto.
Qed.

(** positive and negative half lines *)
Definition pos_side (s : segment) : Prop := Rbar_le 0 (sa s).
Definition neg_side (s : segment) : Prop := Rbar_lt (sa s) 0 /\ Rbar_le (sb s) 0.

Section Even.
Variables (g ginv dginv : R -> R).
Hypothesis g0 : g 0 = 0.
Hypothesis geven : forall x, g (- x) = g x.
Hypothesis IPp : inverse_pair true (ext_even g) ginv 0 p_infty.
Hypothesis DV : derivative_on ginv dginv 0 p_infty.
Let G := ext_even g.

Lemma IPn : inverse_pair false G (fun y => - ginv y) m_infty 0.
Proof.
  destruct IPp as (M & I & O). split; [|split].
  - intros x y _ L H.
    assert (L' : Rbar_lt (Rbar_opp y) (Rbar_opp x)).
    { destruct x as [x| |]; destruct y as [y| |]; simpl in *; try tauto; lra. }
    assert (E : forall z, G z = G (Rbar_opp z)).
    { intros [z| |]; simpl; auto. rewrite geven; auto. }
    rewrite (E x), (E y). apply M; auto.
    + destruct y as [y| |]; simpl in *; try tauto; lra.
    + destruct x; simpl; auto.
  - intros x (_ & X). destruct (I (- x)) as (y & Y1 & Y2).
    { split; simpl; auto. simpl in X. lra. }
    exists y. split; [|lra]. simpl. simpl in Y1. rewrite <- Y1. f_equal. rewrite geven. auto.
  - intros y Y. destruct (O y) as ((O1 & _) & O2).
    { simpl in *. exact Y. }
    split; [split; simpl; auto; simpl in O1; lra|]. simpl in *. rewrite geven. auto.
Qed.

Lemma even_pos s : wf_seg s -> has_int s -> cont_inside s -> pos_side s ->
  exists t, evenComposition g ginv dginv s = Ok t /\ image_piece true G 0 p_infty s t /\ 
    (forall a m, s = DiracSeg a m -> t = DiracSeg (g a) m).
Proof.
  intros W HI C P. unfold pos_side in P.
  assert (Wi : within 0 p_infty s) by (split; auto; destruct (sb s); simpl; auto).
  destruct (isDirac s) eqn:D.
  - destruct s as [| | | |a m|]; try discriminate. exists (DiracSeg (g a) m). splits.
    + reflexivity.
    + apply (image_dirac true G ginv 0 p_infty); auto. simpl. auto.
    + intros a' m' E. injection E as <- <-. auto.
  - pose proof (wf_lt s D W) as L.
    assert (PB : Rbar_lt 0 (sb s)) by (apply (Rbar_le_lt_trans _ (sa s)); auto).
    assert (T : exists t, evenComposition g ginv dginv s = Ok t /\ isDirac t = false /\
       sa t = G (sa s) /\ sb t = G (sb s) /\ forall y, sf t y = prob_comp (sf s) ginv dginv y).
    { assert (E : evenComposition g ginv dginv s =
          let fn := prob_comp (sf s) ginv dginv in
          match sb s with
          | Finite b =>
              if blt 0 (sa s) then Ok (Seg (g (real (sa s))) (g b) fn)
              else Ok (PoleSeg (g (real (sa s))) (g b) fn true)
          | _ => Ok (PInfSeg (g (real (sa s))) fn)
          end).
      { pose proof (proj2 (ble_true _ _) P) as E1. pose proof (proj2 (blt_true _ _) PB) as E2.
        destruct s; try discriminate D; unfold evenComposition; rewrite E1, E2; reflexivity. }
      rewrite E. cbv zeta.
      destruct (sa s) as [a| |] eqn:EA; try (now simpl in P); try (now simpl in L).
      destruct (sb s) as [b| |] eqn:EB; try (now simpl in L).
      - destruct (blt 0 a); eexists; splits; reflexivity.
      - eexists; splits; reflexivity. }
    destruct T as (t & E & Dt & E1 & E2 & F). exists t. splits; auto; [|intros a m ->; discriminate].
    apply (image_smooth true G ginv dginv 0 p_infty s t); auto.
    intros y (Y1 & Y2). apply DV. split; [|simpl; auto].
    apply (Rbar_le_lt_trans _ (G (sa s))); auto.
    pose proof (g_le true G ginv 0 p_infty IPp 0 (sa s) (Rbar_le_refl _) P) as K. unfold lo_end, hi_end in K.
    replace (Finite 0) with (G 0) by (simpl; rewrite g0; auto). apply K. apply (Rbar_le_trans _ (sb s)); [apply Rbar_lt_le; auto|apply Wi].
Qed.

Lemma even_neg s : wf_seg s -> has_int s -> cont_inside s -> neg_side s ->
  exists t, evenComposition g ginv dginv s = Ok t /\ image_piece false G m_infty 0 s t /\
    (forall a m, s = DiracSeg a m -> t = DiracSeg (g a) m).
Proof.
  intros W HI C (P1 & P2).
  assert (Wi : within m_infty 0 s) by (split; auto; destruct (sa s); simpl; auto).
  destruct (isDirac s) eqn:D.
  - destruct s as [| | | |a m|]; try discriminate. exists (DiracSeg (g a) m). splits.
    + reflexivity.
    + apply (image_dirac false G _ m_infty 0 _ _ _ IPn); auto. simpl. auto.
    + intros a' m' E. injection E as <- <-. auto.
  - pose proof (wf_lt s D W) as L.
    assert (T : exists t, evenComposition g ginv dginv s = Ok t /\ isDirac t = false /\
       sa t = G (sb s) /\ sb t = G (sa s) /\ forall y, sf t y = prob_comp (sf s) (fun x => - ginv x) dginv y).
    { assert (E : evenComposition g ginv dginv s =
          let fn := prob_comp (sf s) (fun x => - ginv x) dginv in
          match sa s with
          | Finite a =>
              if blt (sb s) 0 then Ok (Seg (g (real (sb s))) (g a) fn)
              else Ok (PoleSeg (g (real (sb s))) (g a) fn true)
          | _ => Ok (PInfSeg (g (real (sb s))) fn)
          end).
      { assert (E1 : ble 0 (sa s) = false).
        { destruct (bleP 0 (sa s)) as [H|]; auto. exfalso. exact (Rbar_lt_not_le _ _ P1 H). }
        pose proof (proj2 (blt_true _ _) P1) as E2. pose proof (proj2 (ble_true _ _) P2) as E3.
        destruct s; try discriminate D; unfold evenComposition; rewrite E1, E2, E3; reflexivity. }
      rewrite E. cbv zeta.
      destruct (sb s) as [b| |] eqn:EB; try (now simpl in P2); try (now simpl in L); try (destruct (sa s); now simpl in L).
      destruct (sa s) as [a| |] eqn:EA; try (now simpl in L).
      - destruct (blt b 0); eexists; splits; reflexivity.
      - eexists; splits; reflexivity. }
    destruct T as (t & E & Dt & E1 & E2 & F). exists t. splits; auto; [|intros a m ->; discriminate].
    apply (image_smooth false G (fun y => - ginv y) (fun y => - dginv y) m_infty 0 s t IPn); auto.
    + intros y (Y1 & Y2). unfold lo_end, hi_end in *. destruct (DV y) as (D1 & D2).
      { split; [|simpl; auto]. apply (Rbar_le_lt_trans _ (G (sb s))); auto.
        pose proof (g_le false G _ m_infty 0 IPn (sb s) 0) as K. unfold lo_end, hi_end in K.
        replace (Finite 0) with (G 0) by (simpl; rewrite g0; auto). apply K; auto; [destruct (sb s); simpl; auto|apply Rbar_le_refl]. }
      split; [apply (is_derive_opp (V := R_NormedModule) ginv y (dginv y)); auto|].
      apply (continuous_opp (V := R_NormedModule) dginv); auto.
    + intros y. rewrite F. unfold prob_comp. rewrite Rabs_Ropp. auto.
Qed.

(** an interval whose left end is below zero *)
Lemma even_pos_low s t y u v : image_piece true G 0 p_infty s t -> wf_seg s -> pos_side s ->
  (forall a m, s = DiracSeg a m -> t = DiracSeg (g a) m) ->
  Rbar_lt y 0 -> Rbar_lt u 0 -> Rbar_lt 0 v -> prob t y (G v) = prob s u v.
Proof.
  intros IM W P DD Y U V. assert (V' : Rbar_le v p_infty) by (destruct v; simpl; auto).
  assert (G0 : G 0 = 0) by (simpl; rewrite g0; auto).
  assert (GV : Rbar_lt 0 (G v)).
  { rewrite <- G0. apply (g_lt true G ginv 0 p_infty IPp 0 v); auto using Rbar_le_refl. }
  destruct (isDirac s) eqn:D.
  - destruct s as [| | | |a m|]; try discriminate. rewrite (DD a m eq_refl). simpl in P. unfold prob.
    assert (GA : Rbar_le 0 (G a)).
    { rewrite <- G0. apply (g_le true G ginv 0 p_infty IPp 0 a); simpl; auto. lra. }
    change (Finite (g a)) with (G a).
    destruct (Rbar_lt_dec y (G a)) as [_|H]; [|exfalso; apply H, (Rbar_lt_le_trans _ 0); auto].
    destruct (Rbar_lt_dec u a) as [_|H]; [|exfalso; apply H, (Rbar_lt_le_trans _ 0); auto].
    destruct (Rbar_lt_dec a v) as [H|H]; destruct (Rbar_lt_dec (G a) (G v)) as [H'|H']; auto; exfalso.
    + apply H'. apply (g_lt true G ginv 0 p_infty IPp a v); auto.
    + apply Rbar_not_lt in H. apply (Rbar_lt_not_le _ _ H').
      apply (g_le true G ginv 0 p_infty IPp v a); [apply Rbar_lt_le; auto|auto|exact I].
  - destruct IM as (I1 & I2 & I3 & I4 & I5 & I6). unfold lo_end, hi_end in *.
    assert (SA : Rbar_le 0 (sa t)).
    { rewrite I4, <- G0. apply (g_le true G ginv 0 p_infty IPp 0 (sa s)); auto using Rbar_le_refl. destruct (sa s); simpl; auto. }
    assert (U1 : Rbar_le u (sa s)) by (apply (Rbar_le_trans _ 0); auto; apply Rbar_lt_le; auto).
    assert (U2 : Rbar_le y (sa t)) by (apply (Rbar_le_trans _ 0); auto; apply Rbar_lt_le; auto).
    assert (UV : Rbar_le u v) by (apply Rbar_lt_le, (Rbar_lt_trans _ 0); auto).
    assert (YV : Rbar_le y (G v)) by (apply Rbar_lt_le, (Rbar_lt_trans _ 0); auto).
    rewrite <- (prob_low s 0 u); auto using Rbar_lt_le.
    rewrite <- (I6 0 v); auto using Rbar_le_refl. rewrite G0. apply prob_low; auto using Rbar_lt_le. congruence.
Qed.

Lemma even_neg_low s t y u v : image_piece false G m_infty 0 s t -> wf_seg s -> neg_side s ->
  (forall a m, s = DiracSeg a m -> t = DiracSeg (g a) m) ->
  Rbar_lt y 0 -> Rbar_lt u 0 -> Rbar_lt 0 v -> prob t y (G u) = prob s u v.
Proof.
  intros IM W (P1 & P2) DD Y U V. assert (V' : Rbar_le m_infty u) by (destruct u; simpl; auto).
  assert (G0 : G 0 = 0) by (simpl; rewrite g0; auto).
  assert (GV : Rbar_lt 0 (G u)).
  { rewrite <- G0. apply (g_lt false G _ m_infty 0 IPn u 0); auto using Rbar_le_refl. }
  destruct (isDirac s) eqn:D.
  - destruct s as [| | | |a m|]; try discriminate. rewrite (DD a m eq_refl). simpl in P1, P2. unfold prob.
    assert (GA : Rbar_le 0 (G a)).
    { rewrite <- G0. apply (g_le false G _ m_infty 0 IPn a 0); simpl; auto. lra. }
    change (Finite (g a)) with (G a).
    destruct (Rbar_lt_dec y (G a)) as [_|H]; [|exfalso; apply H, (Rbar_lt_le_trans _ 0); auto].
    destruct (Rbar_lt_dec a v) as [_|H]; [|exfalso; apply H, (Rbar_lt_trans _ 0); auto].
    destruct (Rbar_lt_dec u a) as [H|H]; destruct (Rbar_lt_dec (G a) (G u)) as [H'|H']; auto; exfalso.
    + apply H'. apply (g_lt false G _ m_infty 0 IPn u a); auto.
    + apply Rbar_not_lt in H. apply (Rbar_lt_not_le _ _ H').
      apply (g_le false G _ m_infty 0 IPn a u); [exact I|auto|apply Rbar_lt_le; auto].
  - destruct IM as (I1 & I2 & I3 & I4 & I5 & I6). unfold lo_end, hi_end in *.
    assert (SA : Rbar_le 0 (sa t)).
    { rewrite I4, <- G0. apply (g_le false G _ m_infty 0 IPn (sb s) 0); auto using Rbar_le_refl. }
    assert (U1 : Rbar_le (sb s) v) by (apply (Rbar_le_trans _ 0); auto; apply Rbar_lt_le; auto).
    assert (U2 : Rbar_le y (sa t)) by (apply (Rbar_le_trans _ 0); auto; apply Rbar_lt_le; auto).
    assert (UV : Rbar_le u v) by (apply Rbar_lt_le, (Rbar_lt_trans _ 0); auto).
    assert (YV : Rbar_le y (G u)) by (apply Rbar_lt_le, (Rbar_lt_trans _ 0); auto).
    rewrite <- (prob_high s u 0); auto using Rbar_lt_le.
    rewrite <- (I6 u 0); auto using Rbar_le_refl. rewrite G0. apply prob_low; auto using Rbar_lt_le. congruence.
Qed.

(** ** lists *)
Variable eps : R.
Hypothesis eps0 : 0 <= eps.

(** the two accumulators of even_loop *)
Lemma even_loop_ok F l lp ln : Forall2 (fun s t => F s = Ok t) (filter (fun s => ble 0 (sa s)) l) lp ->
  Forall2 (fun s t => F s = Ok t) (filter (fun s => negb (ble 0 (sa s))) l) ln ->
  forall p q p' q', addAll eps p lp = Ok p' -> addAll eps q ln = Ok q' ->
  even_loop eps F p q l = Ok (p', q').
Proof.
  revert lp ln. induction l as [|s l IH]; intros lp ln Hp Hn p q p' q' Ep En; simpl in *.
  - inversion Hp; inversion Hn; subst. simpl in *. injection Ep as <-. injection En as <-. reflexivity.
  - destruct (ble 0 (sa s)); simpl in *.
    + inversion Hp as [|? t ? lp' E1 E2]; subst. rewrite E1. cbn [rbind]. simpl in Ep.
      destruct (addSegment eps p t) as [p1|]; simpl in Ep |- *; [|discriminate]. eapply IH; eauto.
    + inversion Hn as [|? t ? ln' E1 E2]; subst. rewrite E1. cbn [rbind]. simpl in En.
      destruct (addSegment eps q t) as [q1|]; simpl in En |- *; [|discriminate]. eapply IH; eauto.
Qed.

Lemma filter_ordered (f : segment -> bool) l : ordered l -> ordered (filter f l).
Proof.
  induction 1 as [|s l O IH F]; simpl; [constructor|]. destruct (f s); auto. constructor; auto.
  rewrite Forall_forall in *. intros t Ht. apply filter_In in Ht. apply F; tauto.
Qed.
Lemma filter_Forall {X} (P : X -> Prop) (f : X -> bool) l : Forall P l -> Forall P (filter f l).
Proof. rewrite !Forall_forall. intros H x Hx. apply filter_In in Hx. apply H; tauto. Qed.

Lemma filter_pprob (f : segment -> bool) l u v : pprob l u v = pprob (filter f l) u v + pprob (filter (fun s => negb (f s)) l) u v.
Proof. unfold pprob. induction l as [|s l IH]; simpl; [lra|]. rewrite IH. destruct (f s); simpl; lra. Qed.

Lemma sep_of_images inc a b l l' : inverse_pair inc G (if inc then ginv else fun y => - ginv y) a b ->
  ordered l -> Forall wf_seg l -> Forall (within a b) l -> 
  Forall2 (fun s t => image_piece inc G a b s t /\ (forall x m, s = DiracSeg x m -> t = DiracSeg (g x) m)) l l' ->
  atoms_even_sep eps g l -> dirac_sep eps l'.
Proof.
  intros IP O W Wi F S. apply (image_sep_of eps inc G a b l l'); [|exact F].
  clear F. induction O as [|s l O IH FO]; [constructor|]. inversion W; inversion Wi; subst.
  constructor.
  - apply Forall_forall. intros t Ht. destruct s as [| | | |x m|]; auto. destruct t as [| | | |z k|]; auto. simpl.
    destruct (S x m z k) as [E|]; simpl; auto. exfalso.
    rewrite Forall_forall in FO, H6. destruct (FO _ Ht) as (B1 & B2). simpl in B1, B2.
    assert (L : Rbar_lt x z) by (simpl; destruct (Rle_lt_or_eq_dec _ _ B1); auto; congruence).
    pose proof (g_lt inc G _ a b IP x z (proj1 H5) L (proj2 (H6 _ Ht))) as GL.
    unfold lo_end, hi_end in GL. destruct inc; simpl in GL; rewrite E in GL; lra.
  - apply IH; auto. intros x m z k Hx Hz. apply (S x m z k); simpl; auto.
Qed.

Lemma image_cross inc inc' A B A' B' l l' k k' :
  Forall2 (fun s t => image_piece inc G A B s t /\ (forall x m, s = DiracSeg x m -> t = DiracSeg (g x) m)) l l' ->
  Forall2 (fun s t => image_piece inc' G A' B' s t /\ (forall x m, s = DiracSeg x m -> t = DiracSeg (g x) m)) k k' ->
  (forall a m b n, In (DiracSeg a m) l -> In (DiracSeg b n) k -> g a = g b \/ eps < Rabs (g a - g b)) ->
  forall a m b n, In (DiracSeg a m) l' -> In (DiracSeg b n) k' -> a = b \/ eps < Rabs (a - b).
Proof.
  assert (K : forall inc A B l l', Forall2 (fun s t => image_piece inc G A B s t /\ (forall x m, s = DiracSeg x m -> t = DiracSeg (g x) m)) l l' ->
     forall a m, In (DiracSeg a m) l' -> exists x, In (DiracSeg x m) l /\ a = g x).
  { clear. intros inc A B l l' F a m H. induction F as [|s t l l' (I1 & I2) F IH]; [destruct H|]. destruct H as [->|H].
    - destruct I1 as (D & _). destruct s as [| | | |x m'|]; try discriminate D. specialize (I2 x m' eq_refl).
      injection I2 as -> ->. exists x; simpl; auto.
    - destruct (IH H) as (x & ? & ?). exists x; simpl; auto. }
  intros F1 F2 S a m b n Ha Hb. destruct (K _ _ _ _ _ F1 _ _ Ha) as (x & X1 & ->). destruct (K _ _ _ _ _ F2 _ _ Hb) as (y & Y1 & ->).
  eapply S; eauto.
Qed.

Lemma Forall2_sum (F H : segment -> R) l l' : Forall2 (fun s t => F t = H s) l l' -> sumR (map F l') = sumR (map H l).
Proof. induction 1; simpl; lra. Qed.
Lemma Forall2_and_l {X Y} (P : X -> Prop) (R : X -> Y -> Prop) l l' : Forall P l -> Forall2 R l l' -> Forall2 (fun x y => P x /\ R x y) l l'.
Proof. intros H F. revert H. induction F; intros H'; inversion H'; subst; constructor; auto. Qed.

Lemma even_split_full l : ordered l -> Forall wf_seg l -> Forall has_int l -> Forall cont_inside l -> dirac_sep eps l -> atoms_even_sep eps g l ->
  exists p lp ln, splitByPoints eps l [Finite 0] = Ok p /\
    even_loop eps (evenComposition g ginv dginv) empty_pwf empty_pwf (segs p) = Ok (lp, ln) /\
    good eps (segs lp) /\ good eps (segs ln) /\ Forall has_int (segs lp) /\ Forall has_int (segs ln) /\
    cross_sep eps (segs lp) (segs ln) /\ Forall (within 0 p_infty) (segs lp) /\ Forall (within 0 p_infty) (segs ln) /\
    (forall u v, Rbar_le 0 u -> Rbar_lt u v ->
       pprob (segs lp) (G u) (G v) = pprob l u v /\ pprob (segs ln) (G u) (G v) = pprob l (Rbar_opp v) (Rbar_opp u)) /\
    (forall y v, Rbar_lt y 0 -> Rbar_lt 0 v ->
       pprob (segs lp) y (G v) + pprob (segs ln) y (G v) = pprob l (Rbar_opp v) v) /\
    (exists lp', Forall2 (fun s t => pos_side s /\ evenComposition g ginv dginv s = Ok t) (filter (fun s => ble 0 (sa s)) (split_all [Finite 0] l)) lp' /\
       Permutation lp' (segs lp)) /\
    (exists ln', Forall2 (fun s t => neg_side s /\ evenComposition g ginv dginv s = Ok t) (filter (fun s => negb (ble 0 (sa s))) (split_all [Finite 0] l)) ln' /\
       Permutation ln' (segs ln)).
Proof.
  intros O W HI C DS S.
  assert (S0 : StronglySorted Rbar_lt [Finite 0]) by (constructor; constructor).
  destruct (splitByPoints_ok eps l [Finite 0] S0 O W DS) as (p & E & Es & _).
  destruct (split_all_ordered [Finite 0] l S0 O W) as (O' & W' & P').
  assert (HI' : Forall has_int (split_all [Finite 0] l)) by (apply (split_all_prob [Finite 0] l 0 0); auto using Rbar_le_refl).
  assert (C' : Forall cont_inside (split_all [Finite 0] l)) by (apply split_all_cont; auto).
  assert (PR : forall u v, Rbar_le u v -> pprob (split_all [Finite 0] l) u v = pprob l u v) by (intros; apply split_all_prob; auto).
  assert (NI : forall s, In s (split_all [Finite 0] l) -> ~ inside s 0).
  { intros s Hs. apply (split_no_inside [Finite 0] l s 0); auto. left; auto. }
  assert (DA : forall a m, In (DiracSeg a m) (split_all [Finite 0] l) -> In (DiracSeg a m) l).
  { intros a m H. assert (HH : In (DiracSeg a m) (getDiracs (split_all [Finite 0] l))) by (apply filter_In; auto).
    rewrite split_diracs in HH; auto. apply filter_In in HH. tauto. }
  exists p. rewrite Es. set (L := split_all [Finite 0] l) in *. 
  set (LP := filter (fun s => ble 0 (sa s)) L). set (LN := filter (fun s => negb (ble 0 (sa s))) L).
  assert (SP : Forall pos_side LP).
  { apply Forall_forall. intros s Hs. apply filter_In in Hs. apply ble_true. tauto. }
  assert (SN : Forall neg_side LN).
  { apply Forall_forall. intros s Hs. apply filter_In in Hs. destruct Hs as (Hs & Hb).
    destruct (bleP 0 (sa s)) as [|N]; [discriminate|]. apply Rbar_not_le in N. split; auto.
    destruct (isDirac s) eqn:D; [destruct s; try discriminate; apply Rbar_lt_le; auto|].
    apply Rbar_not_lt. intros H. apply (NI s Hs). split; auto. }
  assert (FP : exists lp', Forall2 (fun s t => (pos_side s /\ wf_seg s) /\ evenComposition g ginv dginv s = Ok t /\ image_piece true G 0 p_infty s t /\
    (forall a m, s = DiracSeg a m -> t = DiracSeg (g a) m)) LP lp').
  { apply Forall_ex2. apply Forall_forall. intros s Hs. rewrite Forall_forall in SP. specialize (SP s Hs).
    apply filter_In in Hs. rewrite Forall_forall in W', HI', C'. destruct Hs as (Hs & _).
    destruct (even_pos s (W' s Hs) (HI' s Hs) (C' s Hs) SP) as (t & T). exists t. auto. }
  assert (FN : exists ln', Forall2 (fun s t => (neg_side s /\ wf_seg s) /\ evenComposition g ginv dginv s = Ok t /\ image_piece false G m_infty 0 s t /\
    (forall a m, s = DiracSeg a m -> t = DiracSeg (g a) m)) LN ln').
  { apply Forall_ex2. apply Forall_forall. intros s Hs. rewrite Forall_forall in SN. specialize (SN s Hs).
    apply filter_In in Hs. rewrite Forall_forall in W', HI', C'. destruct Hs as (Hs & _).
    destruct (even_neg s (W' s Hs) (HI' s Hs) (C' s Hs) SN) as (t & T). exists t. auto. }
  destruct FP as (lp' & FP). destruct FN as (ln' & FN).
  assert (WP : Forall (within 0 p_infty) LP).
  { eapply Forall_impl; [|exact SP]. intros s H. split; auto. destruct (sb s); simpl; auto. }
  assert (WN : Forall (within m_infty 0) LN).
  { eapply Forall_impl; [|exact SN]. intros s H. split; [destruct (sa s); simpl; auto|apply H]. }
  assert (FP1 : Forall2 (fun s t => image_piece true G 0 p_infty s t /\ (forall x m, s = DiracSeg x m -> t = DiracSeg (g x) m)) LP lp')
    by (eapply Forall2_imp; [|exact FP]; simpl; tauto).
  assert (FN1 : Forall2 (fun s t => image_piece false G m_infty 0 s t /\ (forall x m, s = DiracSeg x m -> t = DiracSeg (g x) m)) LN ln')
    by (eapply Forall2_imp; [|exact FN]; simpl; tauto).
  assert (AP : atoms_even_sep eps g LP).
  { intros a m b k Ha Hb. apply filter_In in Ha. apply filter_In in Hb. apply (S a m b k); apply DA; tauto. }
  assert (AN : atoms_even_sep eps g LN).
  { intros a m b k Ha Hb. apply filter_In in Ha. apply filter_In in Hb. apply (S a m b k); apply DA; tauto. }
  assert (OP := filter_ordered (fun s => ble 0 (sa s)) L O'). assert (ON := filter_ordered (fun s => negb (ble 0 (sa s))) L O').
  assert (WFP := filter_Forall wf_seg (fun s => ble 0 (sa s)) L W'). assert (WFN := filter_Forall wf_seg (fun s => negb (ble 0 (sa s))) L W').
  fold LP in OP, WFP. fold LN in ON, WFN.
  assert (DP : dirac_sep eps lp') by (apply (sep_of_images true 0 p_infty LP); auto).
  assert (DN : dirac_sep eps ln') by (apply (sep_of_images false m_infty 0 LN); auto; apply IPn).
  destruct (list_image eps true G ginv 0 p_infty LP lp' IPp OP WFP WP) as (qp & QP1 & QP2 & QP3 & QP4 & QP5 & QP6); auto.
  { eapply Forall2_imp; [|exact FP]; simpl; tauto. }
  destruct (list_image eps false G _ m_infty 0 LN ln' IPn ON WFN WN) as (qn & QN1 & QN2 & QN3 & QN4 & QN5 & QN6); auto.
  { eapply Forall2_imp; [|exact FN]; simpl; tauto. }
  assert (SEP : forall q l0, Permutation l0 (segs q) -> dirac_sep eps l0 -> dirac_sep eps (segs q)).
  { intros q l0 HP. unfold dirac_sep. intros H. apply (perm_pairs _ l0); auto.
    intros [] []; auto. rewrite Rabs_minus_sym. auto. }
  assert (G0 : G 0 = 0) by (simpl; rewrite g0; auto).
  exists qp, qn. splits; auto.
  - apply (even_loop_ok _ L lp' ln'); auto.
    + eapply Forall2_imp; [|exact FP]; simpl; tauto.
    + eapply Forall2_imp; [|exact FN]; simpl; tauto.
  - split; auto. split; auto. eapply SEP; eauto.
  - split; auto. split; auto. eapply SEP; eauto.
  - intros a m b k Ha Hb. apply (image_cross true false 0 p_infty m_infty 0 LP lp' LN ln' FP1 FN1) with (m := m) (n := k).
    + intros a0 m0 b0 n0 H1 H2. apply filter_In in H1. apply filter_In in H2. apply (S a0 m0 b0 n0); apply DA; tauto.
    + apply (Permutation_in _ (Permutation_sym QP2)); auto.
    + apply (Permutation_in _ (Permutation_sym QN2)); auto.
  - apply Forall_forall. intros t Ht. apply (Permutation_in _ (Permutation_sym QP2)) in Ht.
    clear - FP Ht G0 IPp. induction FP as [|s t' LP lp' H F IH]; [destruct Ht|]. destruct Ht as [<-|Ht]; auto.
    destruct H as ((P & W) & _ & (_ & _ & _ & E1 & E2 & _) & _). unfold lo_end, hi_end in *. split; [|destruct (sb t'); simpl; auto].
    rewrite E1, <- G0. apply (g_le true G ginv 0 p_infty IPp 0 (sa s)); auto using Rbar_le_refl. destruct (sa s); simpl; auto.
  - apply Forall_forall. intros t Ht. apply (Permutation_in _ (Permutation_sym QN2)) in Ht. pose proof IPn as IN.
    clear - FN Ht G0 IN. induction FN as [|s t' LP lp' H F IH]; [destruct Ht|]. destruct Ht as [<-|Ht]; auto.
    destruct H as (((P1 & P2) & W) & _ & (_ & _ & _ & E1 & E2 & _) & _). unfold lo_end, hi_end in *. split; [|destruct (sb t'); simpl; auto].
    rewrite E1, <- G0. apply (g_le false G _ m_infty 0 IN (sb s) 0); auto using Rbar_le_refl. destruct (sb s); simpl; auto.
  - intros u v U UV. 
    assert (U' : Rbar_le (Rbar_opp u) 0) by (destruct u; simpl in *; auto; lra).
    assert (UV' : Rbar_lt (Rbar_opp v) (Rbar_opp u)) by (destruct u; destruct v; simpl in *; auto; lra).
    split.
    + specialize (QP6 u v U UV). unfold lo_end, hi_end in QP6. rewrite QP6 by (destruct v; simpl; auto).
      rewrite <- PR by (apply Rbar_lt_le; auto). rewrite (filter_pprob (fun s => ble 0 (sa s)) L). fold LP LN.
      assert (Z : pprob LN u v = 0).
      { unfold pprob. clear - SN WFN U UV. induction LN as [|s r IH]; simpl; auto. inversion SN; inversion WFN; subst. rewrite IH; auto.
        rewrite prob_left_zero; auto; [lra|apply (Rbar_le_trans _ 0); auto; apply H1|apply Rbar_lt_le; auto]. }
      rewrite Z. lra.
    + specialize (QN6 (Rbar_opp v) (Rbar_opp u)). unfold lo_end, hi_end in QN6.
      assert (EG : forall z, G (Rbar_opp z) = G z) by (intros [z| |]; simpl; auto; rewrite geven; auto). rewrite !EG in QN6.
      rewrite QN6; auto; [|destruct v; simpl; auto].
      rewrite <- PR by (apply Rbar_lt_le; auto). rewrite (filter_pprob (fun s => ble 0 (sa s)) L). fold LP LN.
      assert (Z : pprob LP (Rbar_opp v) (Rbar_opp u) = 0).
      { unfold pprob. clear - SP WFP U' UV'. induction LP as [|s r IH]; simpl; auto. inversion SP; inversion WFP; subst. rewrite IH; auto.
        rewrite prob_right_zero; auto; [lra|apply (Rbar_le_trans _ 0); auto|apply Rbar_lt_le; auto]. }
      rewrite Z. lra.
  - intros y v Y V.
    assert (V' : Rbar_lt (Rbar_opp v) 0) by (destruct v; simpl in *; auto; lra).
    rewrite <- PR by (apply Rbar_lt_le, (Rbar_lt_trans _ 0); auto). rewrite (filter_pprob (fun s => ble 0 (sa s)) L). fold LP LN.
    f_equal.
    + rewrite <- (pprob_perm lp'); auto. unfold pprob. apply Forall2_sum. eapply Forall2_imp; [|exact FP]. simpl.
      intros s t ((H1 & H2) & H3 & H4 & H5). apply even_pos_low; auto.
    + rewrite <- (pprob_perm ln'); auto. unfold pprob. apply Forall2_sum. eapply Forall2_imp; [|exact FN]. simpl.
      intros s t ((H1 & H2) & H3 & H4 & H5). replace (G v) with (G (Rbar_opp v)) by (destruct v; simpl; auto; rewrite geven; auto).
      apply even_neg_low; auto.
  - exists lp'. split; auto. eapply Forall2_imp; [|exact FP]; simpl; tauto.
  - exists ln'. split; auto. eapply Forall2_imp; [|exact FN]; simpl; tauto.
Qed.

Lemma even_split l : ordered l -> Forall wf_seg l -> Forall has_int l -> Forall cont_inside l -> dirac_sep eps l -> atoms_even_sep eps g l ->
  exists p lp ln, splitByPoints eps l [Finite 0] = Ok p /\
    even_loop eps (evenComposition g ginv dginv) empty_pwf empty_pwf (segs p) = Ok (lp, ln) /\
    good eps (segs lp) /\ good eps (segs ln) /\ Forall has_int (segs lp) /\ Forall has_int (segs ln) /\
    cross_sep eps (segs lp) (segs ln) /\ Forall (within 0 p_infty) (segs lp) /\ Forall (within 0 p_infty) (segs ln) /\
    (forall u v, Rbar_le 0 u -> Rbar_lt u v ->
       pprob (segs lp) (G u) (G v) = pprob l u v /\ pprob (segs ln) (G u) (G v) = pprob l (Rbar_opp v) (Rbar_opp u)) /\
    (forall y v, Rbar_lt y 0 -> Rbar_lt 0 v ->
       pprob (segs lp) y (G v) + pprob (segs ln) y (G v) = pprob l (Rbar_opp v) v).
Proof.
  intros O W HI C DS S.
  destruct (even_split_full l O W HI C DS S) as (p & lp & ln & E1 & E2 & G1 & G2 & H1 & H2 & X & W1 & W2 & L1 & L2 & _).
  exists p, lp, ln. splits; auto; apply L1; auto.
Qed.
End Even.
