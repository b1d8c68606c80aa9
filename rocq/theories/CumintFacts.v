(** Facts about cumulative integration. *)
From Coq Require Import Reals Lra List Bool Sorted Permutation.
From Coquelicot Require Import Coquelicot.
From Verif Require Import Base Bisect Seg Piecewise PiecewiseSpec PiecewiseFacts PiecewiseFacts2 Integral IntegralFacts SegInt SegIntSpec SegIntFacts.
Import List ListNotations.
Open Scope R_scope.

(** cumulative mass of one piece in terms of quadrature *)
Definition cpart (s : segment) (x : R) : R :=
  match s with
  | DiracSeg a m => if Rle_dec a x then m else 0
  | _ => Q (sf s) (sa s) (clamp s x)
  end.

Lemma mass_Q s : isDirac s = false -> wf_seg s -> mass s = Q (sf s) (sa s) (sb s).
Proof.
  intros D W. assert (W' : Rbar_lt (sa s) (sb s)) by (destruct s; auto; discriminate).
  destruct s; try discriminate; simpl mass; symmetry; apply Q_RInt_gen; auto.
Qed.

Lemma mass_upto_cpart s x : wf_seg s -> mass_upto s x = cpart s x.
Proof.
  intros W. destruct (isDirac s) eqn:D; [destruct s; try discriminate; reflexivity|].
  assert (W' : Rbar_lt (sa s) (sb s)) by (destruct s; auto; discriminate).
  assert (E : mass_upto s x = if Rbar_le_dec x (sa s) then 0
         else if Rbar_le_dec (sb s) x then mass s
         else RInt_gen (sf s) (at_r (sa s)) (at_left x)) by (destruct s; auto; discriminate).
  assert (E' : cpart s x = Q (sf s) (sa s) (clamp s x)) by (destruct s; auto; discriminate).
  rewrite E, E'. destruct (Rbar_le_dec x (sa s)) as [L|L].
  - rewrite clamp_low; auto using Rbar_lt_le. rewrite Q_refl; auto.
  - apply Rbar_not_le in L. destruct (Rbar_le_dec (sb s) x) as [L'|L'].
    + rewrite clamp_high; auto using Rbar_lt_le. apply mass_Q; auto.
    + apply Rbar_not_le in L'. rewrite clamp_id; auto using Rbar_lt_le.
      rewrite Q_RInt_gen; auto.
Qed.

(** value added by one piece in the loop of cumint *)
Definition cmass (s : segment) : R :=
  match s with DiracSeg _ m => m | _ => Q (sf s) (sa s) (sb s) end.
Lemma cmass_mass s : wf_seg s -> cmass s = mass s.
Proof.
  intros W. destruct (isDirac s) eqn:D; [destruct s; try discriminate; reflexivity|].
  rewrite mass_Q; auto. destruct s; try discriminate; auto.
Qed.

Lemma const_integrate a b c (x : R) : a <= x <= b ->
  seg_integrate (ConstSeg a b c) a x = Q (fun _ => c) a x.
Proof.
  intros H. rewrite Q_const. unfold seg_integrate, clip_lo, clip_hi. cbn [sa sb].
  rewrite (proj2 (blt_false a a)) by (simpl; lra). rewrite (proj2 (blt_false b x)) by (simpl; lra). reflexivity.
Qed.

Lemma cumint_value s y0 (x : R) : isDirac s = false -> wf_seg s -> integrable_piece s ->
  Rbar_le (sa s) x -> Rbar_le x (sb s) ->
  sf (seg_cumint s (if isPInf s then y0 + seg_integrate s (sa s) p_infty else y0)) x = y0 + cpart s x.
Proof.
  intros D W HI X1 X2.
  assert (W' : Rbar_lt (sa s) (sb s)) by (destruct s; auto; discriminate).
  pose proof (integrable_piece_int s D HI) as HI'.
  assert (K : isConst s = false -> forall u v, Rbar_le u v -> seg_integrate s u v = Q (sf s) (clamp s u) (clamp s v)).
  { intros C u v UV. apply seg_integrate_clamp; auto. }
  assert (E' : cpart s x = Q (sf s) (sa s) (clamp s x)) by (destruct s; auto; discriminate).
  rewrite E'. rewrite clamp_id; auto.
  destruct s as [a b f|a b c|b f|a f|a m|a b f l]; try discriminate; cbn [isPInf seg_cumint sf segIntegral].
  - rewrite K; auto. rewrite !clamp_id; auto using Rbar_le_refl, Rbar_lt_le.
  - rewrite const_integrate; auto.
  - rewrite K; auto; try (simpl; auto; fail). rewrite !clamp_id; auto using Rbar_le_refl, Rbar_lt_le.
  - rewrite !K; auto; try (simpl; auto; fail).
    rewrite !clamp_id; auto using Rbar_le_refl, Rbar_lt_le. cbn [sa sb sf] in *.
    pose proof (Q_chasles f a p_infty a x p_infty HI' (Rbar_le_refl _) (Rbar_lt_le _ _ W') X1 (Rbar_lt_le x p_infty I) (Rbar_lt_le _ _ W') (Rbar_le_refl _)) as HC.
    change (sf (PInfSeg a f)) with f. lra.
  - rewrite K; auto. rewrite !clamp_id; auto using Rbar_le_refl, Rbar_lt_le.
Qed.

Lemma cumint_ends s y0 : sa (seg_cumint s y0) = sa s /\ sb (seg_cumint s y0) = sb s /\ isPInf (seg_cumint s y0) = isPInf s /\
  isMInf (seg_cumint s y0) = isMInf s /\ isDirac (seg_cumint s y0) = false.
Proof. destruct s; simpl; auto. Qed.

(** the pieces of the cumulative function, and its final value *)
Definition cumpiece (s : segment) (f0 : R) : segment :=
  seg_cumint s (if isPInf s then f0 + seg_integrate s (sa s) p_infty else f0).
Fixpoint cums (l : list segment) (f0 : R) : list segment :=
  match l with
  | [] => []
  | s :: l' => (if isDirac s then [] else [cumpiece s f0]) ++ cums l' (f0 + cmass s)
  end.
Fixpoint lastp (l : list segment) (f0 : R) (last : option segment) : option segment :=
  match l with
  | [] => last
  | s :: l' => lastp l' (f0 + cmass s) (Some (cumpiece s f0))
  end.
Definition cmasses (l : list segment) : R := sumR (map cmass l).

Lemma cumint_next s f0 : wf_seg s -> integrable_piece s ->
  (if isPInf s then f0 + seg_integrate s (sa s) p_infty else sf (cumpiece s f0) (real (sb (cumpiece s f0)))) = f0 + cmass s.
Proof.
  intros W HI. destruct (isPInf s) eqn:P.
  - destruct s; try discriminate. rewrite seg_integrate_clamp; auto; try (simpl; auto; fail).
    rewrite !clamp_id; simpl; auto using Rle_refl.
  - unfold cumpiece. destruct (isDirac s) eqn:D.
    + destruct s; try discriminate. cbn [isPInf seg_cumint sf segIntegral sb sa real seg_integrate].
      rewrite beq_refl. rewrite orb_true_r. reflexivity.
    + rewrite (proj1 (proj2 (cumint_ends s _))).
      assert (W' : Rbar_lt (sa s) (sb s)) by (destruct s; auto; discriminate).
      assert (F : Finite (real (sb s)) = sb s) by (destruct s; try discriminate; reflexivity).
      rewrite cumint_value; auto; try (rewrite F; auto using Rbar_lt_le, Rbar_le_refl).
      f_equal. transitivity (Q (sf s) (sa s) (clamp s (real (sb s)))); [destruct s; auto; discriminate|].
      rewrite F. rewrite clamp_id; auto using Rbar_lt_le, Rbar_le_refl. destruct s; auto; discriminate.
Qed.

Lemma cumint_loop_eq eps l : Forall wf_seg l -> Forall integrable_piece l -> forall f0 p last,
  cumint_loop eps l f0 p last =
  rbind (addAll eps p (cums l f0)) (fun p' => Ok (f0 + cmasses l, p', lastp l f0 last)).
Proof.
  induction l as [|s l IH]; intros W HI f0 p last.
  - simpl. unfold cmasses; simpl. rewrite Rplus_0_r. auto.
  - inversion W; subst. inversion HI; subst. cbn [cumint_loop cums lastp].
    fold (cumpiece s f0).
    pose proof (cumint_next s f0 H1 H3) as N.
    assert (M : f0 + cmass s + cmasses l = f0 + cmasses (s :: l)) by (unfold cmasses; simpl; ring).
    destruct (isDirac s) eqn:D.
    + cbn [rbind fst snd app].
      assert (P : isPInf s = false) by (destruct s; auto; discriminate).
      rewrite P in *. rewrite N, IH; auto. rewrite M. reflexivity.
    + cbn [app addAll]. destruct (addSegment eps p (cumpiece s f0)) as [p'|e]; cbn [rmap rbind fst snd]; auto.
      replace (if isPInf s then if isPInf s then f0 + seg_integrate s (sa s) p_infty else f0
               else sf (cumpiece s f0) (real (sb (cumpiece s f0)))) with (f0 + cmass s) by (rewrite <- N; destruct (isPInf s); reflexivity).
      rewrite IH; auto. rewrite M. reflexivity.
Qed.

(** consecutive pieces from a to b *)
Fixpoint path (a : Rbar) (l : list segment) (b : Rbar) : Prop :=
  match l with
  | [] => a = b
  | s :: l' => sa s = a /\ path (sb s) l' b
  end.

Lemma path_app a b c l1 l2 : path a l1 b -> path b l2 c -> path a (l1 ++ l2) c.
Proof.
  revert a. induction l1; simpl; intros x H H2; [subst; auto|]. destruct H; auto.
Qed.
Lemma path_app_inv a c l1 l2 : path a (l1 ++ l2) c -> exists b, path a l1 b /\ path b l2 c.
Proof.
  revert a. induction l1 as [|s l1 IH]; simpl; intros a H; [exists a; auto|].
  destruct H as (E & H). destruct (IH _ H) as (b & H1 & H2). exists b; auto.
Qed.
Lemma chained_path l s l' : l = s :: l' -> chained l -> exists b, path (sa s) l b.
Proof.
  intros -> . revert s. induction l' as [|t l' IH]; intros s H.
  - exists (sb s). simpl; auto.
  - destruct H as (E & H). destruct (IH t H) as (b & Hb). exists b. split; auto. rewrite E. auto.
Qed.
Lemma path_chained a l b : path a l b -> chained l.
Proof.
  revert a. induction l as [|s l IH]; intros a H; simpl; auto. destruct H as (_ & H).
  destruct l as [|t l]; auto. split; [symmetry; apply H|]. eapply IH; eauto.
Qed.
Lemma path_cums l : forall a b f0, path a l b -> path a (cums l f0) b.
Proof.
  induction l as [|s l IH]; intros a b f0 H; simpl; auto. destruct H as (E & H).
  destruct (isDirac s) eqn:D; simpl.
  - apply IH. assert (sb s = sa s) by (destruct s; try discriminate; auto). rewrite <- E, <- H0. auto.
  - unfold cumpiece. destruct (cumint_ends s (if isPInf s then f0 + seg_integrate s (sa s) p_infty else f0)) as (E1 & E2 & _).
    rewrite E1, E2. auto.
Qed.
Lemma cums_cont l : forall f0, Forall wf_seg l -> Forall continuous_piece (cums l f0).
Proof.
  induction l as [|s l IH]; intros f0 W; simpl; [constructor|]. inversion W; subst.
  destruct (isDirac s) eqn:D; simpl; auto. constructor; auto.
  unfold cumpiece. destruct (cumint_ends s (if isPInf s then f0 + seg_integrate s (sa s) p_infty else f0)) as (E1 & E2 & E3 & E4 & E5).
  split; auto. assert (W' : Rbar_lt (sa s) (sb s)) by (destruct s; auto; discriminate).
  revert E1 E2 E5. generalize (seg_cumint s (if isPInf s then f0 + seg_integrate s (sa s) p_infty else f0)).
  intros t E1 E2 E5. rewrite <- E1, <- E2 in W'. destruct t; simpl in *; auto.
Qed.

(** on a path the ends increase *)
Lemma path_le a l b : Forall wf_seg l -> path a l b -> Rbar_le a b.
Proof.
  revert a. induction l as [|s l IH]; intros a W H; simpl in H; [subst; apply Rbar_le_refl|].
  inversion W; subst. destruct H as (E & H). subst a.
  apply (Rbar_le_trans _ (sb s)); [apply wf_le; auto|auto].
Qed.
Lemma path_cover a l b (x : R) : Forall wf_seg l -> Forall (fun s => isDirac s = false) l -> path a l b ->
  Rbar_le a x -> Rbar_lt x b ->
  exists l1 s l2, l = l1 ++ s :: l2 /\ covers s x.
Proof.
  revert a. induction l as [|s l IH]; intros a W D H A B; simpl in H.
  - subst. destruct (Rbar_lt_irrefl b). apply (Rbar_le_lt_trans _ x); auto.
  - inversion W; subst. inversion D; subst. destruct H as (E & H).
    destruct (bltP x (sb s)) as [L|L].
    + exists [], s, l. split; auto. split; auto. rewrite E; auto.
    + apply Rbar_not_lt in L. destruct (IH (sb s)) as (l1 & t & l2 & E2 & C); auto.
      exists (s :: l1), t, l2. rewrite E2. auto.
Qed.

Lemma path_In a l b s : Forall wf_seg l -> path a l b -> In s l -> Rbar_le a (sa s) /\ Rbar_le (sb s) b.
Proof.
  revert a. induction l as [|t l IH]; intros a W H I; [destruct I|].
  inversion W; subst. destruct H as (E & H). destruct I as [->|I].
  - subst a. split; [apply Rbar_le_refl|]. eapply path_le; eauto.
  - destruct (IH (sb t)) as (A & B); auto. split; auto. subst a.
    apply (Rbar_le_trans _ (sb t)); auto. apply wf_le; auto.
Qed.

(** contributions of pieces left and right of x *)
Lemma cpart_left s (x : R) : wf_seg s -> Rbar_le (sb s) x -> cpart s x = cmass s.
Proof.
  intros W H. destruct (isDirac s) eqn:D.
  - destruct s; try discriminate. simpl in *. destruct (Rle_dec a x); tauto.
  - assert (W' : Rbar_lt (sa s) (sb s)) by (destruct s; auto; discriminate).
    transitivity (Q (sf s) (sa s) (clamp s x)); [destruct s; auto; discriminate|].
    rewrite clamp_high; auto using Rbar_lt_le. destruct s; auto; discriminate.
Qed.
Lemma cpart_right s (x : R) : wf_seg s -> Rbar_le x (sa s) -> (isDirac s = true -> Rbar_lt x (sa s)) -> cpart s x = 0.
Proof.
  intros W H HD. destruct (isDirac s) eqn:D.
  - destruct s; try discriminate. simpl in *. specialize (HD eq_refl). destruct (Rle_dec a x); auto; lra.
  - assert (W' : Rbar_lt (sa s) (sb s)) by (destruct s; auto; discriminate).
    transitivity (Q (sf s) (sa s) (clamp s x)); [destruct s; auto; discriminate|].
    rewrite clamp_low; auto using Rbar_lt_le. apply Q_refl.
Qed.

Definition cF (l : list segment) (x : R) : R := sumR (map (fun s => cpart s x) l).

Lemma cF_left l (x : R) : Forall wf_seg l -> (forall s, In s l -> Rbar_le (sb s) x) -> cF l x = cmasses l.
Proof.
  intros W H. unfold cF, cmasses. f_equal. apply map_ext_in. intros s Hs.
  rewrite Forall_forall in W. apply cpart_left; auto.
Qed.
Lemma cF_right l (x : R) : Forall wf_seg l -> (forall s, In s l -> Rbar_lt x (sa s)) -> cF l x = 0.
Proof.
  intros W H. unfold cF. induction l as [|s l IH]; simpl; auto. inversion W; subst.
  rewrite IH; auto; [|intros; apply H; right; auto].
  rewrite cpart_right; auto; try ring.
  - apply Rbar_lt_le, H; left; auto.
  - intros _. apply H; left; auto.
Qed.

(** value of the piece covering x *)
Lemma cums_value l : Forall wf_seg l -> Forall integrable_piece l -> forall a b f0 (x : R) t, path a l b ->
  In t (cums l f0) -> covers t x -> sf t x = f0 + cF l x.
Proof.
  intros W HI. induction l as [|s l IH]; intros a b f0 x t P I C; [destruct I|].
  inversion W; subst. inversion HI; subst. destruct P as (E & P). simpl in I.
  apply in_app_or in I. destruct I as [I|I].
  - destruct (isDirac s) eqn:D; [destruct I|]. destruct I as [<-|[]].
    unfold cumpiece in *. destruct (cumint_ends s (if isPInf s then f0 + seg_integrate s (sa s) p_infty else f0)) as (E1 & E2 & _).
    destruct C as (C1 & C2). rewrite E1 in C1. rewrite E2 in C2.
    rewrite cumint_value; auto using Rbar_lt_le. unfold cF; simpl. 
    fold (cF l x). rewrite (cF_right l x); auto; [ring|].
    intros u Hu. apply (Rbar_lt_le_trans _ (sb s)); auto. apply (path_In (sb s) l b u); auto.
  - assert (L : Rbar_le (sb s) x).
    { pose proof (proj1 C) as C1. apply (Rbar_le_trans _ (sa t)); auto.
      pose proof (path_cums l _ _ (f0 + cmass s) P) as P'.
      pose proof (cums_cont l (f0 + cmass s) H2) as W'.
      assert (W'' : Forall wf_seg (cums l (f0 + cmass s))) by (eapply Forall_impl; [|exact W']; intros u [_ K]; auto).
      apply (path_In _ _ _ t W'' P' I). }
    rewrite (IH H2 H4 _ _ _ x t P I C). unfold cF. simpl. rewrite (cpart_left s x); auto. ring.
Qed.

Lemma cumpiece_ends s f0 : sa (cumpiece s f0) = sa s /\ sb (cumpiece s f0) = sb s /\ isPInf (cumpiece s f0) = isPInf s /\
  isMInf (cumpiece s f0) = isMInf s.
Proof. unfold cumpiece. destruct (cumint_ends s (if isPInf s then f0 + seg_integrate s (sa s) p_infty else f0)) as (? & ? & ? & ? & _). auto. Qed.

Lemma lastp_spec l : Forall wf_seg l -> Forall integrable_piece l -> forall a b f0 last, l <> [] -> path a l b ->
  exists segi, lastp l f0 last = Some segi /\ sb segi = b /\
    ((isPInf segi = true /\ b = p_infty) \/
     (isPInf segi = false /\ exists r, b = Finite r /\ sf segi r = f0 + cmasses l)).
Proof.
  intros W HI. induction l as [|s l IH]; intros a b f0 last N P; [congruence|].
  inversion W; subst. inversion HI; subst. destruct P as (E & P). cbn [lastp].
  destruct l as [|t l].
  - simpl in P. subst b. exists (cumpiece s f0). split; auto.
    destruct (cumpiece_ends s f0) as (E1 & E2 & E3 & _). split; auto.
    pose proof (cumint_next s f0 H1 H3) as NX. rewrite E3.
    destruct (isPInf s) eqn:PI.
    + left. split; auto. destruct s; try discriminate; auto.
    + right. split; auto. exists (real (sb s)). split.
      * destruct s; try discriminate; auto.
      * rewrite E2 in NX. rewrite NX. unfold cmasses; simpl. ring.
  - destruct (IH H2 H4 (sb s) b (f0 + cmass s) (Some (cumpiece s f0))) as (segi & A & B & C); auto; [discriminate|].
    exists segi. split; auto. split; auto. destruct C as [C|(C1 & r & C2 & C3)]; [left; auto|right].
    split; auto. exists r. split; auto. rewrite C3. unfold cmasses; simpl. ring.
Qed.

Lemma sa_not_pinf s : sa s <> p_infty.
Proof. destruct s; discriminate. Qed.
Lemma cont_path_gap_free a l b : Forall continuous_piece l -> path a l b -> gap_free l.
Proof. intros C P. split; auto. eapply path_chained; eauto. Qed.
Lemma cont_wf l : Forall continuous_piece l -> Forall wf_seg l.
Proof. intros C. eapply Forall_impl; [|exact C]. intros s [_ H]; auto. Qed.
Lemma cont_nodirac l : Forall continuous_piece l -> Forall (fun s => isDirac s = false) l.
Proof. intros C. eapply Forall_impl; [|exact C]. intros s [H _]; auto. Qed.
Lemma cont_sep eps l : Forall continuous_piece l -> dirac_sep eps l.
Proof.
  induction l as [|s l IH]; intros C; [constructor|]. inversion C; subst. apply FOP_cons; [|apply IH; auto].
  apply Forall_forall. intros t _. destruct H1 as [D _]. destruct s; auto; discriminate.
Qed.

Lemma cumint_pieces eps l : density l ->
  exists q lead tail a b, cumint eps l = Ok q /\ path a l b /\
    segs q = lead ++ cums l 0 ++ tail /\
    Forall continuous_piece (segs q) /\ path m_infty (segs q) p_infty /\ brks q = getBreaks (segs q) /\
    (lead = [] \/ exists r, a = Finite r /\ lead = [MInfSeg r (fun _ => 0)]) /\
    (tail = [] \/ exists r, b = Finite r /\ tail = [PInfSeg r (fun _ => cmasses l)]).
Proof.
  intros (N & W & HI & O & CH).
  destruct l as [|s0 l0] eqn:El; [congruence|]. rewrite <- El in *.
  destruct (chained_path l s0 l0 El CH) as (b & P). set (a := sa s0) in *.
  destruct (lastp_spec l W HI a b 0 None N P) as (segi & L1 & L2 & L3).
  pose proof (path_cums l a b 0 P) as PC. pose proof (cums_cont l 0 W) as CC.
  unfold cumint. rewrite cumint_loop_eq; auto. replace (0 + cmasses l) with (cmasses l) in * by ring. rewrite L1.
  assert (E0 : forall A (x : res A) (B C : Type) (f : A -> res B) (g : B -> res C), rbind (rbind x f) g = rbind x (fun y => rbind (f y) g)).
  { intros A x B C f g. destruct x; reflexivity. }
  rewrite E0. cbn [rbind]. clear E0.
  assert (K : exists tail, (tail = [] \/ exists r, b = Finite r /\ tail = [PInfSeg r (fun _ => cmasses l)]) /\
     Forall continuous_piece (cums l 0 ++ tail) /\ path a (cums l 0 ++ tail) p_infty /\
     rbind (addAll eps empty_pwf (cums l 0)) (fun p' => rbind (cumint_tail eps (cmasses l) p' segi) (cumint_lead eps)) =
     rbind (addAll eps empty_pwf (cums l 0 ++ tail)) (cumint_lead eps)).
  { destruct L3 as [(L3 & Eb)|(L3 & r & Eb & L4)].
    - exists []. rewrite app_nil_r. splits; auto; [rewrite <- Eb; auto|].
      destruct (addAll eps empty_pwf (cums l 0)) as [p|e]; cbn [rbind]; auto. unfold cumint_tail. rewrite L3. reflexivity.
    - exists [PInfSeg r (fun _ => cmasses l)]. splits.
      + right. exists r; auto.
      + apply Forall_app. split; auto. apply Forall_cons; auto. split; simpl; auto.
      + eapply path_app; eauto. rewrite Eb. simpl; auto.
      + assert (AA : forall l1 p, addAll eps p (l1 ++ [PInfSeg r (fun _ => cmasses l)]) =
            rbind (addAll eps p l1) (fun p' => addSegment eps p' (PInfSeg r (fun _ => cmasses l)))).
        { induction l1 as [|u l1 IH]; intros p; cbn [addAll app rbind].
          - destruct (addSegment eps p (PInfSeg r (fun _ => cmasses l))); reflexivity.
          - destruct (addSegment eps p u); cbn [rbind]; auto. }
        rewrite AA. destruct (addAll eps empty_pwf (cums l 0)) as [p|e]; cbn [rbind]; auto.
        unfold cumint_tail. rewrite L3, L2, Eb. cbn [real]. rewrite L4, Rmax_left by lra. reflexivity. }
  destruct K as (tail & T & CT & PT & ->).
  pose proof (cont_path_gap_free _ _ _ CT PT) as GT.
  destruct (addAll_ordered eps (cums l 0 ++ tail)) as (p1 & A1 & A2 & A3).
  { apply gap_free_ordered; auto. } { apply cont_wf; auto. } { apply cont_sep; auto. }
  rewrite A1. cbn [rbind]. unfold cumint_lead.
  destruct (segs p1) as [|t E1] eqn:ES.
  { exfalso. rewrite <- A2 in PT. simpl in PT. unfold a in PT. apply (sa_not_pinf s0); auto. }
  assert (Et : sa t = a) by (rewrite <- A2 in PT; apply PT).
  assert (B1 : breaks_ok p1) by (eapply addAll_breaks; [apply empty_breaks|exact A1]).
  destruct (isMInf t) eqn:MT.
  - exists p1, [], tail, a, b. rewrite ES. cbn [app]. rewrite <- A2 in *. splits; auto.
    + replace m_infty with a; auto. rewrite <- Et. destruct t; try discriminate; reflexivity.
  - assert (Ea : exists r, a = Finite r).
    { rewrite <- Et. destruct t; try discriminate; eexists; reflexivity. }
    destruct Ea as (r & Ea). rewrite Et, Ea. cbn [real].
    set (M := MInfSeg r (fun _ => 0)).
    assert (CM : Forall continuous_piece (M :: cums l 0 ++ tail)) by (apply Forall_cons; auto; split; simpl; auto).
    assert (PM : path m_infty (M :: cums l 0 ++ tail) p_infty) by (split; auto; cbn [sb M]; rewrite <- Ea; auto).
    pose proof (cont_path_gap_free _ _ _ CM PM) as GM.
    pose proof (gap_free_ordered _ GM) as OM.
    destruct (addAll_compatible eps [M] p1) as (q & Q1 & Q2 & Q3 & Q4).
    + rewrite ES, A2. apply gap_free_ordered; auto.
    + rewrite ES, A2. apply cont_wf; auto.
    + apply Forall_cons; auto. simpl; auto.
    + apply FOP_cons; [apply Forall_nil|apply FOP_nil].
    + intros s u [<-|[]] Hu. rewrite ES in Hu. apply StronglySorted_inv in OM. destruct OM as [_ OM].
      rewrite Forall_forall in OM. split; [left; apply OM; rewrite <- A2; auto|].
      cbn [M]. auto.
    + cbn [addAll rbind] in Q1. destruct (addSegment eps p1 M) as [q'|e] eqn:EQ; [|discriminate].
      injection Q1; intros ->. exists q, [M], tail, a, b.
      assert (SQ : M :: cums l 0 ++ tail = segs q).
      { apply ordered_unique; auto; [apply cont_wf; auto|].
        rewrite ES, A2 in Q2. rewrite <- Q2. apply Permutation_cons_append. }
      rewrite <- SQ. splits; auto.
      * pose proof (addSegment_breaks eps p1 M q B1 EQ) as BQ. rewrite (breaks_ok_eq q BQ), SQ. auto.
      * right. exists r. auto.
Qed.

Lemma cF_spec l x : Forall wf_seg l -> cdf_spec l x = cF l x.
Proof.
  intros W. unfold cdf_spec, cF. f_equal. apply map_ext_in. intros s Hs. rewrite Forall_forall in W.
  apply mass_upto_cpart; auto.
Qed.
Lemma cmasses_spec l : Forall wf_seg l -> total_mass l = cmasses l.
Proof.
  intros W. unfold total_mass, cmasses. f_equal. apply map_ext_in. intros s Hs. rewrite Forall_forall in W.
  symmetry. apply cmass_mass; auto.
Qed.

Lemma gap_free_covers l s (x : R) : gap_free l -> In s l -> covers s x -> call_scalar l x = Ok (sf s x) /\ call_vec l x = sf s x.
Proof.
  intros G I C.
  assert (N : l <> []) by (intros ->; destruct I).
  destruct (call_scalar_gap_free l x N G) as (v & E & H).
  assert (D : isDirac s = false).
  { destruct G as [G _]. rewrite Forall_forall in G. apply G; auto. }
  assert (H' : has_value l x (sf s x)) by (left; exists s; auto).
  assert (v = sf s x) by (eapply has_value_unique; eauto using gap_free_ordered, gap_free_wf).
  subst v. split; auto.
  pose proof (scalar_vec_agree l x N G) as SV. rewrite E in SV. injection SV; auto.
Qed.

Lemma cumint_cdf eps l : density l ->
  exists q, cumint eps l = Ok q /\ gap_free (segs q) /\ path m_infty (segs q) p_infty /\ brks q = getBreaks (segs q) /\
   forall x : R, call_scalar (segs q) x = Ok (cF l x) /\ call_vec (segs q) x = cF l x.
Proof.
  intros DL. destruct (cumint_pieces eps l DL) as (q & lead & tail & a & b & E & P & SQ & C & PQ & BQ & HL & HT).
  destruct DL as (N & W & HI & O & CH).
  assert (G : gap_free (segs q)) by (eapply cont_path_gap_free; eauto).
  exists q. splits; auto. intros x.
  destruct (path_cover m_infty (segs q) p_infty x) as (l1 & s & l2 & ES & CV); auto.
  { apply cont_wf; auto. } { apply cont_nodirac; auto. } { simpl; auto. } { simpl; auto. }
  assert (Is : In s (segs q)) by (rewrite ES; apply in_or_app; right; left; auto).
  assert (V : sf s x = cF l x).
  { rewrite SQ in Is. apply in_app_or in Is. destruct Is as [Is|Is].
    - destruct HL as [->|(r & Ea & ->)]; [destruct Is|]. destruct Is as [<-|[]].
      rewrite cF_right; auto. intros u Hu. destruct (path_In a l b u W P Hu) as (K1 & _).
      destruct CV as (_ & CV). simpl in CV. apply (Rbar_lt_le_trans _ a); auto. rewrite Ea. auto.
    - apply in_app_or in Is. destruct Is as [Is|Is].
      + rewrite (cums_value l W HI a b 0 x s P Is CV). ring.
      + destruct HT as [->|(r & Eb & ->)]; [destruct Is|]. destruct Is as [<-|[]].
        rewrite cF_left; auto. intros u Hu. destruct (path_In a l b u W P Hu) as (_ & K1).
        destruct CV as (CV & _). apply (Rbar_le_trans _ b); auto. rewrite Eb. auto. }
  rewrite <- V. apply gap_free_covers; auto.
Qed.
