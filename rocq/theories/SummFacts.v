(** Shape of shifted and folded densities: no gaps, no negative values, no right poles. *)
From Coq Require Import Reals Lra List Bool Sorted Permutation.
From Coquelicot Require Import Coquelicot.
From Verif Require Import Base Seg Piecewise PiecewiseSpec PiecewiseFacts PiecewiseFacts2 PiecewiseFacts3 PiecewiseFacts4 Integral SegInt SegIntSpec
  CumintFacts Transform TransformSpec TransformFacts TransformFacts2 TransformFacts3 TransformFacts4 TransformFacts5.
Import List ListNotations.
Open Scope R_scope.

(** ** Gaps *)

Lemma avoid_real (F : list R) : forall a b : R, a < b -> exists c d, a <= c /\ c < d /\ d <= b /\ forall x, c < x < d -> ~ In x F.
Proof.
  induction F as [|y F IH]; intros a b L.
  - exists a, b. repeat split; try lra. intros x _ H; destruct H.
  - destruct (Rlt_dec y ((a + b) / 2)) as [H|H].
    + destruct (IH ((a + b) / 2) b) as (c & d & H1 & H2 & H3 & H4); [lra|]. exists c, d. repeat split; try lra.
      intros x Hx [E|HF]; [lra|exact (H4 x Hx HF)].
    + destruct (IH a ((a + b) / 2)) as (c & d & H1 & H2 & H3 & H4); [lra|]. exists c, d. repeat split; try lra.
      intros x Hx [E|HF]; [lra|exact (H4 x Hx HF)].
Qed.
Lemma avoid (F : list R) (a b : Rbar) : Rbar_lt a b -> exists x : R, Rbar_lt a x /\ Rbar_lt x b /\ ~ In x F.
Proof.
  intros L.
  assert (exists u v : R, u < v /\ Rbar_le a u /\ Rbar_le v b) as (u & v & UV & U & V).
  { destruct a as [a| |]; destruct b as [b| |]; simpl in L; try contradiction.
    - exists a, b. simpl; repeat split; lra.
    - exists a, (a + 1). simpl; repeat split; lra.
    - exists (b - 1), b. simpl; repeat split; lra.
    - exists 0, 1. simpl; repeat split; lra. }
  destruct (avoid_real F u v UV) as (c & d & H1 & H2 & H3 & H4).
  exists ((c + d) / 2). repeat split.
  - apply (Rbar_le_lt_trans _ u); auto. simpl; lra.
  - apply (Rbar_lt_le_trans _ v); auto. simpl; lra.
  - apply H4. lra.
Qed.

(** every point between lo and hi outside a finite set lies in a continuous piece *)
Definition filled (l : list segment) (lo hi : Rbar) : Prop :=
  exists F : list R, forall x : R, Rbar_lt lo x -> Rbar_lt x hi -> ~ In x F -> exists s, In s l /\ isDirac s = false /\ covers s x.
Definition in_hull (l : list segment) (lo hi : Rbar) : Prop := Forall (fun s => Rbar_le lo (sa s) /\ Rbar_le (sb s) hi) l.

Lemma chained_adjacent l : (forall l1 s t l2, l = l1 ++ s :: t :: l2 -> sb s = sa t) -> chained l.
Proof.
  induction l as [|s l IH]; intros H; simpl; auto. destruct l as [|t l]; auto. split.
  - apply (H [] s t l). reflexivity.
  - apply IH. intros l1 u v l2 E. apply (H (s :: l1) u v l2). rewrite E. reflexivity.
Qed.

Lemma filled_chained l lo hi : ordered l -> Forall wf_seg l -> in_hull l lo hi -> filled l lo hi -> chained l.
Proof.
  intros O W I (F & C). apply chained_adjacent. intros l1 s t l2 E.
  unfold in_hull in I. rewrite Forall_forall in W, I.
  assert (Is : In s l) by (rewrite E; apply in_or_app; simpl; auto).
  assert (It : In t l) by (rewrite E; apply in_or_app; simpl; auto).
  assert (Ws := wf_le s (W s Is)). assert (Wt := wf_le t (W t It)).
  rewrite E in O. apply SS_app in O. destruct O as (_ & O & X).
  apply StronglySorted_inv in O. destruct O as (O & Fs). apply StronglySorted_inv in O. destruct O as (_ & Ft).
  rewrite Forall_forall in Fs, Ft.
  destruct (Fs t (or_introl eq_refl)) as (B & _).
  apply Rbar_le_antisym; auto. apply Rbar_not_lt. intros L.
  destruct (avoid F _ _ L) as (x & L1 & L2 & N).
  destruct (C x) as (u & Iu & Du & (C1 & C2)); auto.
  { apply (Rbar_le_lt_trans _ (sb s)); auto. apply (Rbar_le_trans _ (sa s)); auto. apply I; auto. }
  { apply (Rbar_lt_le_trans _ (sa t)); auto. apply (Rbar_le_trans _ (sb t)); auto. apply I; auto. }
  assert (Wu := wf_le u (W u Iu)).
  rewrite E in Iu. apply in_app_or in Iu. destruct Iu as [Iu|[<-|[<-|Iu]]].
  - destruct (X u s Iu (or_introl eq_refl)) as (B1 & _).
    apply (Rbar_lt_not_le _ _ C2). apply (Rbar_le_trans _ (sa s)); auto. apply (Rbar_le_trans _ (sb s)); auto using Rbar_lt_le.
  - apply (Rbar_lt_not_le _ _ C2). apply Rbar_lt_le; auto.
  - apply (Rbar_lt_not_le _ _ L2); auto.
  - destruct (Ft u Iu) as (B1 & _). apply (Rbar_lt_not_le _ _ L2). apply (Rbar_le_trans _ (sa u)); auto.
    apply (Rbar_le_trans _ (sb t)); auto.
Qed.

Lemma path_covers l : Forall wf_seg l -> forall a b (x : R), path a l b -> Rbar_le a x -> Rbar_lt x b ->
  exists s, In s l /\ isDirac s = false /\ covers s x.
Proof.
  induction l as [|s l IH]; intros W a b x P A B; simpl in P.
  - subst. destruct (Rbar_lt_not_le _ _ B A).
  - destruct P as (E & P). inversion W; subst. destruct (Rbar_lt_dec x (sb s)) as [L|L].
    + exists s. split; [simpl; auto|]. split; [|split; auto]. destruct s; auto. simpl in *. lra.
    + apply Rbar_not_lt in L. destruct (IH H2 (sb s) b x P L B) as (t & T1 & T2). exists t. split; auto. simpl; auto.
Qed.
Lemma path_hull l : Forall wf_seg l -> forall a b, path a l b -> Rbar_le a b /\ in_hull l a b.
Proof.
  induction l as [|s l IH]; intros W a b P; simpl in P.
  - subst. split; [apply Rbar_le_refl|constructor].
  - destruct P as (E & P). inversion W; subst. destruct (IH H2 _ _ P) as (L & I). pose proof (wf_le s H1) as Ls. split.
    + eapply Rbar_le_trans; eauto.
    + constructor; [split; auto using Rbar_le_refl|]. unfold in_hull in *. eapply Forall_impl; [|exact I]. simpl. intros t (T1 & T2). split; auto.
      eapply Rbar_le_trans; eauto.
Qed.

(** ** Folding at zero *)

Lemma abs_pos_shape s t : wf_seg s -> pos_side s -> absComposition s = Ok t ->
  sa t = sa s /\ sb t = sb s /\ isDirac t = isDirac s /\ hasRightPole t = false /\ (nonneg_piece s -> nonneg_piece t).
Proof.
  unfold absComposition, evenComposition, pos_side. intros W P E.
  destruct s as [a b f|a b c|b f|a f|a m|a b f p]; simpl in W, P, E.
  5:{ injection E as <-. simpl. rewrite Rabs_pos_eq by auto. repeat split; auto. }
  3:{ contradiction. }
  3:{ destruct (bleP 0 a) as [H|H]; [|contradiction]. destruct (bltP 0 p_infty) as [H1|H1]; [|simpl in H1; tauto]. simpl in E. injection E as <-. simpl in *. rewrite Rabs_pos_eq by auto. repeat split; auto.
      intros N x X _. unfold prob_comp. apply Rmult_le_pos; [|apply Rabs_pos]. apply N; auto. rewrite Rabs_pos_eq; lra. }
  all: destruct (bleP 0 a) as [H|H]; [|contradiction]; destruct (bltP 0 b) as [H1|H1]; [|simpl in *; lra]; cbn [andb orb] in E;
    destruct (bltP 0 a); injection E as <-; simpl in *; rewrite !Rabs_pos_eq by lra; repeat split; auto;
    intros N x X Y; unfold prob_comp; apply Rmult_le_pos; try apply Rabs_pos; simpl; try rewrite (Rabs_pos_eq x) by lra; apply (N x); lra.
Qed.
Lemma abs_neg_shape s t : wf_seg s -> neg_side s -> absComposition s = Ok t ->
  sa t = Rbar_opp (sb s) /\ sb t = Rbar_opp (sa s) /\ isDirac t = isDirac s /\ hasRightPole t = false /\ (nonneg_piece s -> nonneg_piece t).
Proof.
  unfold absComposition, evenComposition, neg_side. intros W (P1 & P2) E.
  destruct s as [a b f|a b c|b f|a f|a m|a b f p]; simpl in W, P1, P2, E.
  5:{ injection E as <-. simpl. rewrite Rabs_left by auto. repeat split; auto. }
  4:{ contradiction. }
  3:{ destruct (bleP b 0) as [H|H]; [|contradiction]. destruct (bltP m_infty 0) as [H1|H1]; [|simpl in H1; tauto].
      destruct (bleP 0 m_infty) as [H2|H2]; [simpl in H2; tauto|]. simpl in E. injection E as <-. simpl in *. rewrite Rabs_left1 by auto. repeat split; auto.
      intros N x X _. unfold prob_comp. apply Rmult_le_pos; [|apply Rabs_pos]. apply N; auto. rewrite Rabs_pos_eq; lra. }
  all: destruct (bleP 0 a) as [H|H]; [simpl in *; lra|]; destruct (bltP a 0) as [H1|H1]; [|simpl in *; lra];
    destruct (bleP b 0) as [H2|H2]; [|contradiction]; cbn [andb orb] in E;
    destruct (bltP b 0); injection E as <-; simpl in *; rewrite !Rabs_left1 by lra; repeat split; auto;
    intros N x X Y; unfold prob_comp; apply Rmult_le_pos; try apply Rabs_pos; simpl; try rewrite (Rabs_pos_eq x) by lra; apply (N (- x)); lra.
Qed.

(** ** Splitting *)

Lemma split_piece_pole seg a b : hasRightPole seg = false -> hasRightPole (split_piece seg a b) = false.
Proof.
  intros H. unfold split_piece. destruct (_ && _)%bool; auto. destruct (_ && _)%bool; auto. destruct (_ && _)%bool; auto.
  rewrite H. simpl. destruct (isDirac seg); auto.
Qed.
Lemma split_all_shape pts l : StronglySorted Rbar_lt pts -> Forall wf_seg l -> forall u, In u (split_all pts l) ->
  exists s, In s l /\ isDirac u = isDirac s /\ Rbar_le (sa s) (sa u) /\ Rbar_le (sb u) (sb s) /\ sf u = sf s /\
    (nonneg_piece s -> nonneg_piece u) /\ (hasRightPole s = false -> hasRightPole u = false).
Proof.
  intros S W u Hu. apply split_all_In in Hu. destruct Hu as (s & Hs & Hu). exists s. rewrite Forall_forall in W.
  destruct (split_seg_spec pts s S (W s Hs)) as (P1 & _ & _ & P4 & _). rewrite Forall_forall in P1.
  destruct (P1 u Hu) as (Wu & Du & Fu & A & B). repeat split; auto.
  - intros N. destruct (isDirac s) eqn:D.
    + rewrite (P4 eq_refl) in Hu. destruct Hu as [<-|[]]. auto.
    + assert (K : forall x : R, Rbar_lt (sa u) x -> Rbar_lt x (sb u) -> 0 <= sf u x).
      { intros x X Y. rewrite Fu. assert (N' : forall x : R, Rbar_lt (sa s) x -> Rbar_lt x (sb s) -> 0 <= sf s x)
          by (clear - N D; destruct s; simpl in *; try discriminate; auto).
        apply N'; [eapply Rbar_le_lt_trans|eapply Rbar_lt_le_trans]; eauto. }
      clear - K Du. destruct u; simpl in *; try discriminate; auto.
  - intros H. clear - H Hu. unfold split_seg in Hu. revert Hu. generalize (filter (fun x => (blt (sa s) x && blt x (sb s))%bool) pts) as inds.
    intros inds. generalize (sa s) as a. induction inds as [|b inds IH]; intros a Hu; simpl in Hu.
    + destruct Hu as [<-|[]]. apply split_piece_pole; auto.
    + destruct Hu as [<-|Hu]; [apply split_piece_pole; auto|]. eapply IH; eauto.
Qed.
Lemma split_all_covers pts l (x : R) s : StronglySorted Rbar_lt pts -> Forall wf_seg l -> In s l -> isDirac s = false -> covers s x ->
  exists u, In u (split_all pts l) /\ isDirac u = false /\ covers u x.
Proof.
  intros S W Hs D C. rewrite Forall_forall in W.
  destruct (split_seg_spec pts s S (W s Hs)) as (P1 & _ & _ & _ & P5 & _). rewrite Forall_forall in P1.
  destruct (proj1 (P5 D x) C) as (u & Hu & Cu). exists u. split; [apply split_all_In; eauto|]. split; auto.
  destruct (P1 u Hu) as (_ & Du & _). congruence.
Qed.

(** ** Sums *)

Lemma op_pieces_cover op f g (x : R) s : ordered f -> ordered g -> Forall wf_seg f -> Forall wf_seg g ->
  In s f \/ In s g -> isDirac s = false -> covers s x ->
  exists u, In u (op_pieces op f g) /\ isDirac u = false /\ covers u x.
Proof.
  intros Of Og Wf Wg Hs D C.
  set (B := np_unique (getBreaks f ++ getBreaks g)).
  pose proof (B_sorted f g) as SB. fold B in SB.
  assert (K : exists t, (In t (split_all B f) \/ In t (split_all B g)) /\ isDirac t = false /\ covers t x /\ In (sa t, sb t) (pairs_up B)).
  { destruct Hs as [Hs|Hs].
    - destruct (split_all_covers B f x s SB Wf Hs D C) as (t & T1 & T2 & T3). exists t. repeat split; auto; try apply T3.
      apply (split_piece_pair f g f x); auto. intros y Hy. apply B_In; auto.
    - destruct (split_all_covers B g x s SB Wg Hs D C) as (t & T1 & T2 & T3). exists t. repeat split; auto; try apply T3.
      apply (split_piece_pair f g g x); auto. intros y Hy. apply B_In; auto. }
  destruct K as (t & Ht & Dt & Ct & Pt).
  assert (L : Rbar_lt (sa t) (sb t)) by (eapply Rbar_le_lt_trans; apply Ct).
  assert (N : exists u, In u (piece_of f g op (sa t, sb t))).
  { unfold piece_of. cbn [fst snd]. fold B. destruct (fs_ok f g Of Wf) as (Ofs & Wfs). destruct (gs_ok f g Og Wg) as (Ogs & Wgs). fold B in Ofs, Wfs, Ogs, Wgs.
    destruct Ht as [Ht|Ht].
    - rewrite (findSegmentByEnds_hit (split_all B f) t); auto. simpl. eexists; left; reflexivity.
    - rewrite (findSegmentByEnds_hit (split_all B g) t); auto. destruct (findSegmentByEnds _ _ _); simpl; eexists; left; reflexivity. }
  destruct N as (u & Hu). exists u.
  destruct (piece_of_spec f g Of Og Wf Wg op (sa t) (sb t) u L Hu) as (U1 & U2 & (U3 & U4) & _).
  split; [|split]; auto.
  - apply (hs_In f g Wf Wg op). eauto.
  - unfold covers. rewrite U1, U2. exact Ct.
Qed.

Lemma plus_pieces_shape f g u : ordered f -> ordered g -> Forall wf_seg f -> Forall wf_seg g -> In u (op_pieces Rplus f g) ->
  Forall nonneg_piece f -> Forall nonneg_piece g -> Forall (fun s => hasRightPole s = false) f -> Forall (fun s => hasRightPole s = false) g ->
  nonneg_piece u /\ hasRightPole u = false /\ (is_end f (sa u) \/ is_end g (sa u)) /\ (is_end f (sb u) \/ is_end g (sb u)).
Proof.
  intros Of Og Wf Wg Hu Nf Ng Pf Pg.
  pose proof (B_sorted f g) as SB. set (B := np_unique (getBreaks f ++ getBreaks g)) in *.
  pose proof Hu as Hu'. apply (hs_In f g Wf Wg Rplus) in Hu'. destruct Hu' as (a & b & Hab & Hin). fold B in Hab.
  apply pairs_up_In in Hab; auto. destruct Hab as (Ia & Ib & L & _).
  destruct (piece_of_spec f g Of Og Wf Wg Rplus a b u L Hin) as (U1 & U2 & (U3 & U4) & _ & U5). fold B in U5.
  assert (KF : forall t, findSegmentByEnds (split_all B f) a b = Some t -> sa t = a /\ sb t = b /\ isDirac t = false /\ nonneg_piece t /\ hasRightPole t = false).
  { intros t E. apply findSegmentByEnds_Some in E. destruct E as (Ht & E1 & E2).
    destruct (split_all_shape B f SB Wf t Ht) as (s & Hs & D & _ & _ & _ & N & P). rewrite Forall_forall in Nf, Pf. repeat split; auto.
    destruct t; auto. simpl in E1, E2. rewrite <- E1, <- E2 in L. destruct (Rbar_lt_irrefl _ L). }
  assert (KG : forall t, findSegmentByEnds (split_all B g) a b = Some t -> sa t = a /\ sb t = b /\ isDirac t = false /\ nonneg_piece t /\ hasRightPole t = false).
  { intros t E. apply findSegmentByEnds_Some in E. destruct E as (Ht & E1 & E2).
    destruct (split_all_shape B g SB Wg t Ht) as (s & Hs & D & _ & _ & _ & N & P). rewrite Forall_forall in Ng, Pg. repeat split; auto.
    destruct t; auto. simpl in E1, E2. rewrite <- E1, <- E2 in L. destruct (Rbar_lt_irrefl _ L). }
  assert (NN : forall t (x : R), isDirac t = false -> nonneg_piece t -> Rbar_lt (sa t) x -> Rbar_lt x (sb t) -> 0 <= sf t x).
  { clear. intros t x D N X Y. destruct t; simpl in *; try discriminate; apply (N x); auto. }
  split; [|split; [|split]].
  - assert (K : forall x : R, Rbar_lt (sa u) x -> Rbar_lt x (sb u) -> 0 <= sf u x).
    { rewrite U1, U2. intros x X Y. rewrite U5. unfold make_segfun.
      destruct (findSegmentByEnds (split_all B f) a b) as [t1|]; destruct (findSegmentByEnds (split_all B g) a b) as [t2|]; try lra.
      - destruct (KF t1 eq_refl) as (A1 & A2 & A3 & A4 & _). destruct (KG t2 eq_refl) as (B1 & B2 & B3 & B4 & _).
        apply Rplus_le_le_0_compat; apply NN; auto; congruence.
      - destruct (KF t1 eq_refl) as (A1 & A2 & A3 & A4 & _). rewrite Rplus_0_r. apply NN; auto; congruence.
      - destruct (KG t2 eq_refl) as (B1 & B2 & B3 & B4 & _). rewrite Rplus_0_l. apply NN; auto; congruence. }
    clear - K U3. destruct u; simpl in *; try discriminate; auto.
  - unfold piece_of in Hin. cbn [fst snd] in Hin. fold B in Hin.
    assert (RM : forall t F, hasRightPole t = false -> hasRightPole (remake t F) = false) by (clear; intros [] F; simpl; auto).
    destruct (findSegmentByEnds (split_all B f) a b) as [t1|]; destruct (findSegmentByEnds (split_all B g) a b) as [t2|]; simpl in Hin;
      try contradiction; destruct Hin as [<-|[]]; apply RM; try apply (KF _ eq_refl); apply (KG _ eq_refl).
  - rewrite U1. apply B_In in Ia. rewrite !getBreaks_In in Ia. destruct Ia; [left|right]; auto.
  - rewrite U2. apply B_In in Ib. rewrite !getBreaks_In in Ib. destruct Ib; [left|right]; auto.
Qed.
