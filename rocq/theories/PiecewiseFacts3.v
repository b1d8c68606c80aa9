(** Splitting and restriction of piecewise functions. *)
From Coq Require Import Reals Lra Lia List Bool Arith Sorted Permutation.
From Coquelicot Require Import Coquelicot.
From Verif Require Import Base Bisect BisectFacts Seg Piecewise PiecewiseSpec PiecewiseFacts PiecewiseFacts2.
Import List ListNotations.
Open Scope R_scope.

(** ** Separation of atoms through their positions *)

Lemma dirac_pos_In l x : In x (dirac_pos l) <-> exists m, In (DiracSeg x m) l.
Proof.
  unfold dirac_pos. rewrite in_flat_map. split.
  - intros (s & H & Hx). destruct s; simpl in Hx; try tauto. destruct Hx as [->|[]]. eauto.
  - intros (m & H). exists (DiracSeg x m); simpl; auto.
Qed.

Lemma dirac_sep_pos eps l :
  dirac_sep eps l <-> ForallOrdPairs (fun a b => eps < Rabs (a - b)) (dirac_pos l).
Proof.
  unfold dirac_sep. induction l as [|s l IH]; simpl.
  - split; constructor.
  - assert (G : match s with DiracSeg _ _ => False | _ => True end ->
       (ForallOrdPairs (fun s t => match s, t with DiracSeg a _, DiracSeg b _ => eps < Rabs (a - b) | _, _ => True end) (s :: l)
       <-> ForallOrdPairs (fun a b => eps < Rabs (a - b)) (dirac_pos l))).
    { intros Hs. rewrite <- IH. split; intros H; [inversion H; auto|].
      constructor; auto. apply Forall_forall. intros t Ht. destruct s; tauto. }
    destruct s as [| | | |a m|]; try (apply G; exact I).
    simpl. split; intros H.
    + inversion H as [|? ? F H']; subst. constructor; [|apply IH; auto].
      apply Forall_forall. intros b Hb. apply dirac_pos_In in Hb. destruct Hb as (k & Hb).
      rewrite Forall_forall in F. apply (F _ Hb).
    + inversion H as [|? ? F H']; subst. constructor; [|apply IH; auto].
      apply Forall_forall. intros t Ht. destruct t; auto.
      rewrite Forall_forall in F. apply F. apply dirac_pos_In. eauto.
Qed.

Lemma dirac_pos_app l1 l2 : dirac_pos (l1 ++ l2) = dirac_pos l1 ++ dirac_pos l2.
Proof. apply flat_map_app. Qed.

Lemma dirac_pos_cont l : Forall (fun s => isDirac s = false) l -> dirac_pos l = [].
Proof.
  induction l as [|s l IH]; intros H; simpl; auto. inversion H; subst.
  rewrite IH by auto. destruct s; simpl in *; auto; discriminate.
Qed.

(** ** Splitting one piece *)

Lemma split_piece_spec seg a b :
  continuous_piece seg -> Rbar_le (sa seg) a -> Rbar_le b (sb seg) -> Rbar_lt a b ->
  sa (split_piece seg a b) = a /\ sb (split_piece seg a b) = b /\
  isDirac (split_piece seg a b) = false /\ sf (split_piece seg a b) = sf seg /\
  wf_seg (split_piece seg a b).
Proof.
  intros [D W] Ha Hb Hab.
  destruct seg as [p q f|p q c|q f|p f|p m|p q f [|]]; try discriminate D; clear D; simpl in W, Ha, Hb;
  destruct a as [a| |]; destruct b as [b| |]; simpl in Ha, Hb, Hab; try contradiction;
  unfold split_piece; simpl; auto;
  bcase; simpl; auto; splits; auto; rb.
Qed.

Lemma split_from_spec seg : continuous_piece seg -> forall inds a,
  Rbar_le (sa seg) a -> Rbar_lt a (sb seg) ->
  StronglySorted Rbar_lt (a :: inds) -> Forall (fun y => Rbar_lt y (sb seg)) inds ->
  let ps := split_from seg a inds in
  Forall (fun s => continuous_piece s /\ sf s = sf seg /\ Rbar_le a (sa s) /\ Rbar_le (sb s) (sb seg)) ps /\
  ordered ps /\
  (forall x : R, (Rbar_le a x /\ Rbar_lt x (sb seg)) <-> exists s, In s ps /\ covers s x) /\
  (forall s y, In s ps -> In y inds -> ~ (Rbar_lt (sa s) y /\ Rbar_lt y (sb s))) /\
  (forall y, is_end ps y <-> (y = a \/ y = sb seg \/ In y inds)) /\
  (exists l' s, ps = l' ++ [s] /\ sb s = sb seg).
Proof.
  intros C. induction inds as [|b inds IH]; intros a Ha Hlt S F; simpl.
  - destruct (split_piece_spec seg a (sb seg) C Ha (Rbar_le_refl _) Hlt) as (E1 & E2 & E3 & E4 & E5).
    set (s := split_piece seg a (sb seg)) in *.
    splits.
    + constructor; [|constructor]. splits; auto; try split; auto.
      * rewrite E1; apply Rbar_le_refl.
      * rewrite E2; apply Rbar_le_refl.
    + repeat constructor.
    + intros x. split.
      * intros [H1 H2]. exists s. split; [left; auto|]. split; [rewrite E1|rewrite E2]; auto.
      * intros (t & [<-|[]] & [H1 H2]). rewrite E1 in H1; rewrite E2 in H2; auto.
    + intros t y _ [].
    + intros y. unfold is_end. split.
      * intros (t & [<-|[]] & [->| ->]); auto.
      * intros [->|[->|[]]]; exists s; simpl; auto.
    + exists [], s. auto.
  - apply StronglySorted_inv in S. destruct S as [S Fa].
    inversion Fa as [|? ? Hab Fa']; subst. inversion F as [|? ? Hb Fb]; subst.
    assert (Hsb : Rbar_le (sa seg) b) by (eapply Rbar_le_trans; [exact Ha|apply Rbar_lt_le; auto]).
    destruct (IH b Hsb Hb S Fb) as (I1 & I2 & I3 & I4 & I5 & (l' & z & Ez & Bz)).
    destruct (split_piece_spec seg a b C Ha (Rbar_lt_le _ _ Hb) Hab) as (E1 & E2 & E3 & E4 & E5).
    set (s := split_piece seg a b) in *. set (ps := split_from seg b inds) in *.
    rewrite Forall_forall in I1.
    assert (Bf : forall t, In t ps -> before s t).
    { intros t Ht. destruct (I1 t Ht) as (Ct & _ & Lt & _). split.
      - rewrite E2; auto.
      - rewrite E1. intros Q. pose proof (cont_lt _ Ct) as Lc. rewrite <- Q in Lc.
        apply (Rbar_lt_not_le _ _ Hab). apply Rbar_lt_le. eapply Rbar_le_lt_trans; eauto. }
    splits.
    + constructor.
      * splits; auto; try split; auto.
        -- rewrite E1; apply Rbar_le_refl.
        -- rewrite E2; apply Rbar_lt_le; auto.
      * apply Forall_forall. intros t Ht. destruct (I1 t Ht) as (Ct & Ft & Lt & Rt).
        splits; auto. eapply Rbar_le_trans; [apply Rbar_lt_le; exact Hab|auto].
    + constructor; auto. apply Forall_forall; auto.
    + intros x. split.
      * intros [H1 H2]. destruct (Rbar_lt_dec x b) as [L|L].
        -- exists s. split; [left; auto|]. split; [rewrite E1|rewrite E2]; auto.
        -- destruct (proj1 (I3 x)) as (t & Ht & Hc); [split; auto; apply Rbar_not_lt; auto|].
           exists t; split; [right; exact Ht|exact Hc].
      * intros (t & [<-|Ht] & Hc).
        -- destruct Hc as [H1 H2]. rewrite E1 in H1; rewrite E2 in H2.
           split; [exact H1|]. exact (Rbar_lt_trans _ _ _ H2 Hb).
        -- destruct (proj2 (I3 x)) as [H1 H2]; [eauto|]. split; [|exact H2].
           eapply Rbar_le_trans; [apply Rbar_lt_le; exact Hab|exact H1].
    + intros t y Ht Hy [L1 L2].
      destruct Ht as [<-|Ht].
      * rewrite E2 in L2. destruct Hy as [<-|Hy].
        -- now apply Rbar_lt_irrefl in L2.
        -- apply StronglySorted_inv in S. destruct S as [_ Fs]. rewrite Forall_forall in Fs.
           apply (Rbar_lt_irrefl b). exact (Rbar_lt_trans _ _ _ (Fs y Hy) L2).
      * destruct Hy as [<-|Hy].
        -- destruct (I1 t Ht) as (_ & _ & Lt & _). apply (Rbar_lt_not_le _ _ L1); auto.
        -- apply (I4 t y); auto.
    + intros y. split.
      * intros (t & [<-|Ht] & Hy).
        -- rewrite E1, E2 in Hy. destruct Hy as [->| ->]; simpl; auto.
        -- destruct (proj1 (I5 y)) as [->|[->|Q]]; simpl; auto. exists t; auto.
      * intros [->|[->|[<-|Q]]].
        -- exists s; simpl; auto.
        -- destruct (proj2 (I5 (sb seg))) as (t & Ht & Q); auto. exists t; simpl; auto.
        -- exists s; simpl; auto.
        -- destruct (proj2 (I5 y)) as (t & Ht & Q2); auto. exists t; simpl; auto.
    + exists (s :: l'), z. rewrite Ez. auto.
Qed.

Lemma filter_sorted {A} (R : A -> A -> Prop) p l : StronglySorted R l -> StronglySorted R (filter p l).
Proof.
  induction l as [|s l IH]; simpl; intros O; [constructor|].
  apply StronglySorted_inv in O. destruct O as [O F].
  destruct (p s); auto. constructor; [apply IH; exact O|].
  apply Forall_forall. rewrite Forall_forall in F. intros t Ht. apply filter_In in Ht. apply F; tauto.
Qed.

Definition inside (seg : segment) (y : Rbar) : Prop := Rbar_lt (sa seg) y /\ Rbar_lt y (sb seg).

Lemma split_seg_spec pts seg :
  StronglySorted Rbar_lt pts -> wf_seg seg ->
  let ps := split_seg pts seg in
  Forall (fun s => wf_seg s /\ isDirac s = isDirac seg /\ sf s = sf seg /\
                   Rbar_le (sa seg) (sa s) /\ Rbar_le (sb s) (sb seg)) ps /\
  ordered ps /\ dirac_pos ps = dirac_pos [seg] /\
  (isDirac seg = true -> ps = [seg]) /\
  (isDirac seg = false -> forall x : R, covers seg x <-> exists s, In s ps /\ covers s x) /\
  (forall s y, In s ps -> In y pts -> ~ inside s y) /\
  (forall y, is_end ps y <-> (y = sa seg \/ y = sb seg \/ (In y pts /\ inside seg y))) /\
  (exists l' s, ps = l' ++ [s] /\ sb s = sb seg).
Proof.
  intros S W. unfold split_seg.
  set (inds := filter _ pts).
  assert (Hin : forall y, In y inds <-> In y pts /\ inside seg y).
  { intros y. unfold inds. rewrite filter_In, andb_true_iff, blt_true, blt_true. reflexivity. }
  destruct (isDirac seg) eqn:D.
  - destruct seg as [| | | |a m|]; try discriminate D.
    assert (inds = []).
    { destruct inds as [|y l]; auto. exfalso. destruct (proj1 (Hin y)) as [_ [L1 L2]]; [left; auto|].
      simpl in L1, L2. apply (Rbar_lt_irrefl a). eapply Rbar_lt_trans; eauto. }
    rewrite H. cbn. splits; auto.
    + constructor; [|constructor]. splits; auto; simpl; lra.
    + repeat constructor.
    + intros; discriminate.
    + intros s y [<-|[]] _ [L1 L2]. cbn in L1, L2. apply (Rbar_lt_irrefl a). eapply Rbar_lt_trans; eauto.
    + intros y. unfold is_end. simpl. split.
      * intros (s & [<-|[]] & Q). simpl in Q. tauto.
      * intros [->|[->|[_ [L1 L2]]]].
        -- eexists; split; [left; reflexivity|]; simpl; auto.
        -- eexists; split; [left; reflexivity|]; simpl; auto.
        -- exfalso. cbn in L1, L2. apply (Rbar_lt_irrefl a). eapply Rbar_lt_trans; eauto.
    + exists []; eexists; split; [reflexivity|]; reflexivity.
  - assert (C : continuous_piece seg) by (split; auto).
    destruct (split_from_spec seg C inds (sa seg)) as (I1 & I2 & I3 & I4 & I5 & I6).
    + apply Rbar_le_refl.
    + apply cont_lt; auto.
    + constructor; [apply filter_sorted; auto|]. apply Forall_forall. intros y Hy. apply Hin in Hy. apply Hy.
    + apply Forall_forall. intros y Hy. apply Hin in Hy. apply Hy.
    + set (ps := split_from seg (sa seg) inds) in *.
      rewrite Forall_forall in I1.
      splits; auto.
      * apply Forall_forall. intros s Hs. destruct (I1 s Hs) as ([Ds Ws] & Fs & L & R). splits; auto.
      * rewrite dirac_pos_cont.
        -- simpl. destruct seg; simpl in *; auto; discriminate.
        -- apply Forall_forall. intros s Hs. apply I1; auto.
      * intros; discriminate.
      * intros s y Hs Hy [L1 L2].
        destruct (I1 s Hs) as (Cs & _ & L & R).
        apply (I4 s y Hs); [|auto]. apply Hin. split; auto. split.
        -- eapply Rbar_le_lt_trans; eauto.
        -- eapply Rbar_lt_le_trans; eauto.
      * intros y. rewrite I5, Hin. tauto.
Qed.

(** ** Splitting a function *)

Definition split_all (pts : list Rbar) (l : list segment) : list segment := flat_map (split_seg pts) l.

Lemma wf_degenerate s : wf_seg s -> sa s = sb s -> isDirac s = true.
Proof.
  intros W E. destruct s; cbn [isDirac]; auto; unfold wf_seg in W; exfalso; rewrite E in W; now apply Rbar_lt_irrefl in W.
Qed.

Lemma split_all_ordered pts l :
  StronglySorted Rbar_lt pts -> ordered l -> Forall wf_seg l ->
  ordered (split_all pts l) /\ Forall wf_seg (split_all pts l) /\
  dirac_pos (split_all pts l) = dirac_pos l.
Proof.
  intros S O W. induction l as [|s l IH]; simpl; [splits; constructor|].
  apply StronglySorted_inv in O. destruct O as [O F]. inversion W as [|? ? Ws Wl]; subst.
  destruct (IH O Wl) as (I1 & I2 & I3).
  destruct (split_seg_spec pts s S Ws) as (P1 & P2 & P3 & P4 & _).
  rewrite Forall_forall in P1, F.
  splits.
  - apply SS_app. splits; auto. intros u v Hu Hv.
    apply in_flat_map in Hv. destruct Hv as (t & Ht & Hv).
    assert (Wt : wf_seg t) by (rewrite Forall_forall in Wl; auto).
    destruct (split_seg_spec pts t S Wt) as (Q1 & _ & _ & Q4 & _). rewrite Forall_forall in Q1.
    destruct (P1 u Hu) as (Wu & Du & _ & Lu & Ru).
    destruct (Q1 v Hv) as (Wv & Dv & _ & Lv & Rv).
    destruct (F t Ht) as [B1 B2].
    split.
    + eapply Rbar_le_trans; [exact Ru|]. eapply Rbar_le_trans; [exact B1|exact Lv].
    + intros E.
      assert (Rbar_le (sb u) (sa v)).
      { eapply Rbar_le_trans; [exact Ru|]. eapply Rbar_le_trans; [exact B1|exact Lv]. }
      assert (Eu : sa u = sb u).
      { apply Rbar_le_antisym; [apply wf_le; auto|]. rewrite E. eapply Rbar_le_trans; [exact H|apply wf_le; auto]. }
      assert (Ev : sa v = sb v).
      { apply Rbar_le_antisym; [apply wf_le; auto|]. rewrite <- E. eapply Rbar_le_trans; [apply wf_le; exact Wu|]. auto. }
      apply wf_degenerate in Eu; auto. apply wf_degenerate in Ev; auto.
      rewrite Eu in Du. rewrite Ev in Dv. symmetry in Du, Dv.
      rewrite (P4 Du) in Hu. rewrite (Q4 Dv) in Hv.
      destruct Hu as [<-|[]]. destruct Hv as [<-|[]]. auto.
  - apply Forall_app. split; auto. apply Forall_forall. intros u Hu. apply P1; auto.
  - fold (split_all pts l). rewrite dirac_pos_app, P3, I3. simpl. rewrite app_nil_r. reflexivity.
Qed.

Lemma split_all_In pts l u : In u (split_all pts l) <-> exists s, In s l /\ In u (split_seg pts s).
Proof. unfold split_all. apply in_flat_map. Qed.

Lemma splitByPoints_ok eps l pts :
  StronglySorted Rbar_lt pts -> ordered l -> Forall wf_seg l -> dirac_sep eps l ->
  exists q, splitByPoints eps l pts = Ok q /\ segs q = split_all pts l /\
            brks q = getBreaks (split_all pts l).
Proof.
  intros S O W D. destruct (split_all_ordered pts l S O W) as (I1 & I2 & I3).
  apply addAll_ordered; auto. apply dirac_sep_pos. rewrite I3. apply dirac_sep_pos; auto.
Qed.

Lemma split_diracs pts l : StronglySorted Rbar_lt pts -> Forall wf_seg l ->
  getDiracs (split_all pts l) = getDiracs l.
Proof.
  intros S W. induction l as [|s l IH]; simpl; auto.
  inversion W; subst. unfold getDiracs in *. rewrite filter_app.
  fold (split_all pts l). rewrite IH by auto.
  destruct (split_seg_spec pts s S) as (P1 & _ & _ & P4 & _); auto.
  destruct (isDirac s) eqn:E.
  - rewrite P4 by auto. simpl. rewrite E. reflexivity.
  - assert (G : forall ll, Forall (fun u => isDirac u = false) ll -> filter isDirac ll = []).
    { clear. induction ll as [|u ll IH]; simpl; intros H; auto. inversion H; subst. rewrite H2; auto. }
    rewrite G; auto. eapply Forall_impl; [|exact P1]. intros u (_ & Q & _). congruence.
Qed.

(** value at every point *)
Lemma has_value_split pts l (x v : R) :
  StronglySorted Rbar_lt pts -> ordered l -> Forall wf_seg l -> Forall (fun s => isDirac s = false) l ->
  has_value l x v -> has_value (split_all pts l) x v.
Proof.
  intros S O W C [(s & H1 & H2 & H3 & H4)|(H1 & H2)].
  - left. rewrite Forall_forall in W.
    destruct (split_seg_spec pts s S (W _ H1)) as (P1 & _ & _ & _ & P5 & _).
    destruct (proj1 (P5 H2 x) H3) as (u & Hu & Cu).
    rewrite Forall_forall in P1. destruct (P1 u Hu) as (_ & Du & Fu & _).
    exists u. splits; auto; [apply split_all_In; eauto|congruence|rewrite Fu; auto].
  - right. rewrite Forall_forall in W. split.
    + intros u Hu Du Cu. apply split_all_In in Hu. destruct Hu as (s & Hs & Hu).
      destruct (split_seg_spec pts s S (W _ Hs)) as (P1 & _ & _ & _ & P5 & _).
      rewrite Forall_forall in P1. destruct (P1 u Hu) as (_ & Du' & _).
      apply (H1 s Hs); [congruence|]. apply P5; [congruence|eauto].
    + destruct l as [|z l0] using rev_ind.
      * right. destruct H2 as [(s & l' & E & _)|(_ & ->)]; [destruct l'; discriminate|].
        split; auto. intros s l' E. destruct l'; discriminate.
      * clear IHl0.
        assert (Wz : wf_seg z) by (apply W; apply in_or_app; simpl; auto).
        destruct (split_seg_spec pts z S Wz) as (P1 & _ & _ & _ & _ & _ & _ & (l' & u & E1 & E2)).
        assert (E3 : split_all pts (l0 ++ [z]) = (split_all pts l0 ++ l') ++ [u]).
        { unfold split_all. rewrite flat_map_app. simpl. rewrite app_nil_r, E1, app_assoc. reflexivity. }
        rewrite Forall_forall in P1. destruct (P1 u) as (_ & Du & Fu & _); [rewrite E1; apply in_or_app; simpl; auto|].
        destruct H2 as [(s & l'' & E & D & B & ->)|(N & ->)].
        -- apply app_inj_tail in E. destruct E as [_ <-]. left.
           exists u, (split_all pts l0 ++ l'). splits; auto; [congruence|congruence|rewrite Fu; auto].
        -- right. split; auto. intros s l'' E. rewrite E3 in E. apply app_inj_tail in E.
           destruct E as [_ <-]. rewrite E2. eapply N; reflexivity.
Qed.

Lemma getSegments_split pts l : StronglySorted Rbar_lt pts -> Forall wf_seg l ->
  getSegments (split_all pts l) = split_all pts (getSegments l).
Proof.
  intros S W. induction l as [|s l IH]; simpl; auto.
  inversion W; subst. unfold getSegments in *. rewrite filter_app.
  fold (split_all pts l). rewrite IH by auto.
  destruct (split_seg_spec pts s S) as (P1 & _ & _ & P4 & _); auto.
  unfold isSegment at 3. destruct (isDirac s) eqn:E; simpl.
  - rewrite P4 by auto. simpl. unfold isSegment at 1. rewrite E. reflexivity.
  - f_equal. assert (G : forall ll, Forall (fun u => isDirac u = false) ll -> filter isSegment ll = ll).
    { clear. induction ll as [|u ll IH]; simpl; intros H; auto. inversion H; subst.
      unfold isSegment at 1. rewrite H2. simpl. f_equal; auto. }
    apply G. eapply Forall_impl; [|exact P1]. intros u (_ & Q & _). congruence.
Qed.

Lemma call_vec_split pts l (x : R) :
  StronglySorted Rbar_lt pts -> ordered l -> Forall wf_seg l ->
  call_vec (split_all pts l) x = call_vec l x.
Proof.
  intros S O W.
  assert (Og : ordered (getSegments l)) by (apply filter_ordered; auto).
  assert (Wg : Forall wf_seg (getSegments l)) by (apply filter_Forall; auto).
  assert (Cg : Forall (fun s => isDirac s = false) (getSegments l)).
  { apply Forall_forall. intros s Hs. apply getSegments_cont in Hs. tauto. }
  destruct (split_all_ordered pts l S O W) as (I1 & I2 & _).
  destruct (split_all_ordered pts (getSegments l) S Og Wg) as (J1 & J2 & _).
  pose proof (call_vec_value _ x I1 I2) as V1.
  pose proof (call_vec_value _ x O W) as V2.
  rewrite getSegments_split in V1 by auto.
  apply (has_value_split pts) in V2; auto.
  eapply has_value_unique; eauto.
Qed.

Lemma split_no_inside pts l s y :
  StronglySorted Rbar_lt pts -> Forall wf_seg l -> In s (split_all pts l) -> In y pts -> ~ inside s y.
Proof.
  intros S W Hs Hy. apply split_all_In in Hs. destruct Hs as (t & Ht & Hs).
  rewrite Forall_forall in W.
  destruct (split_seg_spec pts t S (W _ Ht)) as (_ & _ & _ & _ & _ & P6 & _). eauto.
Qed.

Lemma split_breaks_In pts l y :
  StronglySorted Rbar_lt pts -> Forall wf_seg l ->
  (In y (getBreaks (split_all pts l)) <-> In y (getBreaks l) \/ (In y pts /\ exists s, In s l /\ inside s y)).
Proof.
  intros S W. rewrite Forall_forall in W. rewrite !getBreaks_In. split.
  - intros (u & Hu & Hy). apply split_all_In in Hu. destruct Hu as (t & Ht & Hu).
    destruct (split_seg_spec pts t S (W _ Ht)) as (_ & _ & _ & _ & _ & _ & P7 & _).
    destruct (proj1 (P7 y)) as [Q|[Q|[Q1 Q2]]]; [exists u; auto|left; eauto|left; eauto|right; eauto].
  - intros Q.
    assert (G : exists t, In t l /\ (y = sa t \/ y = sb t \/ (In y pts /\ inside t y))).
    { destruct Q as [(t & Ht & [Q|Q])|(Q1 & t & Ht & Q2)]; exists t; auto. }
    destruct G as (t & Ht & G).
    destruct (split_seg_spec pts t S (W _ Ht)) as (_ & _ & _ & _ & _ & _ & P7 & _).
    apply P7 in G. destruct G as (u & Hu & Hy). exists u. split; auto. apply split_all_In; eauto.
Qed.

(** ** Restriction *)

Lemma filter_dirac_sep eps p l : dirac_sep eps l -> dirac_sep eps (filter p l).
Proof.
  unfold dirac_sep. induction l as [|s l IH]; simpl; intros H; auto.
  inversion H as [|? ? F H']; subst. destruct (p s); auto.
  constructor; auto. apply filter_Forall; auto.
Qed.

Lemma pair_sorted a b : Rbar_lt a b -> StronglySorted Rbar_lt [a; b].
Proof. intros. repeat constructor; auto. Qed.

Lemma restrict_ok eps l a b :
  Rbar_lt a b -> ordered l -> Forall wf_seg l -> dirac_sep eps l ->
  exists q, restrictToInterval eps l a b = Ok q /\
    segs q = filter (restrict_keep a b) (split_all [a; b] l).
Proof.
  intros Hab O W D. pose proof (pair_sorted a b Hab) as S.
  unfold restrictToInterval.
  destruct (splitByPoints_ok eps l [a; b] S O W D) as (q & E1 & E2 & _).
  rewrite E1; simpl. rewrite E2.
  destruct (split_all_ordered [a; b] l S O W) as (I1 & I2 & I3).
  destruct (addAll_ordered eps (filter (restrict_keep a b) (split_all [a; b] l))) as (r & R1 & R2 & _).
  - apply filter_ordered; auto.
  - apply filter_Forall; auto.
  - apply filter_dirac_sep. apply dirac_sep_pos. rewrite I3. apply dirac_sep_pos; auto.
  - exists r; auto.
Qed.

(** strictly inside (a,b) the restriction has the same covering pieces *)
Lemma restrict_covers l a b (x : R) f :
  Rbar_lt a b -> Forall wf_seg l -> 
  (exists u, In u (filter (restrict_keep a b) (split_all [a; b] l)) /\ isDirac u = false /\ covers u x /\ sf u = f) <->
  (Rbar_le a x /\ Rbar_lt x b /\ exists s, In s l /\ isDirac s = false /\ covers s x /\ sf s = f).
Proof.
  intros Hab W. pose proof (pair_sorted a b Hab) as S. split.
  - intros (u & Hu & Du & Cu & Fu). apply filter_In in Hu. destruct Hu as [Hu K].
    unfold restrict_keep in K. rewrite Du in K. b2p.
    destruct Cu as [C1 C2]. splits.
    + eapply Rbar_le_trans; eauto.
    + eapply Rbar_lt_le_trans; eauto.
    + apply split_all_In in Hu. destruct Hu as (s & Hs & Hu).
      rewrite Forall_forall in W.
      destruct (split_seg_spec [a; b] s S (W _ Hs)) as (P1 & _ & _ & _ & P5 & _).
      rewrite Forall_forall in P1. destruct (P1 u Hu) as (_ & Du' & Fu' & _).
      exists s. splits; auto; [congruence| |congruence]. apply P5; [congruence|].
      exists u; split; auto. split; auto.
  - intros (Ha & Hb & s & Hs & Ds & Cs & Fs). rewrite Forall_forall in W.
    destruct (split_seg_spec [a; b] s S (W _ Hs)) as (P1 & _ & _ & _ & P5 & P6 & _).
    destruct (proj1 (P5 Ds x) Cs) as (u & Hu & Cu).
    rewrite Forall_forall in P1. destruct (P1 u Hu) as (Wu & Du & Fu & _).
    exists u. splits; auto; try congruence.
    apply filter_In. split; [apply split_all_In; eauto|].
    unfold restrict_keep. rewrite Du, Ds. destruct Cu as [C1 C2].
    apply andb_true_iff; split; apply ble_true; apply Rbar_not_lt; intros L.
    + apply (P6 u a Hu); [left; auto|]. split; auto. eapply Rbar_le_lt_trans; eauto.
    + apply (P6 u b Hu); [right; left; auto|]. split; auto. eapply Rbar_le_lt_trans; eauto.
Qed.

Lemma restrict_diracs l a b d m :
  Rbar_lt a b -> Forall wf_seg l ->
  In (DiracSeg d m) (filter (restrict_keep a b) (split_all [a; b] l)) <->
  In (DiracSeg d m) l /\ Rbar_le a d /\ Rbar_lt d b.
Proof.
  intros Hab W. pose proof (pair_sorted a b Hab) as S.
  rewrite filter_In.
  assert (E : In (DiracSeg d m) (split_all [a; b] l) <-> In (DiracSeg d m) l).
  { pose proof (split_diracs [a; b] l S W) as Q. unfold getDiracs in Q. split; intros H.
    - assert (In (DiracSeg d m) (filter isDirac (split_all [a; b] l))) by (apply filter_In; auto).
      rewrite Q in H0. apply filter_In in H0. tauto.
    - assert (In (DiracSeg d m) (filter isDirac l)) by (apply filter_In; auto).
      rewrite <- Q in H0. apply filter_In in H0. tauto. }
  rewrite E. unfold restrict_keep. cbn [isDirac sa sb].
  rewrite andb_true_iff, ble_true, blt_true. reflexivity.
Qed.
