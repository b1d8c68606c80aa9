(** Facts about the structural operations on piecewise functions. *)
From Coq Require Import Reals Lra Lia List Bool Arith Sorted Permutation.
From Coquelicot Require Import Coquelicot.
From Verif Require Import Base Bisect BisectFacts Seg Piecewise PiecewiseSpec.
Import List ListNotations.
Open Scope R_scope.

(** ** Segment comparison *)

Lemma seg_gt_lt s t : seg_gt s t = seg_lt t s.
Proof. reflexivity. Qed.

Lemma seg_lt_iff s t :
  seg_lt s t = true <->
  Rbar_le (sa s) (sa t) /\ Rbar_le (sb s) (sb t) /\ (sa s <> sa t \/ sb s <> sb t).
Proof.
  unfold seg_lt. generalize (sa s) (sb s) (sa t) (sb t); intros a b c d. split.
  - intros H; b2p. destruct H as [H|H]; b2p.
    + split; [|split]; auto; [apply Rbar_lt_le; auto | right; intros ->; now apply Rbar_lt_irrefl in H0].
    + split; [|split]; auto; [apply Rbar_lt_le; auto | left; intros ->; now apply Rbar_lt_irrefl in H].
  - intros (H1 & H2 & H3).
    apply orb_true_iff.
    destruct (Rbar_le_lt_or_eq_dec _ _ H1) as [E1|E1].
    + right. apply andb_true_iff; split; [apply blt_true|apply ble_true]; auto.
    + left. apply andb_true_iff; split; [apply ble_true|apply blt_true]; auto.
      destruct (Rbar_le_lt_or_eq_dec _ _ H2) as [E2|E2]; auto.
      destruct H3; contradiction.
Qed.

Lemma seg_lt_irrefl s : seg_lt s s = false.
Proof.
  destruct (seg_lt s s) eqn:E; auto. apply seg_lt_iff in E. tauto.
Qed.

Lemma seg_lt_trans s t u : seg_lt s t = true -> seg_lt t u = true -> seg_lt s u = true.
Proof.
  rewrite !seg_lt_iff. intros (A1 & A2 & A3) (B1 & B2 & B3).
  split; [eapply Rbar_le_trans; eauto|]. split; [eapply Rbar_le_trans; eauto|].
  destruct A3 as [A3|A3]; [left|right]; intros E; apply A3; rewrite E in *; apply Rbar_le_antisym; auto.
Qed.

Lemma seg_lt_asym s t : seg_lt s t = true -> seg_lt t s = false.
Proof.
  intros H. destruct (seg_lt t s) eqn:E; auto.
  pose proof (seg_lt_trans _ _ _ H E) as C. rewrite seg_lt_irrefl in C. discriminate.
Qed.

Lemma seg_incomparable s t :
  (seg_lt s t = false /\ seg_lt t s = false) <->
  (sa s = sa t /\ sb s = sb t) \/
  (Rbar_lt (sa s) (sa t) /\ Rbar_lt (sb t) (sb s)) \/
  (Rbar_lt (sa t) (sa s) /\ Rbar_lt (sb s) (sb t)).
Proof.
  split.
  - intros [H1 H2].
    assert (N1 : ~ seg_lt s t = true) by congruence.
    assert (N2 : ~ seg_lt t s = true) by congruence.
    rewrite seg_lt_iff in N1, N2. clear H1 H2.
    revert N1 N2. generalize (sa s) (sb s) (sa t) (sb t); intros a b c d N1 N2.
    destruct (Rbar_total_order a c) as [[H|H]|H]; destruct (Rbar_total_order b d) as [[K|K]|K]; subst; auto;
    exfalso;
    first [ apply N1; splits; auto using Rbar_lt_le, Rbar_le_refl;
            solve [ left; intros ->; eapply Rbar_lt_irrefl; eauto
                  | right; intros ->; eapply Rbar_lt_irrefl; eauto ]
          | apply N2; splits; auto using Rbar_lt_le, Rbar_le_refl;
            solve [ left; intros ->; eapply Rbar_lt_irrefl; eauto
                  | right; intros ->; eapply Rbar_lt_irrefl; eauto ] ].
  - intros H.
    split; apply not_true_is_false; rewrite seg_lt_iff; intros (A & B & C);
    destruct H as [[H1 H2]|[[H1 H2]|[H1 H2]]];
    try (destruct C; congruence);
    try (apply (Rbar_le_not_lt _ _ A); assumption);
    try (apply (Rbar_le_not_lt _ _ B); assumption).
Qed.

(** ** The order [before] *)

Lemma wf_le s : wf_seg s -> Rbar_le (sa s) (sb s).
Proof. destruct s; simpl; auto; intros; try lra. Qed.

Lemma before_trans s t u : wf_seg t -> before s t -> before t u -> wf_seg s -> wf_seg u -> before s u.
Proof.
  unfold before. intros Wt [H1 H2] [H3 H4] Ws Wu.
  apply wf_le in Wt; apply wf_le in Ws; apply wf_le in Wu.
  split.
  - eapply Rbar_le_trans; [exact H1|]. eapply Rbar_le_trans; [exact Wt|exact H3].
  - intros E. apply H2.
    apply Rbar_le_antisym.
    + eapply Rbar_le_trans; [exact Ws|]. eapply Rbar_le_trans; [exact H1|exact Wt].
    + rewrite E. eapply Rbar_le_trans; [exact H3|exact Wu].
Qed.

Lemma before_lt s t : wf_seg s -> wf_seg t -> before s t -> seg_lt s t = true.
Proof.
  intros Ws Wt [H1 H2]. apply wf_le in Ws; apply wf_le in Wt.
  apply seg_lt_iff. split; [|split].
  - eapply Rbar_le_trans; eauto.
  - eapply Rbar_le_trans; eauto.
  - destruct (Rbar_eq_dec (sa s) (sa t)) as [E|E]; auto. right. intros E2.
    apply H2. rewrite E. apply Rbar_le_antisym; auto. rewrite <- E2. exact H1.
Qed.

Lemma before_not_lt s t : wf_seg s -> wf_seg t -> before s t -> seg_lt t s = false.
Proof. intros; apply seg_lt_asym, before_lt; auto. Qed.

Lemma before_irrefl s : wf_seg s -> ~ before s s.
Proof.
  intros W B. pose proof (before_lt _ _ W W B) as L. rewrite seg_lt_irrefl in L. discriminate.
Qed.

Lemma before_asym s t : wf_seg s -> wf_seg t -> before s t -> before t s -> False.
Proof.
  intros Ws Wt B1 B2. apply before_lt in B1; auto. apply before_lt in B2; auto.
  apply seg_lt_asym in B1. congruence.
Qed.

(** ** Lists *)

Lemma SS_app {A} (R : A -> A -> Prop) l1 l2 :
  StronglySorted R (l1 ++ l2) <->
  StronglySorted R l1 /\ StronglySorted R l2 /\ (forall x y, In x l1 -> In y l2 -> R x y).
Proof.
  induction l1 as [|a l1 IH]; simpl.
  - split; [intros H; splits; auto; try constructor; intros; contradiction | tauto].
  - split.
    + intros H. apply StronglySorted_inv in H. destruct H as [H1 H2].
      apply IH in H1. destruct H1 as (S1 & S2 & S3).
      rewrite Forall_app in H2. destruct H2 as [F1 F2]. rewrite Forall_forall in F2.
      splits; auto.
      * constructor; auto.
      * intros x y [->|Hx] Hy; auto.
    + intros (S1 & S2 & S3). apply StronglySorted_inv in S1. destruct S1 as [S1 F1].
      constructor.
      * apply IH; splits; auto.
      * rewrite Forall_app; split; auto. apply Forall_forall; intros; apply S3; auto.
Qed.

Lemma SS_insert {A} (R : A -> A -> Prop) l1 s l2 :
  StronglySorted R (l1 ++ l2) ->
  (forall x, In x l1 -> R x s) -> (forall y, In y l2 -> R s y) ->
  StronglySorted R (l1 ++ s :: l2).
Proof.
  rewrite !SS_app. intros (S1 & S2 & S3) H1 H2.
  splits; auto.
  - constructor; auto. apply Forall_forall; auto.
  - intros x y Hx [<-|Hy]; auto.
Qed.

(** position of a new piece among ordered pieces *)
Lemma ordered_split l s :
  ordered l -> Forall wf_seg l -> wf_seg s ->
  (forall t, In t l -> before t s \/ before s t) ->
  exists l1 l2, l = l1 ++ l2 /\ (forall t, In t l1 -> before t s) /\ (forall t, In t l2 -> before s t).
Proof.
  intros O W Ws. induction l as [|t l IH]; intros H.
  - exists [], []; splits; simpl; tauto.
  - apply StronglySorted_inv in O. destruct O as [O F].
    inversion W as [|? ? Wt Wl]; subst.
    destruct (H t (or_introl eq_refl)) as [Hb|Hb].
    + destruct IH as (l1 & l2 & E & P1 & P2); auto.
      { intros u Hu. apply H. right; exact Hu. }
      exists (t :: l1), l2. subst l. splits; auto.
      intros u [<-|Hu]; auto.
    + exists [], (t :: l). splits; simpl; try tauto.
      intros u [<-|Hu]; auto.
      rewrite Forall_forall in F, Wl.
      eapply before_trans with t; auto.
Qed.

Lemma add_new_ordered p s :
  ordered (segs p) -> Forall wf_seg (segs p) -> wf_seg s ->
  (forall t, In t (segs p) -> before t s \/ before s t) ->
  exists l1 l2, segs p = l1 ++ l2 /\
    (forall t, In t l1 -> before t s) /\ (forall t, In t l2 -> before s t) /\
    add_new p s = Ok (add_sorted p s) /\ segs (add_sorted p s) = l1 ++ s :: l2.
Proof.
  intros O W Ws H.
  destruct (ordered_split _ _ O W Ws H) as (l1 & l2 & E & P1 & P2).
  exists l1, l2. splits; auto.
  - unfold add_new.
    rewrite Forall_forall in W.
    assert (BL : bisect_left seg_lt (segs p) s = length l1).
    { apply bisect_left_spec. rewrite E. apply partitioned_app; apply Forall_forall; intros t Ht.
      - apply before_lt; auto. apply W; rewrite E; apply in_or_app; auto.
      - apply before_not_lt; auto. apply W; rewrite E; apply in_or_app; auto. }
    rewrite BL, E, nth_error_app2, Nat.sub_diag by lia.
    destruct l2 as [|t l2]; simpl; auto.
    rewrite seg_gt_lt, (before_lt s t); auto.
    + apply W; rewrite E; apply in_or_app; right; left; auto.
    + apply P2; left; auto.
  - unfold add_sorted, insort; cbn [segs].
    rewrite Forall_forall in W.
    replace (bisect_right seg_lt (segs p) s) with (length l1).
    + rewrite E; apply list_insert_app.
    + symmetry. apply bisect_right_spec. rewrite E. apply partitioned_app; apply Forall_forall; intros t Ht.
      * apply negb_true_iff. apply before_not_lt; auto. apply W; rewrite E; apply in_or_app; auto.
      * apply negb_false_iff. apply before_lt; auto. apply W; rewrite E; apply in_or_app; auto.
Qed.

Lemma merge_dirac_none eps a m l :
  (forall b k, In (DiracSeg b k) l -> eps < Rabs (a - b)) -> merge_dirac eps a m l = None.
Proof.
  induction l as [|s l IH]; simpl; intros H; auto.
  destruct s as [| | | |b k|]; try (rewrite IH; auto; intros; eapply H; eauto; fail).
  assert (eps < Rabs (a - b)) by (eapply H; left; reflexivity).
  rewrite (proj2 (rle_false _ _)); auto.
  rewrite IH; auto. intros; eapply H; eauto.
Qed.

Lemma compatible_sym eps s t : compatible eps s t -> compatible eps t s.
Proof.
  unfold compatible. intros [H1 H2]. split; [tauto|].
  destruct s, t; auto. rewrite Rabs_minus_sym; auto.
Qed.

Lemma addSegment_compatible eps p s :
  ordered (segs p) -> Forall wf_seg (segs p) -> wf_seg s ->
  (forall t, In t (segs p) -> compatible eps s t) ->
  exists l1 l2, segs p = l1 ++ l2 /\
    (forall t, In t l1 -> before t s) /\ (forall t, In t l2 -> before s t) /\
    addSegment eps p s = Ok (add_sorted p s) /\ segs (add_sorted p s) = l1 ++ s :: l2.
Proof.
  intros O W Ws H.
  destruct (add_new_ordered p s O W Ws) as (l1 & l2 & E & P1 & P2 & E1 & E2).
  { intros t Ht. destruct (H t Ht) as [[B|B] _]; auto. }
  exists l1, l2. splits; auto.
  destruct s as [| | | |a m|]; simpl; auto.
  rewrite merge_dirac_none; auto.
  intros b k Hb. destruct (H _ Hb) as [_ Hc]. exact Hc.
Qed.

Lemma FOP_app_inv {A} (R : A -> A -> Prop) l1 l2 :
  ForallOrdPairs R (l1 ++ l2) -> ForallOrdPairs R l2.
Proof.
  induction l1; simpl; auto. intros H. inversion H; auto.
Qed.

Lemma FOP_perm {A} (R : A -> A -> Prop) l l' :
  (forall x y, R x y -> R y x) -> Permutation l l' -> ForallOrdPairs R l -> ForallOrdPairs R l'.
Proof.
  intros Hs P. induction P; intros H; auto.
  - inversion H; subst. constructor; auto. eapply Permutation_Forall; eauto.
  - inversion H as [|? ? F1 H1]; subst. inversion H1 as [|? ? F2 H2]; subst.
    inversion F1; subst. constructor; constructor; auto.
Qed.

(** The general insertion theorem: start from an ordered function. *)
Lemma addAll_compatible eps l : forall p,
  ordered (segs p) -> Forall wf_seg (segs p) -> Forall wf_seg l ->
  all_compatible eps l ->
  (forall s t, In s l -> In t (segs p) -> compatible eps s t) ->
  exists q, addAll eps p l = Ok q /\ Permutation (segs p ++ l) (segs q) /\
            ordered (segs q) /\ Forall wf_seg (segs q).
Proof.
  induction l as [|s l IH]; intros p O W Wl C D; simpl.
  - exists p. rewrite app_nil_r. auto.
  - inversion Wl as [|? ? Ws Wl']; subst. inversion C as [|? ? Cs Cl]; subst.
    destruct (addSegment_compatible eps p s O W Ws) as (l1 & l2 & E & P1 & P2 & E1 & E2).
    { intros t Ht; apply D; simpl; auto. }
    rewrite E1; simpl.
    assert (Hperm : Permutation (s :: segs p) (segs (add_sorted p s))).
    { rewrite E2, E. apply Permutation_middle. }
    destruct (IH (add_sorted p s)) as (q & Q1 & Q2 & Q3 & Q4); auto.
    + rewrite E2. apply SS_insert; auto. rewrite <- E; auto.
    + eapply Permutation_Forall; [exact Hperm|]. constructor; auto.
    + intros u t Hu Ht. eapply Permutation_in in Ht; [|apply Permutation_sym; exact Hperm].
      destruct Ht as [<-|Ht].
      * apply compatible_sym. rewrite Forall_forall in Cs. auto.
      * apply D; simpl; auto.
    + exists q. splits; auto.
      eapply Permutation_trans; [|exact Q2].
      eapply Permutation_trans; [apply Permutation_sym, Permutation_middle|].
      apply (Permutation_app_tail l Hperm).
Qed.

(** An ordered list is determined by its multiset of pieces. *)
Lemma ordered_unique l : forall l',
  ordered l -> ordered l' -> Forall wf_seg l -> Permutation l l' -> l = l'.
Proof.
  induction l as [|s l IH]; intros l' O O' W P.
  - apply Permutation_nil in P. auto.
  - destruct l' as [|t l']; [apply Permutation_sym, Permutation_nil in P; discriminate|].
    pose proof (Permutation_Forall P W) as W'.
    apply StronglySorted_inv in O. destruct O as [O F].
    apply StronglySorted_inv in O'. destruct O' as [O' F'].
    inversion W; subst. inversion W'; subst.
    assert (s = t).
    { assert (I1 : In s (t :: l')) by (eapply Permutation_in; [exact P|left; auto]).
      assert (I2 : In t (s :: l)) by (eapply Permutation_in; [apply Permutation_sym; exact P|left; auto]).
      destruct I1 as [I1|I1]; auto. destruct I2 as [I2|I2]; auto.
      rewrite Forall_forall in F, F'. exfalso.
      apply (before_asym s t); auto. }
    subst t. f_equal. apply IH; auto. eapply Permutation_cons_inv; eauto.
Qed.

(** ** Mass of atoms *)

Lemma merge_dirac_mass eps a m l l' :
  merge_dirac eps a m l = Some l' -> atom_mass l' = atom_mass l + m.
Proof.
  unfold atom_mass. revert l'; induction l as [|s l IH]; simpl; intros l' H; [discriminate|].
  destruct s as [| | | |b k|]; simpl in *;
  try (destruct (merge_dirac eps a m l) as [r|]; simpl in H; [|discriminate];
       injection H as <-; simpl; rewrite (IH r); auto; lra).
  destruct (rle (Rabs (a - b)) eps).
  - injection H as <-; simpl; lra.
  - destruct (merge_dirac eps a m l) as [r|]; simpl in H; [|discriminate].
    injection H as <-; simpl; rewrite (IH r); auto; lra.
Qed.

Lemma insort_mass l s : atom_mass (insort seg_lt l s) = atom_mass l + smass s.
Proof.
  destruct (insort_split seg_lt l s) as (l1 & l2 & E1 & E2).
  rewrite E2, E1. unfold atom_mass. rewrite !map_app, !sumR_app. simpl. lra.
Qed.

Lemma addSegment_mass eps p s q :
  addSegment eps p s = Ok q -> atom_mass (segs q) = atom_mass (segs p) + smass s.
Proof.
  assert (N : add_new p s = Ok q -> atom_mass (segs q) = atom_mass (segs p) + smass s).
  { unfold add_new. destruct (nth_error _ _) as [t|].
    - destruct (_ || _).
      + intros H; injection H as <-. apply insort_mass.
      + destruct s as [| | | |a m|]; try discriminate.
        destruct (sa t) as [b| |]; try discriminate.
        destruct (_ || _); [|discriminate].
        intros H; injection H as <-. cbn [add_sorted segs]. now rewrite insort_mass.
    - intros H; injection H as <-. apply insort_mass. }
  destruct s as [| | | |a m|]; simpl; auto.
  destruct (merge_dirac eps a m (segs p)) as [l|] eqn:E; auto.
  intros H; injection H as <-. simpl. now apply merge_dirac_mass in E.
Qed.

Lemma addAll_mass eps l : forall p q,
  addAll eps p l = Ok q -> atom_mass (segs q) = atom_mass (segs p) + atom_mass l.
Proof.
  induction l as [|s l IH]; simpl; intros p q H.
  - injection H as <-. unfold atom_mass; simpl; lra.
  - destruct (addSegment eps p s) as [p1|] eqn:E; simpl in H; [|discriminate].
    rewrite (IH _ _ H), (addSegment_mass _ _ _ _ E). unfold atom_mass; simpl; lra.
Qed.

(** ** An atom added inside a continuous piece *)

Lemma add_inside eps p s (x m : R) :
  ordered (segs p) -> Forall wf_seg (segs p) -> In s (segs p) ->
  Rbar_lt (sa s) x -> Rbar_lt x (sb s) ->
  (forall b k, In (DiracSeg b k) (segs p) -> eps < Rabs (x - b)) ->
  exists l1 l2, segs p = l1 ++ s :: l2 /\
   match sa s with
   | Finite a => exists q, addSegment eps p (DiracSeg x m) = Ok q /\
                   segs q = l1 ++ DiracSeg a m :: s :: l2
   | _ => addSegment eps p (DiracSeg x m) = Err EMInfAtom
   end.
Proof.
  intros O W Hin Hl Hr Hd.
  destruct (in_split _ _ Hin) as (l1 & l2 & E). exists l1, l2. split; auto.
  assert (Ws : wf_seg s) by (rewrite Forall_forall in W; auto).
  set (d := DiracSeg x m).
  assert (B1 : forall t, In t l1 -> wf_seg t /\ before t s).
  { intros t Ht. rewrite E in O. apply SS_app in O. destruct O as (_ & _ & O).
    split; [rewrite Forall_forall in W; apply W; rewrite E; apply in_or_app; auto|].
    apply O; simpl; auto. }
  assert (B2 : forall t, In t l2 -> wf_seg t /\ before s t).
  { intros t Ht. rewrite E in O. apply SS_app in O. destruct O as (_ & O & _).
    apply StronglySorted_inv in O. destruct O as [_ F]. rewrite Forall_forall in F.
    split; [rewrite Forall_forall in W; apply W; rewrite E; apply in_or_app; simpl; auto|].
    auto. }
  assert (L1 : forall t, In t l1 -> seg_lt t d = true).
  { intros t Ht. destruct (B1 t Ht) as [Wt [H1 H2]]. apply seg_lt_iff. unfold d; cbn [sa sb].
    apply wf_le in Wt.
    assert (Rbar_lt (sb t) x) by (eapply Rbar_le_lt_trans; eauto).
    split; [|split].
    - apply Rbar_lt_le. eapply Rbar_le_lt_trans; eauto.
    - apply Rbar_lt_le; auto.
    - right; intros E2. rewrite E2 in H. now apply Rbar_lt_irrefl in H. }
  assert (L2 : seg_lt s d = false /\ seg_lt d s = false).
  { apply seg_incomparable. right; left. auto. }
  assert (L3 : forall t, In t l2 -> seg_lt t d = false).
  { intros t Ht. destruct (B2 t Ht) as [Wt [H1 H2]]. apply not_true_is_false. rewrite seg_lt_iff.
    unfold d; simpl. intros (C1 & _). apply (Rbar_lt_not_le _ _ Hr).
    eapply Rbar_le_trans; eauto. }
  assert (BL : bisect_left seg_lt (segs p) d = length l1).
  { apply bisect_left_spec. rewrite E. apply partitioned_app; apply Forall_forall; auto.
    intros t [<-|Ht]; auto. tauto. }
  assert (AN : addSegment eps p d = add_new p d).
  { unfold d; simpl. rewrite merge_dirac_none; auto. }
  rewrite AN. unfold add_new. rewrite BL, E, nth_error_app2, Nat.sub_diag by lia. cbn [nth_error].
  rewrite !seg_gt_lt. destruct L2 as [L2a L2b]. rewrite L2a, L2b. cbn [orb].
  unfold d at 1.
  destruct (sa s) as [a| |] eqn:Ea; auto.
  set (e := DiracSeg a m).
  assert (Le : seg_lt e s = true).
  { apply seg_lt_iff. unfold e; cbn [sa sb]. rewrite Ea. split; [apply Rbar_le_refl|].
    assert (Rbar_lt a (sb s)) by (eapply Rbar_lt_trans; eauto).
    split; [apply Rbar_lt_le; auto|]. right. intros C; rewrite <- C in H; now apply Rbar_lt_irrefl in H. }
  rewrite !seg_gt_lt; fold e; rewrite Le. cbn [orb].
  assert (Pu : forall t, In t l1 -> seg_lt e t = false).
  { intros t Ht. destruct (B1 t Ht) as [Wt [H1 H2]]. rewrite Ea in H1.
    apply not_true_is_false. rewrite seg_lt_iff. unfold e; cbn [sa sb]. intros (C1 & C2 & C3).
    apply wf_le in Wt. destruct C3 as [C3|C3]; apply C3.
    - apply Rbar_le_antisym; auto. eapply Rbar_le_trans; eauto.
    - apply Rbar_le_antisym; auto. }
  exists (add_sorted p e). split; auto.
  unfold add_sorted, insort; cbn [segs].
  replace (bisect_right seg_lt (segs p) e) with (length l1).
  - rewrite E; apply list_insert_app.
  - symmetry; apply bisect_right_spec. rewrite E. apply partitioned_app; apply Forall_forall; intros t Ht.
    + apply negb_true_iff; auto.
    + apply negb_false_iff. destruct Ht as [<-|Ht]; auto.
      destruct (B2 t Ht). eapply seg_lt_trans; [exact Le|]. apply before_lt; auto.
Qed.
