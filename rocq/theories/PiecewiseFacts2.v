(** Breakpoints, lookup and evaluation of piecewise functions. *)
From Coq Require Import Reals Lra Lia List Bool Arith Sorted Permutation.
From Coquelicot Require Import Coquelicot.
From Verif Require Import Base Bisect BisectFacts Seg Piecewise PiecewiseSpec PiecewiseFacts.
Import List ListNotations.
Open Scope R_scope.

(** ** numpy.unique *)

Lemma uins_In x y l : In y (uins x l) <-> y = x \/ In y l.
Proof.
  induction l as [|z l IH]; simpl.
  - intuition.
  - destruct (bltP x z); simpl; [intuition|].
    destruct (beqP x z); simpl; [subst; intuition|]. rewrite IH. intuition.
Qed.

Lemma np_unique_In y l : In y (np_unique l) <-> In y l.
Proof.
  induction l as [|x l IH]; simpl; [tauto|]. rewrite uins_In, IH. intuition.
Qed.

Lemma uins_sorted x l : StronglySorted Rbar_lt l -> StronglySorted Rbar_lt (uins x l).
Proof.
  induction l as [|z l IH]; simpl; intros H.
  - repeat constructor.
  - destruct (bltP x z) as [L|L].
    + constructor; auto. apply StronglySorted_inv in H. destruct H as [H F].
      constructor; auto. eapply Forall_impl; [|exact F]. intros; eapply Rbar_lt_trans; eauto.
    + destruct (beqP x z) as [E|E]; auto.
      apply StronglySorted_inv in H. destruct H as [H F].
      constructor; auto. apply Forall_forall. intros y Hy. apply uins_In in Hy.
      rewrite Forall_forall in F. destruct Hy as [->|Hy]; auto.
      apply Rbar_not_lt in L. destruct (Rbar_le_lt_or_eq_dec _ _ L); auto. congruence.
Qed.

Lemma np_unique_sorted l : StronglySorted Rbar_lt (np_unique l).
Proof. induction l; simpl; [constructor|apply uins_sorted; auto]. Qed.

Lemma sorted_ext l : forall l',
  StronglySorted Rbar_lt l -> StronglySorted Rbar_lt l' -> (forall x, In x l <-> In x l') -> l = l'.
Proof.
  induction l as [|a l IH]; intros [|b l'] S S' H; auto.
  - exfalso. apply (H b); left; auto.
  - exfalso. apply (H a); left; auto.
  - apply StronglySorted_inv in S. destruct S as [S F].
    apply StronglySorted_inv in S'. destruct S' as [S' F'].
    rewrite Forall_forall in F, F'.
    assert (a = b).
    { assert (Ia : In a (b :: l')) by (apply H; left; auto).
      assert (Ib : In b (a :: l)) by (apply H; left; auto).
      destruct Ia as [|Ia]; auto. destruct Ib as [|Ib]; auto.
      exfalso. apply (Rbar_lt_irrefl a). eapply Rbar_lt_trans; [apply F; exact Ib|apply F'; exact Ia]. }
    subst b. f_equal. apply IH; auto.
    intros x; split; intros Hx.
    + assert (Hc : In x (a :: l')) by (apply H; right; auto). destruct Hc as [<-|]; auto.
      exfalso; apply (Rbar_lt_irrefl a); auto.
    + assert (Hc : In x (a :: l)) by (apply H; right; auto). destruct Hc as [<-|]; auto.
      exfalso; apply (Rbar_lt_irrefl a); auto.
Qed.

Lemma sorted_unique_id l : StronglySorted Rbar_lt l -> np_unique l = l.
Proof.
  intros H. apply sorted_ext; auto using np_unique_sorted. intros; apply np_unique_In.
Qed.

(** ** getBreaks and the breaks attribute *)

Lemma getBreaks_In l x : In x (getBreaks l) <-> exists s, In s l /\ (x = sa s \/ x = sb s).
Proof.
  unfold getBreaks. rewrite np_unique_In, in_app_iff, !in_map_iff. split.
  - intros [(s & E & H)|(s & E & H)]; exists s; auto.
  - intros (s & H & [E|E]); [left|right]; exists s; auto.
Qed.

Lemma getBreaks_sorted l : StronglySorted Rbar_lt (getBreaks l).
Proof. apply np_unique_sorted. Qed.

Lemma In_insort l s x : In x (insort seg_lt l s) <-> x = s \/ In x l.
Proof.
  destruct (insort_split seg_lt l s) as (l1 & l2 & E1 & E2).
  rewrite E2, E1, !in_app_iff. simpl. intuition.
Qed.

(** ends of the pieces as a predicate *)

Lemma merge_dirac_ends eps a m l l' :
  merge_dirac eps a m l = Some l' -> forall x, is_end l' x <-> is_end l x.
Proof.
  revert l'; induction l as [|s l IH]; simpl; intros l' H x; [discriminate|].
  assert (G : forall r, merge_dirac eps a m l = Some r -> is_end (s :: r) x <-> is_end (s :: l) x).
  { intros r Hr. specialize (IH r Hr x). unfold is_end in *. simpl.
    split; intros (t & [<-|Ht] & Hx).
    - exists s; auto.
    - destruct (proj1 IH) as (u & Hu1 & Hu2); [exists t; auto|]. exists u; auto.
    - exists s; auto.
    - destruct (proj2 IH) as (u & Hu1 & Hu2); [exists t; auto|]. exists u; auto. }
  destruct s as [| | | |b k|]; simpl in *;
  try (destruct (merge_dirac eps a m l) as [r|]; simpl in H; [|discriminate];
       injection H as <-; apply G; auto).
  destruct (rle (Rabs (a - b)) eps).
  - injection H as <-. unfold is_end; simpl. split; intros (t & [<-|Ht] & Hx);
    first [ exists t; split; [right; exact Ht|exact Hx] | eexists; split; [left; reflexivity|exact Hx] ].
  - destruct (merge_dirac eps a m l) as [r|]; simpl in H; [|discriminate].
    injection H as <-. apply G; auto.
Qed.

Definition breaks_ok (p : pwf) : Prop :=
  StronglySorted Rbar_lt (brks p) /\ (forall x, In x (brks p) <-> is_end (segs p) x).

Lemma breaks_ok_eq p : breaks_ok p -> brks p = getBreaks (segs p).
Proof.
  intros [H1 H2]. apply sorted_ext; auto using getBreaks_sorted.
  intros x. rewrite H2, getBreaks_In. reflexivity.
Qed.

Lemma add_sorted_breaks p s : breaks_ok p -> breaks_ok (add_sorted p s).
Proof.
  intros [H1 H2]. split; simpl; [apply np_unique_sorted|].
  intros x. rewrite np_unique_In, in_app_iff, H2. unfold is_end; simpl. split.
  - intros [(t & Ht & Hx)|[<-|[<-|[]]]].
    + exists t; split; auto. apply In_insort; auto.
    + exists s; split; auto. apply In_insort; auto.
    + exists s; split; auto. apply In_insort; auto.
  - intros (t & Ht & Hx). apply In_insort in Ht. destruct Ht as [->|Ht].
    + right. intuition.
    + left; exists t; auto.
Qed.

Lemma addSegment_breaks eps p s q : breaks_ok p -> addSegment eps p s = Ok q -> breaks_ok q.
Proof.
  intros B.
  assert (N : add_new p s = Ok q -> breaks_ok q).
  { unfold add_new. destruct (nth_error _ _) as [t|].
    - destruct (_ || _).
      + intros H; injection H as <-. apply add_sorted_breaks; auto.
      + destruct s as [| | | |a m|]; try discriminate.
        destruct (sa t) as [b| |]; try discriminate.
        destruct (_ || _); [|discriminate].
        intros H; injection H as <-. apply add_sorted_breaks; auto.
    - intros H; injection H as <-. apply add_sorted_breaks; auto. }
  destruct s as [| | | |a m|]; simpl; auto.
  destruct (merge_dirac eps a m (segs p)) as [l|] eqn:E; auto.
  intros H; injection H as <-. destruct B as [B1 B2]. split; auto.
  intros x. cbn [brks segs]. rewrite B2. symmetry. eapply merge_dirac_ends; eauto.
Qed.

Lemma addAll_breaks eps l : forall p q, breaks_ok p -> addAll eps p l = Ok q -> breaks_ok q.
Proof.
  induction l as [|s l IH]; simpl; intros p q B H.
  - injection H as <-; auto.
  - destruct (addSegment eps p s) as [p1|] eqn:E; simpl in H; [|discriminate].
    eapply IH; [|exact H]. eapply addSegment_breaks; eauto.
Qed.

Lemma empty_breaks : breaks_ok empty_pwf.
Proof.
  split; [constructor|]. intros x. unfold is_end; simpl. split; [tauto|]. intros (s & [] & _).
Qed.

(** ** Adding an already ordered list in order *)

Lemma ordered_compatible eps l : ordered l -> dirac_sep eps l -> all_compatible eps l.
Proof.
  induction l as [|s l IH]; intros O D; [constructor|].
  apply StronglySorted_inv in O. destruct O as [O F]. inversion D; subst.
  constructor; [|apply IH; auto].
  rewrite Forall_forall in *. intros t Ht. split; [left; auto|]. apply H1; auto.
Qed.

Lemma addAll_ordered eps l :
  ordered l -> Forall wf_seg l -> dirac_sep eps l ->
  exists q, addAll eps empty_pwf l = Ok q /\ segs q = l /\ brks q = getBreaks l.
Proof.
  intros O W D.
  destruct (addAll_compatible eps l empty_pwf) as (q & H1 & H2 & H3 & H4); simpl; auto.
  - constructor.
  - apply ordered_compatible; auto.
  - intros s t _ [].
  - exists q. simpl in H2.
    assert (segs q = l) by (symmetry; apply ordered_unique; auto).
    splits; auto. rewrite (breaks_ok_eq q), H; auto.
    eapply addAll_breaks; [apply empty_breaks|exact H1].
Qed.

(** ** Lookup *)

Lemma mono_split (p : segment -> bool) l :
  ordered l -> (forall s t, In s l -> In t l -> before s t -> p t = true -> p s = true) ->
  exists l1 l2, l = l1 ++ l2 /\ Forall (fun s => p s = true) l1 /\ Forall (fun s => p s = false) l2.
Proof.
  induction l as [|s l IH]; intros O M.
  - exists [], []; repeat constructor.
  - apply StronglySorted_inv in O. destruct O as [O F].
    destruct (p s) eqn:E.
    + destruct IH as (l1 & l2 & E1 & P1 & P2); auto.
      { intros u v Hu Hv. apply M; right; auto. }
      exists (s :: l1), l2. subst l; splits; auto.
    + exists [], (s :: l). splits; auto. constructor; auto.
      rewrite Forall_forall in *. intros t Ht. apply not_true_is_false. intros C.
      rewrite (M s t) in E; simpl; auto; discriminate.
Qed.

Definition probe (x : R) : segment := DiracSeg x 0.

Lemma lt_probe s (x : R) :
  wf_seg s ->
  (seg_lt s (probe x) = true <-> Rbar_le (sb s) x /\ sa s <> x).
Proof.
  intros W. rewrite seg_lt_iff. cbn [probe sa sb]. split.
  - intros (H1 & H2 & H3). split; auto. intros E. destruct H3 as [H3|H3]; auto.
    apply H3. apply Rbar_le_antisym; auto. rewrite <- E. apply wf_le; auto.
  - intros (H1 & H2). splits; auto. eapply Rbar_le_trans; [apply wf_le; auto|auto].
Qed.

Lemma probe_mono l (x : R) s t :
  Forall wf_seg l -> In s l -> In t l -> before s t ->
  seg_lt t (probe x) = true -> seg_lt s (probe x) = true.
Proof.
  intros W Hs Ht [B1 B2]. rewrite Forall_forall in W.
  rewrite !lt_probe by auto. intros [H1 H2].
  pose proof (wf_le _ (W _ Hs)) as Ws. pose proof (wf_le _ (W _ Ht)) as Wt.
  split.
  - eapply Rbar_le_trans; [exact B1|]. eapply Rbar_le_trans; eauto.
  - intros E. apply B2. rewrite E. apply Rbar_le_antisym; auto.
    rewrite <- E. eapply Rbar_le_trans; [exact Ws|]. eapply Rbar_le_trans; eauto.
Qed.

Lemma probe_split l (x : R) :
  ordered l -> Forall wf_seg l ->
  exists l1 l2, l = l1 ++ l2 /\
    (forall s, In s l1 -> Rbar_le (sb s) x /\ sa s <> x) /\
    (forall s, In s l2 -> ~ (Rbar_le (sb s) x /\ sa s <> x)) /\
    bisect_left seg_lt l (DiracSeg x 0) = length l1.
Proof.
  intros O W.
  destruct (mono_split (fun s => seg_lt s (probe x)) l O) as (l1 & l2 & E & P1 & P2).
  { intros; eapply probe_mono; eauto. }
  exists l1, l2. subst l. rewrite Forall_app in W. destruct W as [W1 W2].
  rewrite Forall_forall in *. splits; auto.
  - intros s Hs. apply lt_probe; auto. 
  - intros s Hs. rewrite <- lt_probe by auto. rewrite P2; auto; discriminate.
  - apply bisect_left_spec. apply partitioned_app; apply Forall_forall; auto.
Qed.

(** what findSegment returns on any ordered function, in terms of the split above *)
Lemma findSegment_split l (x : R) l1 l2 :
  l = l1 ++ l2 -> bisect_left seg_lt l (DiracSeg x 0) = length l1 ->
  findSegment l x =
  match l2 with
  | s :: _ =>
      match l1 with
      | [] => if (ble (sa s) x && ble x (sb s))%bool then Ok (Some s) else Ok None
      | _ => Ok (Some s)
      end
  | [] =>
      match rev l1 with
      | [] => Err EIndex
      | s :: _ => if beq (sb s) x then Ok (Some s) else Ok None
      end
  end.
Proof.
  intros E B. unfold findSegment. rewrite B. subst l. rewrite app_length.
  destruct l2 as [|s l2]; cbn [length].
  - rewrite Nat.add_0_r, Nat.ltb_irrefl, andb_false_r.
    destruct l1 as [|t l1] using rev_ind; [reflexivity|].
    rewrite rev_unit, app_nil_r, app_length. simpl length.
    destruct (Nat.eqb_spec (length l1 + 1) 0); [lia|].
    rewrite nth_error_app2 by lia.
    replace (length l1 + 1 - 1 - length l1)%nat with 0%nat by lia. reflexivity.
  - destruct l1 as [|t l1]; [reflexivity|].
    cbn [length app]. destruct (Nat.ltb_spec 0 (S (length l1))); [|lia].
    destruct (Nat.ltb_spec (S (length l1)) (S (length l1) + S (length l2))); [|lia].
    cbn [andb]. rewrite app_comm_cons, nth_error_app2 by (simpl; lia).
    simpl length. rewrite Nat.sub_diag. reflexivity.
Qed.

Lemma gap_free_ordered l : gap_free l -> ordered l.
Proof.
  intros [C H]. induction l as [|s l IH]; [constructor|].
  inversion C as [|? ? Cs Cl]; subst.
  assert (H' : chained l) by (destruct l; simpl in *; tauto).
  specialize (IH Cl H').
  constructor; auto.
  destruct l as [|t l]; [constructor|].
  destruct H as [E _]. inversion Cl as [|? ? Ct Cl']; subst.
  destruct Cs as [Ds Ws]. destruct Ct as [Dt Wt].
  assert (B : before s t).
  { split; [rewrite E; apply Rbar_le_refl|].
    assert (L1 : Rbar_lt (sa s) (sb s)) by (destruct s; simpl in *; auto; discriminate).
    assert (L2 : Rbar_lt (sa t) (sb t)) by (destruct t; simpl in *; auto; discriminate).
    rewrite E in L1. intros C2. rewrite C2 in L1.
    apply (Rbar_lt_irrefl (sb t)). eapply Rbar_lt_trans; eauto. }
  constructor; auto. apply StronglySorted_inv in IH. destruct IH as [_ F].
  rewrite Forall_forall in *. intros u Hu.
  eapply before_trans with t; auto. apply Cl; right; auto.
Qed.

Lemma cont_lt s : continuous_piece s -> Rbar_lt (sa s) (sb s).
Proof. intros [D W]; destruct s; simpl in *; auto; discriminate. Qed.

Lemma gap_free_wf l : gap_free l -> Forall wf_seg l.
Proof. intros [C _]. eapply Forall_impl; [|exact C]. intros s [_ W]; auto. Qed.

Lemma gap_free_app l1 s t l2 : chained (l1 ++ s :: t :: l2) -> sb s = sa t.
Proof.
  induction l1 as [|u l1 IH]; intros H; [simpl in H; tauto|].
  apply IH. destruct l1; simpl in *; tauto.
Qed.

(** scalar evaluation of a gap-free function *)
Lemma call_scalar_gap_free l (x : R) :
  l <> [] -> gap_free l -> exists v, call_scalar l x = Ok v /\ has_value l x v.
Proof.
  intros N G. pose proof (gap_free_ordered _ G) as O. pose proof (gap_free_wf _ G) as W.
  destruct (probe_split l x O W) as (l1 & l2 & E & P1 & P2 & B).
  unfold call_scalar. rewrite (findSegment_split _ _ _ _ E B).
  destruct G as [C Ch]. rewrite Forall_forall in C, W.
  destruct l2 as [|s l2].
  - rewrite app_nil_r in E. subst l1.
    assert (NC : forall t, In t l -> isDirac t = false -> ~ covers t x).
    { intros t Ht _ [C1 C2]. destruct (P1 t Ht) as [D1 D2].
      apply (Rbar_lt_not_le _ _ C2); auto. }
    destruct l as [|t l0] using rev_ind; [congruence|]. clear IHl0.
    rewrite rev_unit.
    destruct (beqP (sb t) x) as [Et|Et]; simpl.
    + assert (D : isDirac t = false) by (apply C; apply in_or_app; simpl; auto).
      rewrite D. eexists; split; [reflexivity|]. right. split; auto. left.
      exists t, l0; auto.
    + eexists; split; [reflexivity|]. right. split; auto. right. split; auto.
      intros s l' E2. apply app_inj_tail in E2. destruct E2 as [_ <-]; auto.
  - assert (Hs : In s l) by (subst l; apply in_or_app; simpl; auto).
    pose proof (cont_lt _ (C _ Hs)) as Ls.
    assert (D : isDirac s = false) by (apply C; auto).
    assert (Ub : Rbar_lt x (sb s)).
    { apply Rbar_not_le. intros L. apply (P2 s); [left; auto|]. split; auto.
      intros Ea. rewrite Ea in Ls. apply (Rbar_lt_not_le _ _ Ls); auto. }
    destruct (Rbar_le_dec (sa s) x) as [La|La].
    + assert (Hv : has_value l x (sf s x)).
      { left. exists s; splits; auto. split; auto. }
      destruct l1 as [|t l1].
      * rewrite (proj2 (ble_true _ _) La), (proj2 (ble_true _ _) (Rbar_lt_le _ _ Ub)). simpl.
        rewrite D; eauto.
      * simpl; rewrite D; eauto.
    + assert (l1 = []).
      { destruct l1 as [|t l1] using rev_ind; auto. exfalso. clear IHl1.
        rewrite <- app_assoc in E. simpl in E. rewrite E in Ch. apply gap_free_app in Ch.
        apply La. rewrite <- Ch. apply P1. apply in_or_app; simpl; auto. }
      subst l1. simpl in E. subst l.
      rewrite (proj2 (ble_false _ _)) by (apply Rbar_not_le; auto). simpl.
      eexists; split; [reflexivity|].
      assert (Lt : forall t, In t (s :: l2) -> Rbar_lt x (sa t)).
      { intros t [<-|Ht]; [apply Rbar_not_le; auto|].
        apply StronglySorted_inv in O. destruct O as [_ F]. rewrite Forall_forall in F.
        destruct (F t Ht) as [F1 _]. eapply Rbar_lt_le_trans; eauto. }
      right. split.
      * intros t Ht _ [C1 _]. apply (Rbar_lt_not_le _ _ (Lt t Ht)); auto.
      * right. split; auto. intros t l' E2 E3.
        assert (Ht : In t (s :: l2)) by (rewrite E2; apply in_or_app; simpl; auto).
        pose proof (cont_lt _ (C _ Ht)) as L3. rewrite E3 in L3.
        apply (Rbar_lt_irrefl x). eapply Rbar_lt_trans; [apply (Lt t Ht)|exact L3].
Qed.

(** a point strictly inside a gap evaluates the piece to the right of the gap *)
Lemma find_in_gap l l1 s t l2 (x : R) :
  ordered l -> Forall wf_seg l -> l = l1 ++ s :: t :: l2 ->
  Rbar_lt (sb s) x -> Rbar_lt x (sa t) ->
  findSegment l x = Ok (Some t).
Proof.
  intros O W E Hs Ht. rewrite Forall_forall in W.
  assert (B : bisect_left seg_lt l (DiracSeg x 0) = length (l1 ++ [s])).
  { apply bisect_left_spec. rewrite E.
    replace (l1 ++ s :: t :: l2) with ((l1 ++ [s]) ++ t :: l2) by (now rewrite <- app_assoc).
    rewrite E in O. apply SS_app in O. destruct O as (O1 & O2 & O3).
    apply StronglySorted_inv in O2. destruct O2 as [O2 F2].
    apply StronglySorted_inv in O2. destruct O2 as [O2 F3].
    rewrite Forall_forall in F2, F3.
    apply partitioned_app; apply Forall_forall; intros u Hu.
    - assert (Wu : wf_seg u).
      { apply W. rewrite E. apply in_app_or in Hu. apply in_or_app. simpl in *. intuition. }
      apply lt_probe; auto.
      assert (Rbar_lt (sb u) x).
      { apply in_app_or in Hu. destruct Hu as [Hu|[<-|[]]]; auto.
        destruct (O3 u s) as [Q _]; simpl; auto.
        assert (Ws : wf_seg s) by (apply W; rewrite E; apply in_or_app; simpl; auto).
        apply wf_le in Ws. eapply Rbar_le_lt_trans; [exact Q|].
        eapply Rbar_le_lt_trans; [exact Ws|auto]. }
      split; [apply Rbar_lt_le; auto|].
      intros E2. apply wf_le in Wu. rewrite E2 in Wu. apply (Rbar_lt_not_le _ _ H); auto.
    - assert (Wu : wf_seg u).
      { apply W. rewrite E. apply in_or_app. simpl in *. intuition. }
      apply not_true_is_false. change (seg_lt u (probe x) <> true). rewrite lt_probe by auto.
      intros [Q1 Q2].
      assert (Rbar_lt x (sa u)).
      { destruct Hu as [<-|Hu]; auto. destruct (F3 u Hu) as [Q _].
        assert (Wt : wf_seg t) by (apply W; rewrite E; apply in_or_app; simpl; auto).
        apply wf_le in Wt. eapply Rbar_lt_le_trans; [exact Ht|].
        eapply Rbar_le_trans; eauto. }
      apply wf_le in Wu. apply (Rbar_lt_not_le _ _ H). eapply Rbar_le_trans; eauto. }
  rewrite (findSegment_split l x (l1 ++ [s]) (t :: l2)); auto.
  - destruct l1; reflexivity.
  - rewrite E, <- app_assoc. reflexivity.
Qed.

(** ** Vector evaluation *)

Lemma fold_no_cover l (x y : R) :
  (forall s, In s l -> ~ covers s x) ->
  fold_left (fun y s => if (ble (sa s) x && blt x (sb s))%bool then sf s x else y) l y = y.
Proof.
  revert y; induction l as [|s l IH]; intros y H; simpl; auto.
  rewrite IH by (intros; apply H; right; auto).
  destruct (bleP (sa s) x); simpl; auto. destruct (bltP x (sb s)); simpl; auto.
  exfalso. apply (H s); [left; auto|split; auto].
Qed.

Lemma ordered_cover_unique l s t (x : R) :
  ordered l -> Forall wf_seg l -> In s l -> In t l -> covers s x -> covers t x -> s = t.
Proof.
  intros O W. induction l as [|u l IH]; [intros []|].
  apply StronglySorted_inv in O. destruct O as [O F]. inversion W; subst.
  rewrite Forall_forall in F.
  assert (G : forall v, In v l -> covers u x -> covers v x -> False).
  { intros v Hv [C1 C2] [C3 C4]. destruct (F v Hv) as [B _].
    apply (Rbar_lt_not_le _ _ C2). eapply Rbar_le_trans; eauto. }
  intros [<-|Hs] [<-|Ht] Cs Ct; auto; exfalso; eauto.
Qed.

Lemma filter_ordered p l : ordered l -> ordered (filter p l).
Proof.
  induction l as [|s l IH]; simpl; intros O; [constructor|].
  apply StronglySorted_inv in O. destruct O as [O F].
  destruct (p s); auto. constructor; [apply IH; exact O|].
  apply Forall_forall. rewrite Forall_forall in F. intros t Ht. apply filter_In in Ht. apply F; tauto.
Qed.

Lemma filter_Forall {A} (P : A -> Prop) p l : Forall P l -> Forall P (filter p l).
Proof.
  rewrite !Forall_forall. intros H x Hx. apply filter_In in Hx. apply H; tauto.
Qed.

Lemma getSegments_cont l s : In s (getSegments l) <-> In s l /\ isDirac s = false.
Proof.
  unfold getSegments. rewrite filter_In. unfold isSegment. rewrite negb_true_iff. tauto.
Qed.

Lemma call_vec_value l (x : R) :
  ordered l -> Forall wf_seg l -> has_value (getSegments l) x (call_vec l x).
Proof.
  intros O W. unfold call_vec.
  set (ss := getSegments l).
  assert (Os : ordered ss) by (apply filter_ordered; auto).
  assert (Ws : Forall wf_seg ss) by (apply filter_Forall; auto).
  assert (Cs : forall s, In s ss -> isDirac s = false) by (intros s Hs; apply getSegments_cont in Hs; tauto).
  clearbody ss. clear l O W.
  assert (Last : forall s l', ss = l' ++ [s] -> forall t, In t ss -> covers t x -> sb s <> x).
  { intros s l' E t Ht [C1 C2] E2.
    assert (LE : Rbar_le (sb t) (sb s)).
    { rewrite E in Ht. apply in_app_or in Ht. destruct Ht as [Ht|[<-|[]]]; [|apply Rbar_le_refl].
      rewrite E in Os. apply SS_app in Os. destruct Os as (_ & _ & Os).
      destruct (Os t s) as [B _]; simpl; auto.
      eapply Rbar_le_trans; [exact B|]. apply wf_le.
      rewrite Forall_forall in Ws. apply Ws. rewrite E. apply in_or_app; simpl; auto. }
    rewrite E2 in LE. apply (Rbar_lt_not_le _ _ C2); auto. }
  assert (FC : forall s, In s ss -> covers s x ->
            fold_left (fun y s => if (ble (sa s) x && blt x (sb s))%bool then sf s x else y) ss 0 = sf s x).
  { intros s Hs Cx. destruct (in_split _ _ Hs) as (u & v & E).
    rewrite E, fold_left_app. simpl. destruct Cx as [C1 C2].
    rewrite (proj2 (ble_true _ _) C1), (proj2 (blt_true _ _) C2). simpl.
    apply fold_no_cover. intros t Ht Ct.
    rewrite E in Os. apply SS_app in Os. destruct Os as (_ & Os & _).
    apply StronglySorted_inv in Os. destruct Os as [_ F]. rewrite Forall_forall in F.
    destruct (F t Ht) as [B _]. destruct Ct as [C3 C4].
    apply (Rbar_lt_not_le _ _ C2). eapply Rbar_le_trans; eauto. }
  assert (Dec : (exists s, In s ss /\ covers s x) \/ (forall s, In s ss -> ~ covers s x)).
  { clear. induction ss as [|s ss IH]; [right; intros s []|].
    destruct IH as [(t & H1 & H2)|H]; [left; exists t; simpl; auto|].
    destruct (Rbar_le_dec (sa s) x); destruct (Rbar_lt_dec x (sb s));
    try (left; exists s; simpl; unfold covers; auto; fail);
    right; intros t [<-|Ht]; auto; unfold covers; tauto. }
  destruct Dec as [(s & Hs & Cx)|NC].
  - left. exists s. splits; auto. rewrite (FC s Hs Cx).
    destruct ss as [|t l'] using rev_ind; [destruct Hs|]. clear IHl'.
    rewrite rev_unit. destruct (beqP x (sb t)) as [E|E]; auto.
    exfalso. symmetry in E. revert E. apply (Last t l' eq_refl s); auto.
  - right. split; auto. rewrite fold_no_cover; auto.
    destruct ss as [|t l'] using rev_ind.
    + right. split; auto. intros s l' E. destruct l'; discriminate.
    + clear IHl'. rewrite rev_unit. destruct (beqP x (sb t)) as [E|E].
      * left. exists t, l'. splits; auto. apply Cs; apply in_or_app; simpl; auto.
      * right. split; auto. intros s l'' E2. apply app_inj_tail in E2.
        destruct E2 as [_ <-]. congruence.
Qed.

Lemma has_value_unique l (x v w : R) :
  ordered l -> Forall wf_seg l -> has_value l x v -> has_value l x w -> v = w.
Proof.
  intros O W [(s & H1 & H2 & H3 & ->)|(H1 & H2)] [(t & K1 & K2 & K3 & ->)|(K1 & K2)].
  - rewrite (ordered_cover_unique l s t x); auto.
  - exfalso; apply (K1 s); auto.
  - exfalso; apply (H1 t); auto.
  - destruct H2 as [(s & l' & E1 & D1 & B1 & ->)|(N1 & ->)];
    destruct K2 as [(t & l'' & E2 & D2 & B2 & ->)|(N2 & ->)]; auto.
    + rewrite E1 in E2. apply app_inj_tail in E2. destruct E2 as [_ ->]; auto.
    + exfalso; eapply N2; eauto.
    + exfalso; eapply N1; eauto.
Qed.

Lemma getSegments_id l : Forall continuous_piece l -> getSegments l = l.
Proof.
  unfold getSegments. induction l as [|s l IH]; simpl; intros H; auto.
  inversion H as [|? ? [D _] H']; subst. unfold isSegment. rewrite D. simpl. f_equal.
  apply IH; auto.
Qed.

Lemma scalar_vec_agree l (x : R) :
  l <> [] -> gap_free l -> call_scalar l x = Ok (call_vec l x).
Proof.
  intros N G. destruct (call_scalar_gap_free l x N G) as (v & E & H).
  rewrite E. f_equal.
  pose proof (call_vec_value l x (gap_free_ordered _ G) (gap_free_wf _ G)) as H2.
  rewrite getSegments_id in H2 by apply G.
  eapply has_value_unique; eauto using gap_free_ordered, gap_free_wf.
Qed.

(** scalar evaluation strictly inside a piece, gaps and atoms elsewhere allowed *)
Lemma call_scalar_inside l s (x : R) :
  ordered l -> Forall wf_seg l -> In s l -> isDirac s = false -> Rbar_lt (sa s) x -> Rbar_lt x (sb s) ->
  call_scalar l x = Ok (sf s x).
Proof.
  intros O W I D H1 H2.
  destruct (probe_split l x O W) as (l1 & l2 & E & P1 & P2 & B).
  assert (I2 : In s l2).
  { rewrite E in I. apply in_app_or in I. destruct I as [I|I]; auto.
    destruct (P1 s I) as [L _]. exfalso. apply (Rbar_lt_not_le _ _ H2); auto. }
  unfold call_scalar. rewrite (findSegment_split l x l1 l2 E B).
  destruct l2 as [|t l2]; [destruct I2|].
  assert (t = s).
  { destruct I2 as [I2|I2]; auto. exfalso. apply (P2 t); [left; auto|].
    rewrite E in O. apply SS_app in O. destruct O as (_ & O & _). apply StronglySorted_inv in O. destruct O as [_ O].
    rewrite Forall_forall in O. destruct (O s I2) as [L _].
    assert (L2 : Rbar_lt (sb t) x) by (apply (Rbar_le_lt_trans _ (sa s)); auto).
    split; [apply Rbar_lt_le; auto|]. intros Et. apply (Rbar_lt_not_le _ _ L2). rewrite <- Et. apply wf_le.
    rewrite Forall_forall in W. apply W. rewrite E. apply in_or_app; right; left; auto. }
  subst t. assert (C : (ble (sa s) x && ble x (sb s))%bool = true).
  { apply andb_true_intro; split; apply ble_true, Rbar_lt_le; auto. }
  destruct l1; [rewrite C|]; simpl; rewrite D; auto.
Qed.
