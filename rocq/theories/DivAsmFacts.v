(** Proofs about whole quotients: splitting at zero and break points. *)
From Coq Require Import Reals Lra Lia List Bool Sorted Permutation.
From Coquelicot Require Import Coquelicot.
From Verif Require Import Base Bisect BisectFacts Seg Piecewise PiecewiseSpec PiecewiseFacts PiecewiseFacts2 PiecewiseFacts3 PiecewiseFacts4 Integral IntegralFacts SegInt SegIntSpec IntParts IntPartsFacts Wide WideMain Indep IndepSpec AtomFacts AtomFacts2 AtomFacts3 ConvolFacts IndepAsm AsmFacts ExtrFacts ExtrFacts2 ExtrFacts3 QuotFacts QuotFacts2 ProdFacts ProdFacts2 ProdAsm ProdAsmSpec ProdAsmFacts DivAsm DivAsmSpec.
Import List ListNotations.
Open Scope R_scope.

(** ** insertion into a sorted list *)
Lemma insort_left_In l x y : In y (insort_left l x) <-> y = x \/ In y l.
Proof.
  unfold insort_left. destruct (list_insert_split (bisect_left blt l x) x l (bisect_left_bound _ _ _)) as (l1 & l2 & E & _ & ->).
  rewrite E, !in_app_iff. simpl. intuition auto.
Qed.
Lemma sorted_part x l : StronglySorted Rbar_lt l -> exists l1 l2, l = l1 ++ l2 /\ Forall (fun y => Rbar_lt y x) l1 /\ Forall (fun y => Rbar_le x y) l2.
Proof.
  induction 1 as [|a l S IH F]; [exists [], []; auto|]. destruct (Rbar_lt_dec a x) as [L|L].
  - destruct IH as (l1 & l2 & -> & H1 & H2). exists (a :: l1), l2. splits; auto.
  - exists [], (a :: l). splits; auto. apply Rbar_not_lt in L. constructor; auto. eapply Forall_impl; [|exact F]. simpl. intros y Y.
    apply Rbar_lt_le. eapply Rbar_le_lt_trans; eauto.
Qed.
Lemma insort_left_split l x : StronglySorted Rbar_lt l -> exists l1 l2, l = l1 ++ l2 /\ insort_left l x = l1 ++ x :: l2 /\
  Forall (fun y => Rbar_lt y x) l1 /\ Forall (fun y => Rbar_le x y) l2.
Proof.
  intros S. destruct (sorted_part x l S) as (l1 & l2 & -> & H1 & H2). exists l1, l2. splits; auto. unfold insort_left.
  rewrite (bisect_left_spec blt (l1 ++ l2) x (length l1)); [apply list_insert_app|]. apply partitioned_app.
  - eapply Forall_impl; [|exact H1]. simpl. intros. apply blt_true; auto.
  - eapply Forall_impl; [|exact H2]. simpl. intros y Y. destruct (bltP y x) as [L|L]; auto. exfalso. apply (Rbar_lt_not_eq y y); auto. eapply Rbar_lt_le_trans; eauto.
Qed.
Lemma app_sorted l1 l2 x : StronglySorted Rbar_lt (l1 ++ l2) -> Forall (fun y => Rbar_lt y x) l1 -> Forall (fun y => Rbar_lt x y) l2 -> StronglySorted Rbar_lt (l1 ++ x :: l2).
Proof.
  intros S F1 F2. induction l1 as [|a l1 IH]; simpl in *.
  - constructor; auto.
  - inversion S; subst. inversion F1; subst. constructor; auto. rewrite Forall_forall in *. intros y Hy. apply in_app_iff in Hy. destruct Hy as [Hy|[<-|Hy]]; auto; apply H2; apply in_app_iff; auto.
Qed.
Lemma insort_new l x : StronglySorted Rbar_lt l -> ~ In x l -> StronglySorted Rbar_lt (insort_left l x).
Proof.
  intros S N. destruct (insort_left_split l x S) as (l1 & l2 & E & -> & F1 & F2). subst l. apply app_sorted; auto.
  rewrite Forall_forall in *. intros y Hy. destruct (Rbar_le_lt_or_eq_dec _ _ (F2 y Hy)) as [L|L]; auto. exfalso. apply N. rewrite L. apply in_app_iff; auto.
Qed.
Lemma insort_head l x y : StronglySorted Rbar_lt l -> nth_error (insort_left l x) 0 = Some y -> (y = x /\ forall z, In z l -> Rbar_le x z) \/ nth_error l 0 = Some y.
Proof.
  intros S H. destruct (insort_left_split l x S) as (l1 & l2 & -> & E & F1 & F2). rewrite E in H. destruct l1 as [|a l1]; simpl in H.
  - injection H as ->. left. split; auto. simpl. rewrite Forall_forall in F2. auto.
  - right. auto.
Qed.
Lemma sorted_nth l i x y : StronglySorted Rbar_lt l -> nth_error l i = Some x -> nth_error l (S i) = Some y -> Rbar_lt x y.
Proof.
  intros S. revert i. induction S as [|a l S IH F]; intros i; [destruct i; discriminate|]. destruct i as [|i]; simpl.
  - intros [= <-] H. rewrite Forall_forall in F. apply F. destruct l; [discriminate|]. injection H as ->. simpl; auto.
  - intros H1 H2. apply (IH i); auto.
Qed.
Lemma zero_ix_some l i : zero_ix l = Some i -> nth_error l i = Some (Finite 0).
Proof.
  revert i. induction l as [|x l IH]; intros i H; [discriminate|]. simpl in H. destruct (beqP x 0) as [->|N].
  - injection H as <-. auto.
  - destruct (zero_ix l) as [j|]; [|discriminate]. injection H as <-. simpl. auto.
Qed.
Lemma zero_ix_none l : zero_ix l = None <-> ~ In (Finite 0) l.
Proof.
  induction l as [|x l IH]; simpl; [tauto|]. destruct (beqP x 0) as [->|N].
  - split; [discriminate|]. intros H. exfalso. apply H. auto.
  - destruct (zero_ix l); simpl.
    + split; [discriminate|]. intros H. exfalso. assert (K : Some n = None); [apply IH; tauto|discriminate].
    + split; auto. intros _ [H|H]; auto. destruct IH as (IH & _). apply IH; auto.
Qed.

(** ** points of the split *)
Definition cut_val (b : list Rbar) (p : Rbar) : Prop :=
  In p b \/ p = Finite 0 \/ p = Finite (-1) \/ p = Finite (-1/2) \/ exists e : R, In (Finite e) b /\ p = Finite (e / 2).
Lemma half_val b y : In y b -> (if isinf y then Finite (-1) else bhalf y) = Finite (-1) \/ exists e : R, In (Finite e) b /\ (if isinf y then Finite (-1) else bhalf y) = Finite (e / 2).
Proof. intros H. destruct y; simpl; eauto. Qed.
Lemma zero_pts_spec b : StronglySorted Rbar_lt b ->
  StronglySorted Rbar_lt (zero_pts b) /\ In (Finite 0) (zero_pts b) /\ (forall p, In p b -> In p (zero_pts b)) /\ (forall p, In p (zero_pts b) -> cut_val b p).
Proof.
  intros SB. unfold zero_pts. set (l := match zero_ix b with Some _ => b | None => insort_left b 0 end).
  assert (L : StronglySorted Rbar_lt l /\ In (Finite 0) l /\ forall p, In p l <-> p = Finite 0 \/ In p b).
  { unfold l. destruct (zero_ix b) as [j|] eqn:E.
    - assert (In (Finite 0) b) by (eapply nth_error_In, zero_ix_some; eauto). splits; auto. intros p. split; auto. intros [->|]; auto.
    - splits; [apply insort_new; auto; apply zero_ix_none; auto|apply insort_left_In; auto|apply insort_left_In]. }
  destruct L as (Sl & Zl & Il). destruct (zero_ix l) as [i|] eqn:E; [|apply zero_ix_none in E; tauto]. apply zero_ix_some in E.
  assert (R : (forall p, In p l -> In p (cut_right l i)) /\ (forall p, In p (cut_right l i) -> In p l \/ p = Finite (-1) \/ exists e : R, 0 < e /\ In (Finite e) l /\ p = Finite (e / 2)) /\
     (forall y, nth_error (cut_right l i) 0 = Some y -> In y l \/ y = Finite (-1))).
  { unfold cut_right. destruct (i + 2 =? length l)%nat; [|splits; auto; intros y H; left; eapply nth_error_In; eauto].
    destruct (nth_error l (S i)) as [y|] eqn:Y; [|splits; auto; intros y H; left; eapply nth_error_In; eauto].
    assert (P : Rbar_lt 0 y) by (apply (sorted_nth l i); auto). pose proof (nth_error_In _ _ Y) as Yl.
    assert (V : (if isinf y then Finite (-1) else bhalf y) = Finite (-1) \/ exists e : R, 0 < e /\ In (Finite e) l /\ (if isinf y then Finite (-1) else bhalf y) = Finite (e / 2)) by (destruct y; simpl; eauto).
    splits.
    - intros p H. apply insort_left_In. auto.
    - intros p H. apply insort_left_In in H. destruct H as [->|H]; auto. 
    - intros z H. apply insort_head in H; auto. destruct H as [(-> & H)|H].
      + destruct V as [V|(e & E1 & E2 & V)]; rewrite V in *; auto. specialize (H _ Zl). simpl in H. lra.
      + left. eapply nth_error_In; eauto. }
  destruct R as (R1 & R2 & R3). set (l' := cut_left (cut_right l i) i).
  assert (T : (forall p, In p l -> In p l') /\ (forall p, In p l' -> cut_val b p)).
  { assert (C : forall p, In p (cut_right l i) -> cut_val b p).
    { intros p H. apply R2 in H. unfold cut_val. destruct H as [H|[->|(e & E1 & E2 & ->)]]; auto.
      - apply Il in H. destruct H; auto.
      - apply Il in E2. destruct E2 as [[= ->]|E2]; [lra|]. right. right. right. right. eauto. }
    unfold l', cut_left. destruct (i =? 1)%nat; [|split; auto]. destruct (nth_error (cut_right l i) 0) as [y|] eqn:Y; [|split; auto]. split.
    - intros p H. apply insort_left_In. auto.
    - intros p H. apply insort_left_In in H. destruct H as [->|H]; auto. unfold cut_val. specialize (R3 y eq_refl). destruct R3 as [H| ->].
      + apply Il in H. destruct H as [->|H]; [simpl; right; left; f_equal; lra|]. destruct (half_val b y H) as [->|]; auto.
      + simpl. right. right. right. left. auto. }
  destruct T as (T1 & T2). splits.
  - apply np_unique_sorted.
  - apply (proj2 (np_unique_In _ _)). auto.
  - intros p H. apply (proj2 (np_unique_In _ _)), T1, Il. auto.
  - intros p H. apply (proj1 (np_unique_In _ _)) in H. auto.
Qed.

(** ** the split function *)
Definition refines (l l' : list segment) : Prop :=
  ordered l' /\ Forall wf_seg l' /\ getDiracs l' = getDiracs l /\ Forall one_sided l' /\
  (forall p, is_end l' p -> zero_cut l p) /\ (forall p, is_end l p -> is_end l' p) /\
  (forall s, In s l' -> exists t, In t l /\ isDirac s = isDirac t /\ sf s = sf t /\ Rbar_le (sa t) (sa s) /\ Rbar_le (sb s) (sb t)) /\
  (forall x : R, ~ is_end l' x -> dens l' x = dens l x).
Lemma sorted_last l (x y d : Rbar) : StronglySorted Rbar_lt (x :: l) -> In y (x :: l) -> Rbar_le x y /\ Rbar_le y (last (x :: l) d).
Proof.
  revert x y. induction l as [|z l IH]; intros x y S H.
  - destruct H as [<-|[]]. simpl. split; apply Rbar_le_refl.
  - inversion S as [|? ? S1 F]; subst. rewrite Forall_forall in F. destruct H as [<-|H].
    + split; [apply Rbar_le_refl|]. apply Rbar_lt_le. destruct (IH z z S1 (or_introl eq_refl)) as (_ & K). eapply Rbar_lt_le_trans; [|exact K]. apply F. simpl; auto.
    + destruct (IH z y S1 H) as (K1 & K2). split; auto. apply Rbar_lt_le. apply F; auto.
Qed.
Lemma split_zero_ok eps l : ordered l -> Forall wf_seg l -> dirac_sep eps l -> l <> [] -> exists l', split_zero eps l = Ok l' /\ refines l l'.
Proof.
  intros O W D NE. unfold split_zero. pose proof (np_unique_sorted (map sa l ++ map sb l)) as S. fold (getBreaks l) in S.
  assert (NB : exists p, In p (getBreaks l)). { destruct l as [|s l]; [congruence|]. exists (sa s). apply getBreaks_end. exists s. simpl; auto. }
  destruct (getBreaks l) as [|b0 b] eqn:EB; [destruct NB as (? & [])|]. destruct (_ || _)%bool eqn:C.
  - exists l. split; auto. unfold refines. splits; auto.
    + apply Forall_forall. intros s Hs. assert (K1 : In (sa s) (b0 :: b)) by (rewrite <- EB; apply getBreaks_end; exists s; auto).
      assert (K2 : In (sb s) (b0 :: b)) by (rewrite <- EB; apply getBreaks_end; exists s; auto).
      destruct (sorted_last b b0 _ b0 S K1) as (A1 & _). destruct (sorted_last b b0 _ b0 S K2) as (_ & A2).
      apply orb_true_iff in C. destruct C as [C|C]; apply blt_true in C.
      * left. apply Rbar_lt_le. eapply Rbar_lt_le_trans; eauto.
      * right. apply Rbar_lt_le. eapply Rbar_le_lt_trans; eauto.
    + intros p H. left. auto.
    + intros s Hs. exists s. splits; auto; apply Rbar_le_refl.
  - destruct (zero_pts_spec (b0 :: b) S) as (Z1 & Z2 & Z3 & Z4). set (pts := zero_pts (b0 :: b)) in *.
    destruct (splitByPoints_ok eps l pts Z1 O W D) as (q & -> & E & _). cbn [rmap]. exists (segs q). split; auto. rewrite E.
    destruct (split_all_ordered pts l Z1 O W) as (O' & W' & _).
    assert (EE : forall p, is_end (split_all pts l) p <-> is_end l p \/ (In p pts /\ exists s, In s l /\ inside s p)).
    { intros p. rewrite <- getBreaks_end, split_breaks_In, getBreaks_end by auto. tauto. }
    unfold refines. splits; auto.
    + apply split_diracs; auto.
    + apply Forall_forall. intros s Hs. unfold one_sided. destruct (Rbar_lt_dec (sa s) 0) as [A|A].
      * right. apply Rbar_not_lt. intros B. apply (split_no_inside pts l s 0 Z1 W Hs Z2). split; auto.
      * left. apply Rbar_not_lt. auto.
    + intros p H. apply EE in H. destruct H as [H|(H1 & s & H2 & H3)]; [left; auto|]. apply Z4 in H1. unfold cut_val in H1. rewrite <- EB in H1.
      destruct H1 as [H1|H1]; [left; apply getBreaks_end; auto|]. right. split; [|exists s; split; auto].
      destruct H1 as [H1|[H1|[H1|(e & E1 & E2)]]]; auto. right. right. right. exists e. split; auto. apply getBreaks_end; auto.
    + intros p H. apply EE. auto.
    + intros s Hs. apply split_all_In in Hs. destruct Hs as (t & Ht & Hs). rewrite Forall_forall in W.
      destruct (split_seg_spec pts t Z1 (W t Ht)) as (P & _). rewrite Forall_forall in P. exists t. split; [auto|]. destruct (P s Hs) as (A & B & C1 & D1 & E1). splits; auto.
    + intros x N. destruct (in_dec (fun a b => ltac:(apply Rbar_eq_dec)) (Finite x) pts) as [I|I].
      * rewrite !dens_zero; auto.
        -- intros s Hs Ds (C1 & C2). apply N. destruct (Rbar_le_lt_or_eq_dec _ _ C1) as [L|L]; [|apply EE; left; exists s; auto].
           apply EE. right. split; auto. exists s. split; [auto|split; auto].
        -- intros s Hs Ds (C1 & C2). destruct (Rbar_le_lt_or_eq_dec _ _ C1) as [L|L]; [|apply N; exists s; auto].
           apply (split_no_inside pts l s x Z1 W Hs I). split; auto.
      * apply split_dens; auto. intros K. apply N, EE. auto.
Qed.
