(** The constructor of a piecewise function from a function and break points. *)
From Coq Require Import Reals Lra List Bool Sorted Arith Lia.
From Coquelicot Require Import Coquelicot.
From Verif Require Import Base Seg Piecewise PiecewiseSpec PiecewiseFacts PiecewiseFacts2 CumintFacts Std StdSpec StdFacts2.
Import List ListNotations.
Open Scope R_scope.

Lemma brks_same bp a b : StronglySorted Rbar_lt bp -> In a bp -> In b bp -> np_unique (bp ++ [a; b]) = bp.
Proof.
  intros S A B. apply sorted_ext; auto using np_unique_sorted.
  intros x. rewrite np_unique_In, in_app_iff. simpl. split; [|tauto]. intros [H|[<-|[<-|[]]]]; auto.
Qed.

Lemma nd_lt s : isDirac s = false -> wf_seg s -> Rbar_lt (sa s) (sb s).
Proof. destruct s; simpl; auto; discriminate. Qed.

Lemma add_end eps bp l b0 s : StronglySorted Rbar_lt bp -> In (sa s) bp -> In (sb s) bp ->
  path b0 l (sa s) -> Forall wf_seg l -> Forall (fun t => isDirac t = false) l -> wf_seg s -> isDirac s = false ->
  addSegment eps (PW l bp) s = Ok (PW (l ++ [s]) bp).
Proof.
  intros S A B P W D Ws Ds.
  assert (L : forall t, In t l -> before t s).
  { intros t Ht. destruct (path_In _ _ _ t W P Ht) as (_ & H). split; auto.
    rewrite Forall_forall in W, D. pose proof (nd_lt t (D t Ht) (W t Ht)). pose proof (nd_lt s Ds Ws).
    intros E. rewrite E in H0. apply (Rbar_le_not_lt _ _ H). apply (Rbar_lt_trans _ (sb s)); auto. }
  destruct (addSegment_compatible eps (PW l bp) s) as (l1 & l2 & E & P1 & P2 & E1 & E2).
  - eapply path_ordered; eauto.
  - auto.
  - auto.
  - intros t Ht. split; [right; apply L; auto|]. simpl in Ht. rewrite Forall_forall in D. specialize (D t Ht).
    destruct s; simpl in Ds; try discriminate; auto.
  - assert (E3 : l2 = []).
    { destruct l2 as [|t l2]; auto. exfalso. simpl in E.
      assert (Ht : In t l) by (rewrite E; apply in_or_app; right; left; auto).
      destruct (L t Ht) as (H1 & _). destruct (P2 t (or_introl eq_refl)) as (H2 & _).
      rewrite Forall_forall in W, D. pose proof (nd_lt t (D t Ht) (W t Ht)) as H3. pose proof (nd_lt s Ds Ws) as H4.
      apply (Rbar_le_not_lt _ _ H2). apply (Rbar_lt_le_trans _ (sb t)); auto. apply (Rbar_le_trans _ (sa s)); auto. apply Rbar_lt_le; auto. }
    subst l2. rewrite app_nil_r in E. simpl in E. subst l1.
    rewrite E1. f_equal. unfold add_sorted in *. simpl in E2 |- *. rewrite E2. rewrite brks_same; auto.
Qed.

Lemma sorted_nth bp i j : StronglySorted Rbar_lt bp -> (i < j)%nat -> (j < length bp)%nat ->
  Rbar_lt (nth i bp m_infty) (nth j bp m_infty).
Proof.
  intros S. revert i j. induction S as [|x l S IH F]; intros i j Hi Hj; simpl in *; [lia|].
  destruct j as [|j]; [lia|]. destruct i as [|i].
  - rewrite Forall_forall in F. apply F. apply nth_In. lia.
  - apply IH; lia.
Qed.

Lemma last_nth {A} (l : list A) d : forall d', l <> [] -> last l d' = nth (length l - 1) l d.
Proof.
  induction l as [|x [|y l] IH]; intros d' N; [congruence|auto|].
  change (last (x :: y :: l) d') with (last (y :: l) d'). rewrite IH by discriminate.
  replace (length (x :: y :: l) - 1)%nat with (S (length (y :: l) - 1)) by (simpl; lia). auto.
Qed.

Section Make.
Variables (eps : R) (f : R -> R) (bp : list Rbar) (lp rp : list bool).
Hypothesis HS : StronglySorted Rbar_lt bp.
Hypothesis HL : length lp = length bp.
Hypothesis HR : length rp = length bp.
Hypothesis HA : poles_apart bp lp rp.
Hypothesis HD : no_double_rpole bp rp.
Let n := length bp.
Let br i := nth i bp m_infty.

Definition state_ok (k : nat) (p : pwf) : Prop :=
  exists l, p = PW l bp /\ length l = k /\ path (br 0) l (br k) /\ Forall wf_seg l /\
    forall j s, nth_error l j = Some s -> piece_ok f bp lp rp j s.

Lemma state_nd k l : (forall j s, nth_error l j = Some s -> piece_ok f bp lp rp (k + j) s) -> Forall (fun t => isDirac t = false) l.
Proof.
  revert k. induction l as [|s l IH]; intros k H; [constructor|]. constructor.
  - apply (H 0%nat s eq_refl).
  - apply (IH (S k)). intros j t E. rewrite Nat.add_succ_comm. apply (H (S j)). auto.
Qed.

Lemma state_step k p s : state_ok k p -> (S k < n)%nat -> piece_ok f bp lp rp k s ->
  exists p', addSegment eps p s = Ok p' /\ state_ok (S k) p'.
Proof.
  intros (l & -> & Ll & P & W & H) K O. pose proof O as (O1 & O2 & O3 & O4 & O5 & O6).
  assert (D : Forall (fun t => isDirac t = false) l) by (apply (state_nd 0); auto).
  assert (Ws : wf_seg s).
  { assert (X : Rbar_lt (sa s) (sb s)) by (rewrite O2, O3; apply sorted_nth; auto; lia). destruct s; simpl in *; auto. }
  exists (PW (l ++ [s]) bp). split.
  - apply (add_end eps bp l (br 0)); auto.
    + rewrite O2. apply nth_In. unfold n in K. lia.
    + rewrite O3. apply nth_In. unfold n in K. lia.
    + rewrite O2. auto.
  - exists (l ++ [s]). splits; auto.
    + rewrite app_length, Ll. simpl. lia.
    + eapply path_app; [exact P|]. split; auto.
    + apply Forall_app; auto.
    + intros j t E. destruct (Nat.lt_ge_cases j k) as [J|J].
      * rewrite nth_error_app1 in E by lia. apply H; auto.
      * rewrite nth_error_app2 in E by lia. destruct (j - length l)%nat eqn:EJ.
        -- injection E as <-. replace j with k by lia. auto.
        -- destruct n0; discriminate.
Qed.

Lemma at_ix_nth {A} (l : list A) i d : (i < length l)%nat -> at_ix l i = Ok (nth i l d).
Proof. intros H. unfold at_ix. rewrite (nth_error_nth' l d H). auto. Qed.

Lemma between_fin (a x b : Rbar) : Rbar_lt a x -> Rbar_lt x b -> finb x = true.
Proof. destruct x; simpl; auto; destruct a, b; simpl; tauto. Qed.

Lemma br_inner i : (0 < i)%nat -> (S i < n)%nat -> finb (br i) = true.
Proof.
  intros H1 H2. unfold n in H2. apply (between_fin (br 0) _ (br (S i))); apply sorted_nth; auto; lia.
Qed.

Lemma piece_step k p : state_ok k p -> (S k < n)%nat -> finb (br k) = true -> finb (br (S k)) = true ->
  exists p', add_piece eps f lp rp p k (S k) k = Ok p' /\ state_ok (S k) p'.
Proof.
  intros H K F1 F2. pose proof H as (l & E & _). unfold add_piece. subst p. cbn [brks]. unfold n in K.
  rewrite (at_ix_nth bp k m_infty) by lia. rewrite (at_ix_nth bp (S k) m_infty) by lia.
  rewrite (at_ix_nth lp k false) by lia. rewrite (at_ix_nth rp k false) by lia. rewrite (at_ix_nth rp (S k) false) by lia.
  cbn [rbind]. fold (flag lp k) (flag rp k) (flag rp (S k)). fold (br k) (br (S k)).
  destruct (br k) as [a| |] eqn:Ea; try discriminate. destruct (br (S k)) as [b| |] eqn:Eb; try discriminate.
  assert (G : forall s, isDirac s = false -> sa s = Finite a -> sb s = Finite b -> (forall x : R, sf s x = f x) ->
              hasLeftPole s = flag lp k -> hasRightPole s = flag rp (S k) -> piece_ok f bp lp rp k s).
  { intros s G1 G2 G3 G4 G5 G6. unfold piece_ok. fold (br k) (br (S k)). rewrite Ea, Eb. simpl. splits; auto. }
  unfold mk_piece. destruct (flag lp k) eqn:EL; destruct (flag rp (S k)) eqn:ER; cbn [andb negb rbind].
  - exfalso. destruct (HA k K) as [X|X]; unfold br in Ea, Eb; rewrite ?Ea, ?Eb; auto; congruence.
  - apply (state_step k); auto. 
  - rewrite (HD k K ER). cbn [andb negb rbind]. apply (state_step k); auto.
  - apply (state_step k); auto.
Qed.

Lemma inner_steps m : forall k p, state_ok k p -> (0 < k)%nat -> (k + m < n)%nat -> (forall i, (k <= i <= k + m)%nat -> (S i < n)%nat) ->
  exists p', add_inner eps f lp rp p (seq k m) = Ok p' /\ state_ok (k + m) p'.
Proof.
  induction m as [|m IH]; intros k p H K1 K2 K3; simpl.
  - exists p. rewrite Nat.add_0_r. auto.
  - destruct (piece_step k p H) as (p' & E & H').
    + apply K3. lia.
    + apply br_inner; auto. apply K3; lia.
    + apply br_inner; [lia|]. apply K3; lia.
    + rewrite E. cbn [rbind]. destruct (IH (S k) p' H') as (p'' & E' & H''); try lia.
      { intros i Hi. apply K3. lia. }
      exists p''. rewrite E'. split; auto. replace (k + S m)%nat with (S k + m)%nat by lia. auto.
Qed.

Lemma make_unfold : (2 <= n)%nat -> make_pwf eps f bp lp rp =
  if (blt (br 0) (br 1) && ble (br 1) (br (n - 1)))%bool then
        if ((length bp =? length rp) && (length rp =? length lp))%nat%bool then
          rbind (add_first eps f lp rp (PW [] bp)) (fun p =>
          if (n =? 2)%nat then Ok p
          else rbind (add_inner eps f lp rp p (seq 1 (n - 3))) (fun p' => add_last eps f lp rp p'))
        else Err EAssert
  else Err EAssert.
Proof.
  intros N. unfold br, n in *. clear HS HL HR HA HD br n.
  unfold make_pwf. rewrite <- (last_nth bp m_infty (nth 0 bp m_infty)).
  - destruct bp as [|b0 [|b1 bt]]; [simpl in N; lia|simpl in N; lia|]. reflexivity.
  - intros E. rewrite E in N. simpl in N. lia.
Qed.

Lemma make_ok : (2 <= n)%nat -> (n = 2%nat -> finb (br 1) = true) ->
  exists q, make_pwf eps f bp lp rp = Ok q /\ brks q = bp /\ S (length (segs q)) = n /\
    path (br 0) (segs q) (br (n - 1)) /\ Forall wf_seg (segs q) /\
    forall j s, nth_error (segs q) j = Some s -> piece_ok f bp lp rp j s.
Proof.
  intros N N2. rewrite make_unfold by auto.
  assert (L01 : Rbar_lt (br 0) (br 1)) by (apply sorted_nth; auto; unfold n in N; lia).
  assert (L1n : Rbar_le (br 1) (br (n - 1))).
  { destruct (Nat.eq_dec n 2) as [E2|E2].
    - rewrite E2. simpl. apply Rbar_le_refl.
    - apply Rbar_lt_le. apply sorted_nth; auto; unfold n in *; lia. }
  rewrite (proj2 (blt_true _ _) L01), (proj2 (ble_true _ _) L1n). cbn [andb].
  rewrite HR, HL. rewrite !Nat.eqb_refl. cbn [andb].
  assert (I0 : state_ok 0 (PW [] bp)).
  { exists []. splits; auto. simpl; auto. intros j s E; destruct j; discriminate. }
  assert (F1 : finb (br 1) = true).
  { destruct (Nat.eq_dec n 2) as [E2|E2]; [apply N2; auto|apply br_inner; lia]. }
  assert (F : exists p, add_first eps f lp rp (PW [] bp) = Ok p /\ state_ok 1 p).
  { unfold add_first. cbn [brks]. rewrite (at_ix_nth bp 0 m_infty) by (unfold n in N; lia).
    rewrite (at_ix_nth bp 1 m_infty) by (unfold n in N; lia). cbn [rbind]. fold (br 0) (br 1).
    destruct (br 0) as [x| |] eqn:E0.
    - apply (piece_step 0); [auto|lia|rewrite E0; auto|auto].
    - destruct (br 1); destruct L01.
    - destruct (br 1) as [y| |] eqn:E1; try discriminate.
      apply (state_step 0); auto. unfold piece_ok. fold (br 0) (br 1). rewrite E0, E1. simpl. splits; auto. }
  destruct F as (p & E & H). rewrite E. cbn [rbind].
  assert (Fin : forall q, state_ok (n - 1) q -> brks q = bp /\ S (length (segs q)) = n /\
    path (br 0) (segs q) (br (n - 1)) /\ Forall wf_seg (segs q) /\
    forall j s, nth_error (segs q) j = Some s -> piece_ok f bp lp rp j s).
  { intros q (l & -> & Ll & P & W & J). cbn [brks segs]. splits; auto. lia. }
  destruct (Nat.eqb_spec n 2) as [E2|E2].
  - exists p. split; auto. apply Fin. rewrite E2. auto.
  - destruct (inner_steps (n - 3) 1 p H) as (p' & E' & H'); [lia|lia|intros i Hi; lia|].
    rewrite E'. cbn [rbind]. replace (1 + (n - 3))%nat with (n - 2)%nat in H' by lia.
    assert (X : exists q, add_last eps f lp rp p' = Ok q /\ state_ok (n - 1) q).
    { pose proof H' as (l & EL & _). subst p'. unfold add_last. cbn [brks]. fold n. rewrite HL. fold n.
      rewrite (at_ix_nth bp (n - 1) m_infty) by (unfold n in *; lia).
      rewrite (at_ix_nth bp (n - 2) m_infty) by (unfold n in *; lia). cbn [rbind]. fold (br (n - 1)) (br (n - 2)).
      assert (F2 : finb (br (n - 2)) = true) by (apply br_inner; lia).
      pose proof (sorted_nth bp (n - 2) (n - 1) HS ltac:(lia) ltac:(unfold n in *; lia)) as L2. fold (br (n - 1)) (br (n - 2)) in L2.
      replace (n - 1)%nat with (S (n - 2)) in * by lia.
      destruct (br (S (n - 2))) as [y| |] eqn:E1.
      - apply (piece_step (n - 2)); auto; [lia|rewrite E1; auto].
      - destruct (br (n - 2)) as [x| |] eqn:E0; try discriminate.
        apply (state_step (n - 2)); auto; [lia|]. unfold piece_ok. fold (br (n - 2)) (br (S (n - 2))). rewrite E0, E1. simpl. splits; auto.
      - destruct (br (n - 2)); destruct L2. }
    destruct X as (q & Eq & Hq). exists q. split; auto.
Qed.
End Make.
