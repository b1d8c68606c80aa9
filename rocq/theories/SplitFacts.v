(** Further facts about splitByPoints: poles, integrability, probabilities. *)
From Coq Require Import Reals Lra Lia List Bool Sorted Permutation.
From Coquelicot Require Import Coquelicot.
From Verif Require Import Base Bisect Seg Piecewise PiecewiseSpec PiecewiseFacts PiecewiseFacts2 PiecewiseFacts3.
Import List ListNotations.
Open Scope R_scope.

Lemma split_piece_left seg a b : hasLeftPole (split_piece seg a b) = (hasLeftPole seg && beq a (sa seg))%bool.
Proof.
  unfold split_piece. destruct seg as [a0 b0 f|a0 b0 c|b0 f|a0 f|a0 m|a0 b0 f l]; cbn [isMInf isPInf hasLeftPole hasRightPole isDirac andb negb sa sb]; auto.
  - destruct (negb _); reflexivity.
  - destruct (negb _); reflexivity.
  - destruct l; cbn [andb negb]; [destruct (beq a a0)|destruct (beq b b0)]; reflexivity.
Qed.
Lemma split_piece_right seg a b : hasRightPole (split_piece seg a b) = (hasRightPole seg && beq b (sb seg))%bool.
Proof.
  unfold split_piece. destruct seg as [a0 b0 f|a0 b0 c|b0 f|a0 f|a0 m|a0 b0 f l]; cbn [isMInf isPInf hasLeftPole hasRightPole isDirac andb negb sa sb]; auto.
  - destruct (negb _); reflexivity.
  - destruct (negb _); reflexivity.
  - destruct l; cbn [andb negb]; [destruct (beq a a0)|destruct (beq b b0)]; reflexivity.
Qed.
Lemma split_from_left seg inds : forall a t, In t (split_from seg a inds) -> hasLeftPole t = true ->
  exists a' b', t = split_piece seg a' b' /\ hasLeftPole seg = true /\ a' = sa seg.
Proof.
  induction inds as [|b inds IH]; intros a t H P.
  - destruct H as [<-|[]]. rewrite split_piece_left in P. apply andb_prop in P. destruct P as (P1 & P2). apply beq_true in P2. eauto.
  - destruct H as [<-|H]; eauto. rewrite split_piece_left in P. apply andb_prop in P. destruct P as (P1 & P2). apply beq_true in P2. eauto.
Qed.
Lemma split_from_right seg inds : forall a t, In t (split_from seg a inds) -> hasRightPole t = true ->
  exists a' b', t = split_piece seg a' b' /\ hasRightPole seg = true /\ b' = sb seg.
Proof.
  induction inds as [|b inds IH]; intros a t H P.
  - destruct H as [<-|[]]. rewrite split_piece_right in P. apply andb_prop in P. destruct P as (P1 & P2). apply beq_true in P2. eauto.
  - destruct H as [<-|H]; eauto. rewrite split_piece_right in P. apply andb_prop in P. destruct P as (P1 & P2). apply beq_true in P2. eauto.
Qed.
Lemma split_from_last seg inds : forall a, exists a', In (split_piece seg a' (sb seg)) (split_from seg a inds).
Proof.
  induction inds as [|b inds IH]; intros a; [exists a; simpl; auto|]. destruct (IH b) as (a' & H). exists a'. simpl. auto.
Qed.
Lemma split_from_first seg inds a : exists b', In (split_piece seg a b') (split_from seg a inds).
Proof. destruct inds as [|b inds]; [exists (sb seg)|exists b]; simpl; auto. Qed.
Lemma split_from_form seg inds : forall a t, In t (split_from seg a inds) -> exists a' b', t = split_piece seg a' b'.
Proof. induction inds as [|b inds IH]; intros a t [<-|H]; eauto. destruct H. Qed.

Lemma pole_sa seg b' : hasLeftPole seg = true -> sa (split_piece seg (sa seg) b') = sa seg.
Proof.
  intros H. destruct seg as [| | | | |a0 b0 f l]; try discriminate. destruct l; try discriminate.
  unfold split_piece. cbn [isMInf isPInf hasLeftPole andb sa]. rewrite beq_refl. reflexivity.
Qed.
Lemma pole_sb seg a' : hasRightPole seg = true -> sb (split_piece seg a' (sb seg)) = sb seg.
Proof.
  intros H. destruct seg as [| | | | |a0 b0 f l]; try discriminate. destruct l; try discriminate.
  unfold split_piece. cbn [isMInf isPInf hasLeftPole hasRightPole andb sb]. rewrite beq_refl. reflexivity.
Qed.

Lemma split_all_poles pts l :
  (forall x, (exists t, In t (split_all pts l) /\ hasLeftPole t = true /\ sa t = x) <-> (exists s, In s l /\ hasLeftPole s = true /\ sa s = x)) /\
  (forall x, (exists t, In t (split_all pts l) /\ hasRightPole t = true /\ sb t = x) <-> (exists s, In s l /\ hasRightPole s = true /\ sb s = x)).
Proof.
  split; intros x; split.
  - intros (t & H & P & E). apply split_all_In in H. destruct H as (s & Hs & H).
    destruct (split_from_left _ _ _ _ H P) as (a' & b' & -> & P' & ->). rewrite pole_sa in E by auto. eauto.
  - intros (s & Hs & P & E). destruct (split_from_first s (filter (fun x => (blt (sa s) x && blt x (sb s))%bool) pts) (sa s)) as (b' & H).
    eexists. splits; [apply split_all_In; exists s; split; [auto|exact H]| |rewrite pole_sa; auto].
    rewrite split_piece_left, P, beq_refl. auto.
  - intros (t & H & P & E). apply split_all_In in H. destruct H as (s & Hs & H).
    destruct (split_from_right _ _ _ _ H P) as (a' & b' & -> & P' & ->). rewrite pole_sb in E by auto. eauto.
  - intros (s & Hs & P & E). destruct (split_from_last s (filter (fun x => (blt (sa s) x && blt x (sb s))%bool) pts) (sa s)) as (a' & H).
    eexists. splits; [apply split_all_In; exists s; split; [auto|exact H]| |rewrite pole_sb; auto].
    rewrite split_piece_right, P, beq_refl. auto.
Qed.
