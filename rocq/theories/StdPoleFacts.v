(** Bounds for the densities of the named distributions. *)
From Coq Require Import Reals Lra Lia List Bool Sorted Arith.
From Coquelicot Require Import Coquelicot.
From Verif Require Import Base Seg Piecewise PiecewiseSpec Integral SegIntSpec Std StdSpec StdPoleSpec.
From Verif Require Import PiecewiseFacts2 IntegralFacts CumintFacts CumintFacts2 StdFacts StdFacts2 StdFacts3 StdFacts4.
Import List ListNotations.
Open Scope R_scope.

Lemma tame_plain s : hasLeftPole s = false -> hasRightPole s = false -> bounded_on (sf s) (sa s) (sb s) -> tame s.
Proof.
  intros _ _ (M & H) c d C D _ _. exists M. intros x (X1 & X2). apply H. split; [eapply Rbar_le_lt_trans|eapply Rbar_lt_le_trans]; eauto.
Qed.
Lemma tame_left s : hasLeftPole s = true -> (forall c : Rbar, Rbar_lt (sa s) c -> bounded_on (sf s) c (sb s)) -> tame s.
Proof.
  intros L H c d C D LC _. destruct (H c (LC L)) as (M & HM). exists M. intros x (X1 & X2). apply HM. split; auto. eapply Rbar_lt_le_trans; eauto.
Qed.
Lemma tame_right s : hasRightPole s = true -> (forall d : Rbar, Rbar_lt d (sb s) -> bounded_on (sf s) (sa s) d) -> tame s.
Proof.
  intros L H c d C D _ RC. destruct (H d (RC L)) as (M & HM). exists M. intros x (X1 & X2). apply HM. split; auto. eapply Rbar_le_lt_trans; eauto.
Qed.

Lemma pd_add eps l a b : l <> [] -> Forall (fun s => isDirac s = false) l -> Forall wf_seg l -> path a l b -> Forall tame l ->
  poles_declared (addAll eps empty_pwf l).
Proof. intros N D W P T. destruct (init_ok eps l a b D W P) as (q & E & S). exists q. rewrite S. auto. Qed.

(** the constructor with break points, no right poles *)
Lemma pd_make eps f bp lp : StronglySorted Rbar_lt bp -> (3 <= length bp)%nat -> length lp = length bp ->
  (forall j, (S j < length bp)%nat -> forall c, Rbar_le (nth j bp m_infty) c -> 
     (flag lp j = true -> finb (nth j bp m_infty) = true -> finb (nth (S j) bp m_infty) = true -> Rbar_lt (nth j bp m_infty) c) ->
     bounded_on f c (nth (S j) bp m_infty)) ->
  poles_declared (make_pwf eps f bp lp (no_poles bp)).
Proof.
  intros HS N HL B.
  destruct (make_ok eps f bp lp (no_poles bp) HS HL) as (q & E1 & E2 & E3 & P & W & PO).
  - unfold no_poles. apply map_length.
  - intros i _ _ _. right. apply no_poles_flag.
  - intros i _ X. rewrite no_poles_flag in X. discriminate.
  - lia.
  - lia.
  - exists q. splits; auto. { intros E. rewrite E in E3. simpl in E3. lia. }
    apply Forall_forall. intros s Hs. apply In_nth_error in Hs. destruct Hs as (j & Hj). pose proof (PO j s Hj) as (O1 & O2 & O3 & O4 & O5 & O6).
    assert (J : (S j < length bp)%nat). { rewrite <- E3. apply -> Nat.succ_lt_mono. apply nth_error_Some. congruence. }
    intros c d C D LC _. destruct (B j J c) as (M & HM).
    + rewrite <- O2. auto.
    + intros F1 F2 F3. rewrite <- O2. apply LC. rewrite O5, F1, F2, F3. reflexivity.
    + exists M. intros x (X1 & X2). rewrite O4. apply HM. split; auto. eapply Rbar_lt_le_trans; eauto. rewrite <- O3. auto.
Qed.

Lemma ln_le_minus t : 0 < t -> ln t <= t - 1.
Proof. intros T. pose proof (exp_ineq1_le (ln t)) as H. rewrite exp_ln in H by auto. lra. Qed.
Lemma ln_le_mono x y : 0 < x -> x <= y -> ln x <= ln y.
Proof. intros X [Y|<-]; [left; apply ln_increasing; auto|right; auto]. Qed.
Lemma exp_le x y : x <= y -> exp x <= exp y.
Proof. intros [H|<-]; [left; apply exp_increasing; auto|right; auto]. Qed.

(** densities given as exp of something bounded above *)
Lemma bounded_exp (f g : R -> R) (K M : R) (a b : Rbar) : 0 <= K ->
  (forall x : R, Rbar_lt a x -> Rbar_lt x b -> f x = 0 \/ (f x = K * exp (g x) /\ g x <= M)) -> bounded_on f a b.
Proof.
  intros HK H. exists (K * exp M). intros x (X1 & X2). pose proof (exp_pos M). destruct (H x X1 X2) as [E|(E & G)]; rewrite E.
  - rewrite Rabs_R0. apply Rmult_le_pos; lra.
  - pose proof (exp_pos (g x)). rewrite Rabs_pos_eq by (apply Rmult_le_pos; lra). apply Rmult_le_compat_l; auto. apply exp_le; auto.
Qed.
Lemma bounded_pos (f : R -> R) (M : R) (a b : Rbar) : (forall x : R, Rbar_lt a x -> Rbar_lt x b -> 0 <= f x <= M) -> bounded_on f a b.
Proof. intros H. exists M. intros x (X1 & X2). destruct (H x X1 X2). rewrite Rabs_pos_eq; auto. Qed.
Lemma bounded_sub f (a b c d : Rbar) : Rbar_le a c -> Rbar_le d b -> bounded_on f a b -> bounded_on f c d.
Proof. intros A B (M & H). exists M. intros x (X1 & X2). apply H. split; [eapply Rbar_le_lt_trans|eapply Rbar_lt_le_trans]; eauto. Qed.
Lemma bounded_void f (a b : Rbar) : (forall x : R, Rbar_lt a x -> Rbar_lt x b -> False) -> bounded_on f a b.
Proof. intros H. exists 0. intros x (X1 & X2). destruct (H x X1 X2). Qed.

(** a left pole at a real number: only real starting points matter *)
Lemma tame_lpole f (a b : R) : (forall c : R, a < c -> bounded_on f c b) -> tame (PoleSeg a b f true).
Proof.
  intros H. apply tame_left; auto. intros [c| |] C; simpl in *.
  - apply H; auto.
  - apply bounded_void. intros x X. destruct X.
  - destruct C.
Qed.
Lemma tame_rpole f (a b : R) : (forall d : R, d < b -> bounded_on f a d) -> tame (PoleSeg a b f false).
Proof.
  intros H. apply tame_right; auto. intros [d| |] D; simpl in *.
  - apply H; auto.
  - destruct D.
  - apply bounded_void. intros x _ X. destruct X.
Qed.
Lemma tame_seg f (a b : R) : bounded_on f a b -> tame (Seg a b f).
Proof. intros H. apply tame_plain; auto. Qed.
Lemma tame_minf f (b : R) : bounded_on f m_infty b -> tame (MInfSeg b f).
Proof. intros H. apply tame_plain; auto. Qed.
Lemma tame_pinf f (a : R) : bounded_on f a p_infty -> tame (PInfSeg a f).
Proof. intros H. apply tame_plain; auto. Qed.
Lemma tame_const (a b v : R) : tame (ConstSeg a b v).
Proof. apply tame_plain; auto. exists (Rabs v). intros x _. simpl. lra. Qed.

Ltac pd_shape a b := apply (pd_add _ _ a b); [discriminate | repeat constructor; simpl; auto | repeat constructor; simpl; auto; try lra | repeat split; simpl; auto | repeat apply Forall_cons; try apply Forall_nil].

Lemma le_pinf z : Rbar_le z p_infty.
Proof. destruct z; simpl; auto. Qed.

(** break points from 0 on, only the first possibly singular *)
Lemma pd_make0 eps f (b1 : R) bs fl lp : StronglySorted Rbar_lt (Finite 0 :: Finite b1 :: bs) -> (1 <= length bs)%nat ->
  length lp = S (length bs) -> (forall i, flag lp i = false) ->
  (forall c : R, 0 <= c -> (fl = true -> 0 < c) -> bounded_on f c p_infty) ->
  poles_declared (make_pwf eps f (Finite 0 :: Finite b1 :: bs) (fl :: lp) (no_poles (Finite 0 :: Finite b1 :: bs))).
Proof.
  intros HS N L F B. apply pd_make; auto.
  - simpl. lia.
  - simpl. lia.
  - intros j J c C HC.
    assert (E : (0 <= j)%nat -> Rbar_le 0 c /\ (fl = true -> Rbar_lt 0 c)).
    { intros _. destruct j as [|j].
      - cbn [nth flag finb] in *. split; [exact C|]. intros ->. apply HC; reflexivity.
      - pose proof (sorted_nth _ 0 (S j) HS ltac:(lia) ltac:(simpl in *; lia)) as L0. change (Rbar_lt 0 (nth (S j) (Finite 0 :: Finite b1 :: bs) m_infty)) in L0.
        assert (Rbar_lt 0 c) by (eapply Rbar_lt_le_trans; eauto). split; auto. apply Rbar_lt_le; auto. }
    destruct (E ltac:(lia)) as (E1 & E2). destruct c as [c| |].
    + apply (bounded_sub f c p_infty); [apply Rbar_le_refl|apply le_pinf|]. apply B; auto.
    + apply bounded_void. intros x X. destruct X.
    + destruct E1.
Qed.
