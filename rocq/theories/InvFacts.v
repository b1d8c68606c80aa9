(** Proofs about the inverse of a distribution function as a piecewise function. *)
From Coq Require Import Reals Lra Lia List Bool Arith Sorted Permutation.
From Coquelicot Require Import Coquelicot.
From Verif Require Import Base Bisect Seg Piecewise PiecewiseSpec PiecewiseFacts PiecewiseFacts2 Integral IntegralFacts SegInt SegIntSpec SegIntFacts CumintFacts CumintFacts2
  Quant QuantSpec QuantFacts QuantFacts2 QuantMain Wide WideMain Std StdSpec StdFacts StdFacts2 StdMain Inv InvSpec.
Import List ListNotations.
Open Scope R_scope.

(** a function made of pieces with the same formula *)
Lemma flat_value (q : R -> R) L a b : L <> [] -> Forall continuous_piece L -> (forall s, In s L -> forall x, sf s x = q x) -> path a L b ->
  forall x : R, (Rbar_le a x -> Rbar_le x b -> call_scalar L x = Ok (q x) /\ call_vec L x = q x) /\
                (Rbar_lt x a \/ Rbar_lt b x -> call_scalar L x = Ok 0 /\ call_vec L x = 0).
Proof.
  intros N C S P x. pose proof (cont_path_gap_free _ _ _ C P) as G. pose proof (cont_wf _ C) as W. pose proof (cont_nodirac _ C) as ND.
  destruct (call_scalar_gap_free L x N G) as (v & E & V). pose proof (call_vec_value L x (gap_free_ordered _ G) W) as V2.
  assert (EG : getSegments L = L).
  { clear - ND. induction L as [|s L IH]; auto. inversion ND; subst. unfold getSegments in *. cbn [filter]. unfold isSegment at 1. rewrite H1. simpl. rewrite IH; auto. }
  rewrite EG in V2. rewrite E.
  assert (LB : forall s l', L = l' ++ [s] -> sb s = b).
  { intros s l' El. rewrite El in P. apply path_app_inv in P. destruct P as (c & _ & P). simpl in P. apply P. }
  assert (K : forall w, has_value L x w -> (Rbar_le a x -> Rbar_le x b -> w = q x) /\ (Rbar_lt x a \/ Rbar_lt b x -> w = 0)).
  { intros w [(s & Is & Ds & Cs & ->)|(NC & [(s & l' & El & Ds & Es & ->)|(NL & ->)])].
    - split; [intros; apply S; auto|]. destruct (path_In _ _ _ s W P Is) as (B1 & B2). destruct Cs as (C1 & C2).
      intros [H|H]; exfalso; [apply (Rbar_lt_not_le _ _ H), (Rbar_le_trans _ (sa s)); auto|].
      apply (Rbar_lt_not_le _ _ H). apply (Rbar_le_trans _ (sb s)); auto. apply Rbar_lt_le; auto.
    - split; [intros; apply S; rewrite El; apply in_or_app; simpl; auto|]. rewrite <- (LB s l' El), Es. intros [H|H]; exfalso.
      + apply (Rbar_lt_not_le _ _ H). rewrite <- Es, (LB s l' El). eapply path_le; eauto.
      + simpl in H. lra.
    - split; auto. intros A B. exfalso. destruct (Rbar_le_lt_or_eq_dec x b B) as [B1|B1].
      + destruct (path_cover a L b x W ND P A B1) as (l1 & s & l2 & El & Cs). apply (NC s); auto; [rewrite El; apply in_or_app; simpl; auto|].
        rewrite Forall_forall in ND. apply ND. rewrite El; apply in_or_app; simpl; auto.
      + destruct L as [|s l0] using rev_ind; [congruence|]. clear IHl0. apply (NL s l0); auto. rewrite (LB s l0); auto. }
  destruct (K v V) as (K1 & K2). destruct (K _ V2) as (K3 & K4). split; intros.
  - rewrite K1, K3; auto.
  - rewrite K2, K4; auto.
Qed.

(** the table of break values *)
Lemma inb_In x l : inb x l = true <-> In x l.
Proof.
  unfold inb. rewrite existsb_exists. split.
  - intros (y & Hy & E). destruct (reqP x y); [subst; auto|discriminate].
  - intros H. exists x. split; auto. destruct (reqP x x); auto.
Qed.
Lemma tab_In vals x0 v : In v (inv_tab vals x0) <-> v = x0 \/ exists w, In w vals /\ (v = fst w \/ v = snd w).
Proof.
  assert (F : forall v, In v (flat_map (fun v => [fst v; snd v]) vals) <-> exists w, In w vals /\ (v = fst w \/ v = snd w)).
  { intros u. rewrite in_flat_map. split; intros (w & Hw & K); exists w; split; auto; simpl in *; intuition. }
  unfold inv_tab. destruct (inb x0 (flat_map (fun v => [fst v; snd v]) vals)) eqn:E.
  - apply inb_In in E. split; [intros H; right; apply F; auto|]. intros [H|H]; [subst; auto|apply F; auto].
  - rewrite in_app_iff, F. simpl. intuition.
Qed.
Lemma kept_gap eps : forall t x0 v, StronglySorted Rbar_lt (x0 :: t) -> In v (eps_keep eps x0 t) -> forall u, In u (x0 :: t) -> Rbar_lt u v ->
  forall a b : R, u = a -> v = b -> eps < (b - a) / Rmax 1 (Rabs b).
Proof.
  induction t as [|y t IH]; intros x0 v S K u Hu Lt a b Ea Eb; [destruct K|]. subst u v.
  assert (SY : StronglySorted Rbar_lt (y :: t)) by (inversion S; auto).
  assert (XY : Rbar_lt x0 y) by (inversion S as [|? ? ? F]; subst; inversion F; auto).
  assert (K2 : (Finite b = y /\ gap_ok eps x0 y = true) \/ In (Finite b) (eps_keep eps y t)).
  { cbn [eps_keep] in K. destruct (negb (is_fin y) || gap_ok eps x0 y)%bool eqn:E; [|auto]. destruct K as [->|K]; auto. }
  assert (MX : 0 < / Rmax 1 (Rabs b)) by (apply Rinv_0_lt_compat; pose proof (Rmax_l 1 (Rabs b)); lra).
  destruct K2 as [(<- & G)|K2].
  - assert (U : Rbar_le a x0).
    { destruct Hu as [<-|[Hu|Hu]]; [apply Rbar_le_refl| |]; exfalso; [rewrite <- Hu in Lt; simpl in Lt; lra|].
      inversion SY as [|? ? ? F]; subst. rewrite Forall_forall in F. specialize (F _ Hu). simpl in F, Lt. lra. }
    destruct x0 as [r| |]; simpl in U, XY, G; try tauto. destruct (rltP eps ((b - r) / Rmax 1 (Rabs b))) as [K1|]; [|discriminate].
    unfold Rdiv in *. nra.
  - destruct Hu as [->|Hu]; [|apply (IH y b SY K2 a); auto].
    destruct (Rbar_lt_dec y b) as [YB|YB].
    + destruct y as [r| |]; try (simpl in XY, YB; tauto). pose proof (IH r b SY K2 r (or_introl eq_refl) YB r b eq_refl eq_refl) as K1. simpl in XY. unfold Rdiv in *. nra.
    + exfalso. apply YB. clear - SY K2. revert y SY K2. induction t as [|z t IH]; intros y SY K; [destruct K|]. inversion SY as [|? ? S1 F]; subst. 
      inversion F as [|? ? YZ F']; subst. cbn [eps_keep] in K. destruct (negb (is_fin z) || gap_ok eps y z)%bool; [destruct K as [<-|K]; auto|]; apply (Rbar_lt_trans _ z); auto.
Qed.
Lemma epsunique_gap eps tab (u v : R) : In (Finite v) (epsunique eps tab) -> In (Finite u) tab -> u < v -> eps < (v - u) / Rmax 1 (Rabs v).
Proof.
  intros K Hu Lt. unfold epsunique in K. pose proof (np_unique_sorted tab) as S. apply np_unique_In in Hu.
  destruct (np_unique tab) as [|x t]; [destruct K|]. destruct K as [->|K].
  - exfalso. destruct Hu as [Hu|Hu]; [injection Hu as ->; lra|]. inversion S as [|? ? ? F]; subst. rewrite Forall_forall in F. specialize (F _ Hu). simpl in F. lra.
  - apply (kept_gap eps t x v S K u); auto.
Qed.
