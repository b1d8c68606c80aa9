(** The pieces of a cumulative function meet the conditions of QuantFacts. *)
From Coq Require Import Reals List Bool Arith Lra Lia Sorted.
From Coquelicot Require Import Coquelicot.
From Verif Require Import Base Bisect Seg SegInt Integral Piecewise PiecewiseSpec PiecewiseFacts2 SegIntSpec CumintFacts CumintFacts2 Root Quant QuantSpec QuantFacts.
Import List ListNotations.
Open Scope R_scope.

Lemma cpart_continuity s c : isDirac s = false -> wf_seg s -> integrable_piece s -> continuity (fun x => c + cpart s x).
Proof.
  intros D W HI. apply continuity_plus; [apply continuity_const; intros u v; reflexivity|].
  intros x. apply continuity_pt_filterlim. apply filterlim_locally. intros eps.
  pose proof (cpart_left_lim s x W HI) as H1. replace (cpart s x - atom_at s x) with (cpart s x) in H1 by (destruct s; try discriminate; simpl; ring).
  pose proof (proj1 (filterlim_locally _ _) H1 eps) as (d1 & D1).
  pose proof (proj1 (filterlim_locally _ _) (cpart_right_cont s x W HI) eps) as (d2 & D2).
  exists (mkposreal _ (Rmin_pos _ _ (cond_pos d1) (cond_pos d2))). intros z Hz. simpl in Hz.
  destruct (Rtotal_order z x) as [Lt|[->|Lt]].
  - apply D1; auto. apply (ball_le x (mkposreal _ (Rmin_pos _ _ (cond_pos d1) (cond_pos d2))) d1); auto. apply Rmin_l.
  - apply ball_center.
  - apply D2; auto. apply (ball_le x (mkposreal _ (Rmin_pos _ _ (cond_pos d1) (cond_pos d2))) d2); auto. apply Rmin_r.
Qed.

Lemma cums_In l : forall f0 t, In t (cums l f0) -> exists s c, In s l /\ isDirac s = false /\ t = cumpiece s c.
Proof.
  induction l as [|s l IH]; intros f0 t I; simpl in I; [destruct I|].
  apply in_app_or in I. destruct I as [I|I].
  - destruct (isDirac s) eqn:D; [destruct I|]. destruct I as [<-|[]]. exists s, f0. simpl; auto.
  - destruct (IH _ _ I) as (s' & c & H1 & H2 & H3). exists s', c. simpl; auto.
Qed.

Lemma pieces_ok eps l q t : density l -> cumint eps l = Ok q -> In t (segs q) ->
  exists h, continuity h /\
  (forall x : R, Rbar_le (sa t) x -> Rbar_le x (sb t) -> sf t x = h x) /\
  (forall x : R, covers t x -> h x = cF l x).
Proof.
  intros DL E I. destruct (cumint_cdf eps l DL) as (q1 & E1 & G & P & BQ & V). rewrite E in E1. injection E1 as <-.
  assert (V' : forall x, covers t x -> sf t x = cF l x).
  { intros x C. destruct (gap_free_covers (segs q) t x G I C) as (_ & H). rewrite <- H. apply V. }
  destruct (cumint_pieces eps l DL) as (q1 & lead & tail & a & b & E1 & P1 & SQ & C & PQ & _ & HL & HT). rewrite E in E1. injection E1 as <-.
  destruct DL as (N & W & HI & O & CH). rewrite Forall_forall in W, HI.
  assert (X : exists h, continuity h /\ (forall x : R, Rbar_le (sa t) x -> Rbar_le x (sb t) -> sf t x = h x)).
  { rewrite SQ in I. apply in_app_or in I. destruct I as [I|I].
    - destruct HL as [->|(r & Ea & ->)]; [destruct I|]. destruct I as [<-|[]]. exists (fun _ => 0). split; [apply continuity_const; intros u v; reflexivity|auto].
    - apply in_app_or in I. destruct I as [I|I].
      + destruct (cums_In l 0 t I) as (s & c & Is & D & ->). exists (fun x => c + cpart s x). split; [apply cpart_continuity; auto|].
        intros x X1 X2. destruct (cumpiece_ends s c) as (A1 & A2 & _). rewrite A1 in X1. rewrite A2 in X2. apply cumint_value; auto.
      + destruct HT as [->|(r & Eb & ->)]; [destruct I|]. destruct I as [<-|[]]. exists (fun _ => cmasses l). split; [apply continuity_const; intros u v; reflexivity|auto]. }
  destruct X as (h & H1 & H2). exists h. splits; auto. intros x C0. rewrite <- H2; [auto|apply C0|apply Rbar_lt_le, C0].
Qed.

Section Cum.
Variables (eps : R) (l : list segment) (q : pwf) (vinf : segment -> R).
Hypothesis DL : density l.
Hypothesis NN : Forall nonneg_piece l.
Hypothesis TM : total_mass l = 1.
Hypothesis E : cumint eps l = Ok q.
Hypothesis EL : end_limits vinf (segs q).

Lemma cq_cont : Forall continuous_piece (segs q).
Proof. destruct (cumint_pieces eps l DL) as (q1 & lead & tail & a & b & E1 & P1 & SQ & C & PQ & _ & HL & HT). rewrite E in E1. injection E1 as <-. auto. Qed.
Lemma cq_path : path m_infty (segs q) p_infty.
Proof. destruct (cumint_pieces eps l DL) as (q1 & lead & tail & a & b & E1 & P1 & SQ & C & PQ & _ & HL & HT). rewrite E in E1. injection E1 as <-. auto. Qed.
Lemma cq_bounds x : 0 <= cF l x <= 1.
Proof. destruct DL as (N & W & HI & _). destruct (cF_mono l W HI x x NN ltac:(lra)) as (A & _ & B). rewrite <- (cmasses_spec l W), TM in B. lra. Qed.
Lemma cq_mono u v : u <= v -> cF l u <= cF l v.
Proof. intros H. destruct DL as (N & W & HI & _). destruct (cF_mono l W HI u v NN H) as (_ & A & _). auto. Qed.
Lemma cq_m t : In t (segs q) -> isMInf t = true -> vinf t = 0.
Proof.
  intros I M. destruct (isM t M) as (b & f & ->). destruct (pieces_ok eps l q _ DL E I) as (h & _ & H2 & H3).
  pose proof (proj1 (EL _ I) eq_refl) as L1. destruct DL as (N & W & HI & _). pose proof (cF_lim_m l W HI) as L2.
  eapply (filterlim_locally_unique (F := Rbar_locally m_infty)); [exact L1|].
  eapply filterlim_ext_loc; [|exact L2]. exists b. intros x Hx.
  assert (C : covers (MInfSeg b f) x) by (split; simpl; auto).
  rewrite <- (H3 x C). symmetry. apply H2; [apply C|apply Rbar_lt_le, C].
Qed.
Lemma cq_p t : In t (segs q) -> isPInf t = true -> vinf t = 1.
Proof.
  intros I M. destruct (isP t M) as (a & f & ->). destruct (pieces_ok eps l q _ DL E I) as (h & _ & H2 & H3).
  pose proof (proj2 (EL _ I) eq_refl) as L1. destruct DL as (N & W & HI & _). pose proof (cF_lim_p l W HI) as L2.
  rewrite <- (cmasses_spec l W), TM in L2.
  eapply (filterlim_locally_unique (F := Rbar_locally p_infty)); [exact L1|].
  eapply filterlim_ext_loc; [|exact L2]. exists a. intros x Hx.
  assert (C : covers (PInfSeg a f) x) by (split; simpl; auto; lra).
  rewrite <- (H3 x C). symmetry. apply H2; [apply C|apply Rbar_lt_le, C].
Qed.

Lemma cq_inverse solve y : exact_solver solve -> 0 <= y <= 1 -> exists N, forall fuel, (N <= fuel)%nat ->
  exists x, inverse_scalar vinf solve fuel (segs q) y = Ok x /\ qgood (cF l) y x /\ x <> QNone /\ (jump vinf y (segs q) -> exists r : R, x = QAt r).
Proof.
  intros HS Y. apply inverse_ok; auto.
  - intros u v; apply cq_mono.
  - apply cq_cont.
  - apply cq_path.
  - intros t I. apply (pieces_ok eps l q t DL E I).
  - apply cq_m.
  - apply cq_p.
Qed.

Lemma cq_lo t : In t (segs q) -> 0 <= lo vinf t <= 1.
Proof.
  intros I. destruct (sa t) as [a| |] eqn:Ea.
  - assert (H : lo vinf t = cF l a).
    { eapply (lo_finite vinf (cF l) (segs q) cq_cont); eauto. intros u Hu. apply (pieces_ok eps l q u DL E Hu). }
    rewrite H. apply cq_bounds.
  - exfalso. destruct t; discriminate.
  - assert (H : lo vinf t = 0); [|lra]. apply (lo_minf vinf (segs q)); auto; [apply cq_m|apply (sa_minf (segs q)); auto; apply cq_cont].
Qed.
Lemma cq_hi t : In t (segs q) -> 0 <= hi vinf t <= 1.
Proof.
  intros I. destruct (sb t) as [b| |] eqn:Eb.
  - assert (H : (forall x, x < b -> cF l x <= hi vinf t) /\ hi vinf t <= cF l b).
    { destruct (hi_finite vinf (cF l) (segs q) 0 ltac:(lra) cq_mono cq_cont) with (t := t) (b := b) as (A & B & _); auto.
      intros u Hu. apply (pieces_ok eps l q u DL E Hu). }
    destruct H as (H1 & H2). specialize (H1 (b - 1) ltac:(lra)). pose proof (cq_bounds (b - 1)). pose proof (cq_bounds b). lra.
  - assert (H : hi vinf t = 1); [|lra]. apply (hi_pinf vinf (segs q)); auto; [apply cq_p|apply (sb_pinf (segs q)); auto; apply cq_cont].
  - exfalso. destruct t; discriminate.
Qed.

(** y outside [0,1]: no piece and no jump is selected, and nan is returned *)
Lemma out_cont solve fuel y L : (forall t, In t L -> 0 <= lo vinf t <= 1 /\ 0 <= hi vinf t <= 1) -> y < 0 \/ 1 < y ->
  inv_cont solve fuel L (getSegVals vinf L) y QNone = Ok QNone.
Proof.
  intros H Y. induction L as [|t L IH]; [reflexivity|]. cbn [getSegVals map inv_cont fst snd]. fold (lo vinf t) (hi vinf t).
  destruct (H t (or_introl eq_refl)) as (H1 & H2).
  replace ((rle (lo vinf t) y && rle y (hi vinf t) || rle y (lo vinf t) && rle (hi vinf t) y)%bool) with false.
  - simpl. apply IH. intros u Hu; apply H; right; auto.
  - symmetry. apply orb_false_iff. rewrite !andb_false_iff, !rle_false. lra.
Qed.
Lemma out_jump y L br : (forall t, In t L -> 0 <= lo vinf t <= 1 /\ 0 <= hi vinf t <= 1) -> y < 0 \/ 1 < y -> forall i,
  inv_jump i (getSegVals vinf L) br y QNone = Ok QNone.
Proof.
  intros H Y. induction L as [|s L IH]; intros i; [reflexivity|]. destruct L as [|t L]; [reflexivity|].
  cbn [getSegVals map inv_jump fst snd]. fold (getSegVals vinf L). fold (hi vinf s) (lo vinf t).
  change ((end_val vinf t (sa t), end_val vinf t (sb t)) :: getSegVals vinf L) with (getSegVals vinf (t :: L)).
  destruct (H s (or_introl eq_refl)) as (_ & H2). destruct (H t (or_intror (or_introl eq_refl))) as (H1 & _).
  replace (rle (hi vinf s) y && rle y (lo vinf t))%bool with false.
  - cbn [rbind]. apply IH. intros u Hu; apply H; right; auto.
  - symmetry. rewrite !andb_false_iff, !rle_false. lra.
Qed.
Lemma min_list_le l0 : forall d, min_list l0 d <= d.
Proof. induction l0 as [|x l0 IH]; intros d; simpl; [unfold min_list; simpl; lra|]. unfold min_list in *. simpl. eapply Rle_trans; [apply IH|apply Rmin_l]. Qed.
Lemma max_list_le l0 : forall d c, d <= c -> (forall x, In x l0 -> x <= c) -> max_list l0 d <= c.
Proof.
  induction l0 as [|x l0 IH]; intros d c H H2; unfold max_list in *; simpl; auto. apply IH; [apply Rmax_lub; auto; apply H2; left; auto|].
  intros z Hz; apply H2; right; auto.
Qed.
Lemma max_list_ge l0 : forall d, d <= max_list l0 d /\ forall x, In x l0 -> x <= max_list l0 d.
Proof.
  induction l0 as [|x l0 IH]; intros d; unfold max_list in *; simpl; [split; [lra|tauto]|].
  destruct (IH (Rmax d x)) as (A & B). split; [eapply Rle_trans; [apply Rmax_l|exact A]|].
  intros z [<-|Hz]; auto. eapply Rle_trans; [apply Rmax_r|exact A].
Qed.
Lemma cq_outside solve fuel y : y < 0 \/ 1 < y -> inverse_scalar vinf solve fuel (segs q) y = Ok QNan.
Proof.
  intros Y. assert (H : forall t, In t (segs q) -> 0 <= lo vinf t <= 1 /\ 0 <= hi vinf t <= 1) by (intros t I; split; [apply cq_lo|apply cq_hi]; auto).
  unfold inverse_scalar. rewrite out_cont; auto. simpl rbind. rewrite out_jump; auto. simpl rbind.
  pose proof cq_path as P. destruct (segs q) as [|s L] eqn:ES; [discriminate|]. rewrite <- ES in *.
  unfold inv_fix. rewrite ES. cbn [getSegVals map fst snd]. fold (lo vinf s) (hi vinf s).
  assert (Is : In s (segs q)) by (rewrite ES; left; auto).
  match goal with |- context [rlt y ?m] => assert (M1 : m <= lo vinf s) by (eapply Rle_trans; [apply min_list_le|apply Rmin_l]) end.
  assert (L0 : lo vinf s = 0).
  { rewrite ES in P. destruct P as (P & _). apply (lo_minf vinf (segs q)); [apply cq_m|auto|]. apply (sa_minf (segs q)); auto. apply cq_cont. }
  match goal with |- context [(rle 0 y && rlt y ?m)%bool] => replace ((rle 0 y && rlt y m)%bool) with false by (symmetry; rewrite andb_false_iff, rle_false, rlt_false; lra) end.
  match goal with |- context [(rle y 1 && rlt ?m y)%bool] => assert (M2 : hi vinf s <= m) by (eapply Rle_trans; [apply Rmax_r|apply (proj1 (max_list_ge _ _))]);
     replace ((rle y 1 && rlt m y)%bool) with false by (symmetry; rewrite andb_false_iff, rle_false, rlt_false; pose proof (proj2 (H s Is)); lra) end.
  reflexivity.
Qed.

(** a support bounded on both sides: at y = 0 and y = 1 there is a jump from or to the constant tail *)
Lemma cq_jump y : (exists a : R, forall s l', l = s :: l' -> sa s = a) -> (exists b : R, forall s l', l = l' ++ [s] -> sb s = b) -> y = 0 \/ y = 1 -> jump vinf y (segs q).
Proof.
  intros (a0 & Ha) (b0 & Hb) Y.
  destruct (cumint_pieces eps l DL) as (q1 & lead & tail & a & b & E1 & P1 & SQ & C & PQ & _ & HL & HT). rewrite E in E1. injection E1 as <-.
  destruct DL as (N & W & HI & O & CH).
  assert (PC : path a (cums l 0) b) by (apply path_cums; auto).
  assert (Ea : a = Finite a0).
  { destruct l as [|s l'] eqn:El; [congruence|]. destruct P1 as (P1 & _). rewrite <- P1. eapply Ha; eauto. }
  assert (Eb : b = Finite b0).
  { destruct (exists_last N) as (l' & s & El). rewrite El in P1. apply path_app_inv in P1. destruct P1 as (c & _ & P1). simpl in P1.
    destruct P1 as (_ & P1). rewrite <- P1. eapply Hb; eauto. }
  assert (HL' : lead = [MInfSeg a0 (fun _ => 0)]).
  { destruct HL as [->|(r & Er & ->)]; [exfalso|congruence]. simpl in SQ. rewrite SQ in PQ.
    destruct (cums l 0) as [|t tl] eqn:Ec.
    - simpl in PQ, PC. destruct HT as [->|(r & Er & ->)]; simpl in PQ; [discriminate|]. destruct PQ as (PQ & _). discriminate.
    - simpl in PQ, PC. destruct PQ as (PQ & _). destruct PC as (PC & _). congruence. }
  assert (HT' : tail = [PInfSeg b0 (fun _ => 1)]).
  { rewrite <- TM, (cmasses_spec l W). destruct HT as [->|(r & Er & ->)]; [exfalso|congruence]. rewrite app_nil_r, HL' in SQ. rewrite SQ in PQ. destruct PQ as (_ & PQ). simpl in PQ.
    rewrite <- Ea in PQ. assert (F : forall L u v w, path u L v -> path u L w -> v = w).
    { clear. induction L as [|t L IH]; simpl; intros u v w A B; [congruence|]. destruct A as (A & A'), B as (B & B'). eapply IH; eauto. }
    pose proof (F _ _ _ _ PC PQ). congruence. }
  pose proof (fun t => cq_lo t) as LO. pose proof (fun t => cq_hi t) as HI'. rewrite SQ, HL', HT' in *.
  assert (H0 : hi vinf (MInfSeg a0 (fun _ => 0)) = 0).
  { unfold hi, end_val. cbn [sb seg_call]. destruct (_ && _)%bool; reflexivity. }
  assert (H1 : lo vinf (PInfSeg b0 (fun _ => 1)) = 1).
  { unfold lo. cbn [sa end_val]. apply (cont_call (PInfSeg b0 (fun _ => 1)) b0); [split; simpl; auto|simpl; lra|simpl; auto]. }
  assert (G0 : forall M, M <> [] -> (forall t, In t M -> 0 <= lo vinf t) -> y = 0 -> jump vinf y (MInfSeg a0 (fun _ => 0) :: M)).
  { intros M NM HM Y0. destruct M as [|t M]; [congruence|]. apply jump_here. rewrite H0, Y0. split; [lra|apply HM; left; auto]. }
  assert (G1 : forall M, M <> [] -> (forall t, In t M -> hi vinf t <= 1) -> y = 1 -> jump vinf y (M ++ [PInfSeg b0 (fun _ => 1)])).
  { induction M as [|t M IH]; intros NM HM Y0; [congruence|]. destruct M as [|t' M].
    - apply jump_here. rewrite H1, Y0. split; [apply HM; left; auto|lra].
    - apply jump_later. apply IH; auto; [discriminate|intros u Hu; apply HM; right; auto]. }
  destruct Y as [Y|Y].
  - apply G0; auto; [destruct (cums l 0); discriminate|]. intros t I. apply LO. right; auto.
  - rewrite app_assoc. apply G1; auto; [discriminate|]. intros t I. apply HI'. rewrite app_assoc. apply in_or_app; auto.
Qed.
End Cum.
