(** Concrete instances for the theorems on summaries: a minimiser without rounding exists; densities with and
    without atoms meet the hypotheses. *)
From Coq Require Import Reals Lra List Bool Lia.
From Coquelicot Require Import Coquelicot.
From Verif Require Import Base Seg Piecewise PiecewiseSpec Integral IntegralFacts SegInt SegIntSpec CumintFacts Quant QuantSpec QuantFacts Transform TransformSpec
  Summ SummSpec PropSumm ExSegInt ExQuant.
Import List ListNotations.
Open Scope R_scope.

(** the middle of the set of minimisers *)
Definition is_min (g : R -> R) (a b x : R) : Prop := a <= x <= b /\ forall y, a <= y <= b -> g x <= g y.
Definition mid_min (g : R -> R) (a b : R) : R := (real (Glb_Rbar (is_min g a b)) + real (Lub_Rbar (is_min g a b))) / 2.
Lemma mid_min_exact : exact_min mid_min.
Proof.
  intros g a b AB (c & C & U1 & U2). change (is_min g a b (mid_min g a b)). unfold mid_min. set (E := is_min g a b).
  assert (Ec : E c).
  { split; auto. intros y Y. destruct (Rle_dec y c) as [L|L]; [specialize (U1 y c)|specialize (U2 c y)]; lra. }
  destruct (Glb_Rbar_correct E) as (G1 & G2). destruct (Lub_Rbar_correct E) as (L1 & L2).
  assert (GA : Rbar_le a (Glb_Rbar E)) by (apply G2; intros x (X & _); simpl; lra).
  assert (LB : Rbar_le (Lub_Rbar E) b) by (apply L2; intros x (X & _); simpl; lra).
  pose proof (G1 c Ec) as Gc. pose proof (L1 c Ec) as Lc.
  destruct (Glb_Rbar E) as [p| |]; simpl in GA, Gc; try tauto. destruct (Lub_Rbar E) as [q| |]; simpl in LB, Lc; try tauto. simpl real.
  (* between two minimisers everything is a minimiser *)
  assert (CV : forall x y z, E x -> E y -> x <= z <= y -> E z).
  { intros x y z (X1 & X2) (Y1 & Y2) Z. split; [lra|]. intros w Hw. apply Rle_trans with (g c); [|apply Ec; auto].
    destruct (Rle_dec z c) as [K|K].
    - specialize (U1 x z). specialize (X2 c). lra.
    - specialize (U2 z y). specialize (Y2 c). lra. }
  destruct (Req_dec p q) as [->|N]. { replace ((q + q) / 2) with c by lra. auto. }
  assert (X : exists x, E x /\ x < (p + q) / 2).
  { destruct (Rlt_dec c ((p + q) / 2)) as [K|K]; [exists c; auto|]. apply Classical_Prop.NNPP. intros NX.
    assert (J : Rbar_le ((p + q) / 2) p). { apply G2. intros x Ex. simpl. apply Rnot_lt_le. intros Lt. apply NX. exists x; auto. } simpl in J. lra. }
  assert (Y : exists y, E y /\ (p + q) / 2 < y).
  { destruct (Rlt_dec ((p + q) / 2) c) as [K|K]; [exists c; auto|]. apply Classical_Prop.NNPP. intros NX.
    assert (J : Rbar_le q ((p + q) / 2)). { apply L2. intros x Ex. simpl. apply Rnot_lt_le. intros Lt. apply NX. exists x; auto. } simpl in J. lra. }
  destruct X as (x & X1 & X2). destruct Y as (y & Y1 & Y2). apply (CV x y); auto; lra.
Qed.

(** an atom of 1/4 at 0 and the rest uniform: three pieces *)
Definition exA : list segment := [ConstSeg (-1) 0 (1/4); DiracSeg 0 (1/4); ConstSeg 0 2 (1/4)].
Lemma exA_density : density exA /\ Forall nonneg_piece exA /\ Forall cont_inside exA /\ total_mass exA = 1 /\ dirac_sep (1/1000) exA.
Proof.
  splits.
  - unfold density, exA. split; [discriminate|]. split; [repeat constructor; simpl; lra|]. split.
    { constructor; [apply integrable_const; lra|]. constructor; [simpl; auto|]. constructor; [apply integrable_const; lra|constructor]. }
    split; [|simpl; auto]. repeat constructor; simpl; auto; try lra; intros K; injection K; lra.
  - repeat constructor; simpl; intros; lra.
  - repeat constructor; intros ? ? ?; simpl; try apply continuous_const; discriminate.
  - unfold total_mass, exA. cbn [map mass sumR].
    assert (K : forall f a b, Rbar_lt a b -> RInt_gen (V := R_CompleteNormedModule) f (at_r a) (at_l b) = Q f a b) by (intros; symmetry; apply Q_RInt_gen; auto).
    rewrite !K by (simpl; auto; lra). cbn [sa sb]. change (sf (ConstSeg (-1) 0 (1/4))) with (fun _ : R => 1/4). change (sf (ConstSeg 0 2 (1/4))) with (fun _ : R => 1/4).
    rewrite !Q_const. unfold sumR. simpl. lra.
  - unfold dirac_sep, exA. repeat constructor; simpl; auto.
Qed.
Lemma exA_seps eps m : dists_sep eps m exA.
Proof. intros a p b k A B. simpl in A, B. destruct A as [A|[A|[A|[]]]], B as [B|[B|[B|[]]]]; try discriminate. injection A as <- _. injection B as <- _. auto. Qed.
Example exA_medianad : exists N m d, is_quantile (cdf_spec exA) (1 / 2) m /\ abs_dev_median exA m d /\
  forall fuel, (N <= fuel)%nat -> median lim_inf top_root fuel (1/1000) exA = Ok (QAt (Finite m)) /\ medianad lim_inf top_root fuel (1/1000) exA = Ok (QAt (Finite d)).
Proof.
  destruct exA_density as (H1 & H2 & H3 & H4 & H5).
  apply medianad_dev; auto; [lra|intros; apply exA_seps|apply top_root_exact|]. intros k q K E. apply (lim_inf_ok (1/1000) k); auto.
Qed.
Example exA_iqrange : exists N, forall fuel, (N <= fuel)%nat -> exists a b : R, a <= b /\ iqrange lim_inf top_root fuel (1/1000) exA (1/4) = Ok (QAt (Finite (b - a))).
Proof.
  destruct exA_density as (H1 & H2 & H3 & H4 & H5).
  destruct (iqrange_width (1/1000) exA lim_inf top_root (1/4)) as (N & H); auto; [apply top_root_exact|intros q E; apply (lim_inf_ok (1/1000) exA); auto|lra|].
  exists N. intros fuel F. destruct (H fuel F) as (a & b & _ & _ & L & I & _). eauto.
Qed.
Example exA_range : range exA = Ok (Finite (-1), Finite 2).
Proof.
  destruct (range_hull exA ltac:(discriminate)) as (lo & hi & E & (s & Hs & Ls) & (t & Ht & Lt) & H). rewrite E. 
  pose proof (H (ConstSeg (-1) 0 (1/4))) as K1. pose proof (H (ConstSeg 0 2 (1/4))) as K2. simpl in K1, K2.
  destruct K1 as (K1 & _); auto. destruct K2 as (_ & _ & _ & K2); auto.
  assert (P : exists x, lo = Finite x /\ (x = -1 \/ x = 0 \/ x = 2)) by (destruct Hs as [<-|[<-|[<-|[]]]]; simpl in Ls; destruct Ls; eauto 6).
  assert (P' : exists x, hi = Finite x /\ (x = -1 \/ x = 0 \/ x = 2)) by (destruct Ht as [<-|[<-|[<-|[]]]]; simpl in Lt; destruct Lt; eauto 6).
  destruct P as (x & -> & X). destruct P' as (y & -> & Y). simpl in K1, K2. repeat f_equal; lra.
Qed.

(** the mode of an exponential tail right of a rising piece *)
Definition exM : list segment := [Seg 0 1 (fun x => x); PInfSeg 1 (fun x => exp (1 - x))].
Definition exfar (s : segment) : R := 2.
Definition exvinf (s : segment) : R := 0.
Example exM_mode : mode mid_min exfar exvinf exM = Some (Finite 1).
Proof.
  destruct (mode_highest mid_min exfar exvinf exM mid_min_exact ltac:(discriminate)) as (s & x & Hs & X1 & X2 & M & _ & T).
  { constructor; [|constructor; [|constructor]].
    - simpl. split; [lra|]. exists 1. split; [lra|]. split; intros u v U V W; lra.
    - simpl. unfold exfar, exvinf. assert (D : forall u v, u <= v -> exp (1 - v) <= exp (1 - u)).
      { intros u v H. destruct (Req_dec u v) as [->|]; [lra|]. left. apply exp_increasing. lra. }
      splits; try lra; auto.
      + exists 1. split; [lra|]. split; intros u v U V W; [replace v with u by lra; lra|auto].
      + assert (L : is_lim (fun x => exp (1 - x)) p_infty 0).
        { apply (is_lim_comp exp (fun x => 1 - x) p_infty 0 m_infty); [apply is_lim_exp_m| |].
          - replace m_infty with (Rbar_plus 1 (Rbar_opp p_infty)) by reflexivity. apply (is_lim_minus' (fun _ => 1) (fun x => x)) || idtac.
            apply (is_lim_minus (fun _ => 1) (fun x => x) p_infty 1 p_infty m_infty); [apply is_lim_const|apply is_lim_id|reflexivity].
          - exists 0. intros y _. discriminate. }
        exact L.
      + left. apply exp_pos. }
  rewrite M. f_equal. f_equal. specialize (T (Seg 0 1 (fun x => x)) 1 (or_introl eq_refl)). simpl in T.
  destruct Hs as [<-|[<-|[]]]; simpl in X1, X2, T; [lra|].
  destruct (Rle_dec x 1) as [|N]; [lra|]. assert (exp (1 - x) < 1) by (pose proof (exp_increasing (1 - x) 0) as EI; rewrite exp_0 in EI; apply EI; lra). lra.
Qed.
