(** The distribution function as a function: monotone, right-continuous, with limits and jumps. *)
From Coq Require Import Reals Lra List Bool Sorted Permutation.
From Coquelicot Require Import Coquelicot.
From Verif Require Import Base Bisect Seg Piecewise PiecewiseSpec PiecewiseFacts PiecewiseFacts2 Integral IntegralFacts SegInt SegIntSpec SegIntFacts CumintFacts.
Import List ListNotations.
Open Scope R_scope.

Lemma cpart_G s : isDirac s = false -> wf_seg s -> integrable_piece s ->
  exists G, prim (sf s) (sa s) (sb s) G /\ forall x : R, cpart s x = G (clamp s x) - G (sa s).
Proof.
  intros D W HI. assert (W' : Rbar_lt (sa s) (sb s)) by (destruct s; auto; discriminate).
  destruct (integrable_prim _ _ _ (integrable_piece_int s D HI)) as (G & P). exists G. split; auto.
  intros x. transitivity (Q (sf s) (sa s) (clamp s x)); [destruct s; auto; discriminate|].
  destruct (clamp_in s x (Rbar_lt_le _ _ W')).
  apply (prim_Q _ (sa s) (sb s)); auto using Rbar_lt_le, Rbar_le_refl.
Qed.

Lemma cmass_G s G : isDirac s = false -> wf_seg s -> prim (sf s) (sa s) (sb s) G -> cmass s = G (sb s) - G (sa s).
Proof.
  intros D W P. assert (W' : Rbar_lt (sa s) (sb s)) by (destruct s; auto; discriminate).
  transitivity (Q (sf s) (sa s) (sb s)); [destruct s; auto; discriminate|].
  apply (prim_Q _ (sa s) (sb s)); auto using Rbar_lt_le, Rbar_le_refl.
Qed.

Lemma cpart_mono s (x y : R) : wf_seg s -> integrable_piece s -> nonneg_piece s -> x <= y ->
  0 <= cpart s x /\ cpart s x <= cpart s y /\ cpart s y <= cmass s.
Proof.
  intros W HI NN XY. destruct (isDirac s) eqn:D.
  - destruct s; try discriminate. simpl in *. destruct (Rle_dec a x); destruct (Rle_dec a y); lra.
  - assert (W' : Rbar_lt (sa s) (sb s)) by (destruct s; auto; discriminate).
    destruct (cpart_G s D W HI) as (G & P & E). rewrite !E. rewrite (cmass_G s G D W P).
    assert (NN' : forall z : R, RbarIn (sa s) (sb s) z -> 0 <= sf s z).
    { intros z (Z1 & Z2). destruct s; try discriminate; apply NN; auto. }
    destruct (clamp_in s x (Rbar_lt_le _ _ W')) as (C1 & C2). destruct (clamp_in s y (Rbar_lt_le _ _ W')) as (C3 & C4).
    pose proof (prim_nondec _ _ _ G (sa s) (clamp s x) P NN' (Rbar_le_refl _) C1 C2).
    pose proof (prim_nondec _ _ _ G (clamp s x) (clamp s y) P NN' C1 (clamp_mono s x y (Rbar_lt_le _ _ W') XY) C4).
    pose proof (prim_nondec _ _ _ G (clamp s y) (sb s) P NN' C3 C4 (Rbar_le_refl _)).
    lra.
Qed.

Lemma at_right_lt (x : R) (b : Rbar) : Rbar_lt x b -> at_right x (fun t : R => x < t /\ Rbar_lt t b).
Proof. intros H. exact (at_r_between x b H). Qed.
Lemma at_left_lt (x : R) (b : Rbar) : Rbar_lt b x -> at_left x (fun t : R => Rbar_lt b t /\ t < x).
Proof. intros H. exact (at_l_between b x H). Qed.
Lemma at_right_gt (x : R) : at_right x (fun t : R => x < t).
Proof. eapply filter_imp; [|apply (at_right_lt x p_infty); simpl; auto]. intros t H; apply H. Qed.
Lemma at_left_gt (x : R) : at_left x (fun t : R => t < x).
Proof. eapply filter_imp; [|apply (at_left_lt x m_infty); simpl; auto]. intros t H; apply H. Qed.

Lemma cpart_right_cont s (x : R) : wf_seg s -> integrable_piece s ->
  filterlim (cpart s) (at_right x) (locally (cpart s x)).
Proof.
  intros W HI. destruct (isDirac s) eqn:D.
  - destruct s; try discriminate. simpl cpart. destruct (Rle_dec a x) as [L|L].
    + apply (filterlim_ext_loc (fun _ => m)); [|apply filterlim_const].
      eapply filter_imp; [|apply (at_right_gt x)]. intros t T. simpl. destruct (Rle_dec a t); auto; lra.
    + apply (filterlim_ext_loc (fun _ => 0)); [|apply filterlim_const].
      eapply filter_imp; [|apply (at_right_lt x a); simpl; lra]. intros t (T1 & T2). simpl in *. destruct (Rle_dec a t); auto; lra.
  - assert (W' : Rbar_lt (sa s) (sb s)) by (destruct s; auto; discriminate).
    assert (Wl := Rbar_lt_le _ _ W').
    destruct (cpart_G s D W HI) as (G & P & E).
    assert (KC : filterlim (fun t => G (clamp s (Finite t))) (at_right x) (locally (G (clamp s x)))).
    { destruct (bltP x (sa s)) as [L|L].
      - rewrite (clamp_low s x) by auto using Rbar_lt_le.
        apply (filterlim_ext_loc (fun _ => G (sa s))); [|apply filterlim_const].
        eapply filter_imp; [|apply (at_right_lt x (sa s)); auto]. intros t (T1 & T2). rewrite clamp_low; auto using Rbar_lt_le.
      - apply Rbar_not_lt in L. destruct (bltP x (sb s)) as [L'|L'].
        + rewrite clamp_id by auto using Rbar_lt_le.
          apply (filterlim_ext_loc (fun t => G (Finite t))).
          * eapply filter_imp; [|apply (at_right_lt x (sb s)); auto]. intros t (T1 & T2). rewrite clamp_id; auto using Rbar_lt_le.
            apply (Rbar_le_trans _ x); auto. simpl; lra.
          * destruct P as (_ & _ & _ & P). apply (P x); auto.
        + apply Rbar_not_lt in L'. rewrite (clamp_high s x) by auto.
          apply (filterlim_ext_loc (fun _ => G (sb s))); [|apply filterlim_const].
          eapply filter_imp; [|apply (at_right_gt x)]. intros t T. rewrite clamp_high; auto.
          apply (Rbar_le_trans _ x); auto. simpl; lra. }
    rewrite E. apply (filterlim_ext (fun t => G (clamp s (Finite t)) - G (sa s))); [intros; rewrite E; auto|].
    apply (filterlim_comp_2 (G := locally (G (clamp s x))) (H := locally (- G (sa s))) _ (fun _ => - G (sa s)) Rplus); auto.
    + apply filterlim_const.
    + apply (filterlim_plus (V := R_NormedModule)).
Qed.

(** mass of the piece sitting exactly at x *)
Definition atom_at (s : segment) (x : R) : R := match s with DiracSeg a m => if req a x then m else 0 | _ => 0 end.

Lemma cpart_left_lim s (x : R) : wf_seg s -> integrable_piece s ->
  filterlim (cpart s) (at_left x) (locally (cpart s x - atom_at s x)).
Proof.
  intros W HI. destruct (isDirac s) eqn:D.
  - destruct s; try discriminate. simpl cpart. simpl atom_at.
    destruct (reqP a x) as [->|NE].
    + destruct (Rle_dec x x) as [_|L]; [|lra]. replace (m - m) with 0 by ring.
      apply (filterlim_ext_loc (fun _ => 0)); [|apply filterlim_const].
      eapply filter_imp; [|apply (at_left_gt x)]. intros t T. simpl in *. destruct (Rle_dec x t); auto; lra.
    + rewrite Rminus_0_r. destruct (Rle_dec a x) as [L|L].
      * apply (filterlim_ext_loc (fun _ => m)); [|apply filterlim_const].
        eapply filter_imp; [|apply (at_left_lt x a); simpl; lra]. intros t (T1 & T2). simpl in *. destruct (Rle_dec a t); auto; lra.
      * apply (filterlim_ext_loc (fun _ => 0)); [|apply filterlim_const].
        eapply filter_imp; [|apply (at_left_gt x)]. intros t T. simpl in *. destruct (Rle_dec a t); auto; lra.
  - assert (W' : Rbar_lt (sa s) (sb s)) by (destruct s; auto; discriminate).
    assert (Wl := Rbar_lt_le _ _ W').
    destruct (cpart_G s D W HI) as (G & P & E).
    assert (KC : filterlim (fun t => G (clamp s (Finite t))) (at_left x) (locally (G (clamp s x)))).
    { destruct (bltP (sb s) x) as [L|L].
      - rewrite (clamp_high s x) by auto using Rbar_lt_le.
        apply (filterlim_ext_loc (fun _ => G (sb s))); [|apply filterlim_const].
        eapply filter_imp; [|apply (at_left_lt x (sb s)); auto]. intros t (T1 & T2). rewrite clamp_high; auto using Rbar_lt_le.
      - apply Rbar_not_lt in L. destruct (bltP (sa s) x) as [L'|L'].
        + rewrite clamp_id by auto using Rbar_lt_le.
          apply (filterlim_ext_loc (fun t => G (Finite t))).
          * eapply filter_imp; [|apply (at_left_lt x (sa s)); auto]. intros t (T1 & T2). rewrite clamp_id; auto using Rbar_lt_le.
            apply (Rbar_le_trans _ x); auto. simpl; lra.
          * destruct P as (_ & _ & P & _). apply (P x); auto.
        + apply Rbar_not_lt in L'. rewrite (clamp_low s x) by auto.
          apply (filterlim_ext_loc (fun _ => G (sa s))); [|apply filterlim_const].
          eapply filter_imp; [|apply (at_left_gt x)]. intros t T. rewrite clamp_low; auto.
          apply (Rbar_le_trans _ x); auto. simpl; lra. }
    replace (atom_at s x) with 0 by (destruct s; auto; discriminate). rewrite Rminus_0_r.
    rewrite E. apply (filterlim_ext (fun t => G (clamp s (Finite t)) - G (sa s))); [intros; rewrite E; auto|].
    apply (filterlim_comp_2 (G := locally (G (clamp s x))) (H := locally (- G (sa s))) _ (fun _ => - G (sa s)) Rplus); auto.
    + apply filterlim_const.
    + apply (filterlim_plus (V := R_NormedModule)).
Qed.

Lemma cpart_lim_p s : wf_seg s -> integrable_piece s ->
  filterlim (cpart s) (Rbar_locally p_infty) (locally (cmass s)).
Proof.
  intros W HI. destruct (isDirac s) eqn:D.
  - destruct s; try discriminate. simpl. apply (filterlim_ext_loc (fun _ => m)); [|apply filterlim_const].
    exists a. intros x Hx. unfold cpart. destruct (Rle_dec a x); auto; lra.
  - assert (W' : Rbar_lt (sa s) (sb s)) by (destruct s; auto; discriminate).
    assert (Wl := Rbar_lt_le _ _ W').
    destruct (cpart_G s D W HI) as (G & P & E).
    assert (KC : filterlim (fun t => G (clamp s (Finite t))) (Rbar_locally p_infty) (locally (G (sb s)))).
    { destruct (sb s) as [b| |] eqn:Eb.
      - apply (filterlim_ext_loc (fun _ => G b)); [|apply filterlim_const].
        exists b. intros t T. rewrite clamp_high; rewrite Eb; auto. simpl; lra.
      - apply (filterlim_ext_loc (fun t => G (Finite t))).
        + destruct (sa s) as [a| |] eqn:Ea; try (simpl in W'; tauto).
          * exists a. intros t T. rewrite clamp_id; auto; rewrite ?Ea, ?Eb; simpl; auto. lra.
          * exists 0. intros t T. rewrite clamp_id; auto; rewrite ?Ea, ?Eb; simpl; auto.
        + destruct P as (_ & _ & P & _). rewrite ?Eb in P. apply (P p_infty); auto. simpl; auto.
      - destruct (sa s); simpl in W'; tauto. }
    rewrite (cmass_G s G); auto. apply (filterlim_ext (fun t => G (clamp s (Finite t)) - G (sa s))); [intros; rewrite E; auto|].
    apply (filterlim_comp_2 (G := locally (G (sb s))) (H := locally (- G (sa s))) _ (fun _ => - G (sa s)) Rplus); auto.
    + apply filterlim_const.
    + apply (filterlim_plus (V := R_NormedModule)).
Qed.

Lemma cpart_lim_m s : wf_seg s -> integrable_piece s ->
  filterlim (cpart s) (Rbar_locally m_infty) (locally 0).
Proof.
  intros W HI. destruct (isDirac s) eqn:D.
  - destruct s; try discriminate. simpl. apply (filterlim_ext_loc (fun _ => 0)); [|apply filterlim_const].
    exists a. intros x Hx. unfold cpart. destruct (Rle_dec a x); auto; lra.
  - assert (W' : Rbar_lt (sa s) (sb s)) by (destruct s; auto; discriminate).
    assert (Wl := Rbar_lt_le _ _ W').
    destruct (cpart_G s D W HI) as (G & P & E).
    assert (KC : filterlim (fun t => G (clamp s (Finite t))) (Rbar_locally m_infty) (locally (G (sa s)))).
    { destruct (sa s) as [a| |] eqn:Ea.
      - apply (filterlim_ext_loc (fun _ => G a)); [|apply filterlim_const].
        exists a. intros t T. rewrite clamp_low; rewrite Ea; auto. simpl; lra.
      - destruct (sb s); simpl in W'; tauto.
      - apply (filterlim_ext_loc (fun t => G (Finite t))).
        + destruct (sb s) as [b| |] eqn:Eb; try (simpl in W'; tauto).
          * exists b. intros t T. rewrite clamp_id; auto; rewrite ?Ea, ?Eb; simpl; auto. lra.
          * exists 0. intros t T. rewrite clamp_id; auto; rewrite ?Ea, ?Eb; simpl; auto.
        + destruct P as (_ & _ & _ & P). rewrite ?Ea in P. apply (P m_infty); simpl; auto. }
    replace 0 with (G (sa s) - G (sa s)) by ring.
    apply (filterlim_ext (fun t => G (clamp s (Finite t)) - G (sa s))); [intros; rewrite E; auto|].
    apply (filterlim_comp_2 (G := locally (G (sa s))) (H := locally (- G (sa s))) _ (fun _ => - G (sa s)) Rplus); auto.
    + apply filterlim_const.
    + apply (filterlim_plus (V := R_NormedModule)).
Qed.

Lemma filterlim_sum {A} (F : (R -> Prop) -> Prop) {FF : Filter F} (f : A -> R -> R) (g : A -> R) l :
  (forall s, In s l -> filterlim (f s) F (locally (g s))) ->
  filterlim (fun x => sumR (map (fun s => f s x) l)) F (locally (sumR (map g l))).
Proof.
  induction l as [|s l IH]; intros H; simpl; [apply filterlim_const|].
  apply (filterlim_comp_2 (G := locally (g s)) (H := locally (sumR (map g l))) (f s) (fun x => sumR (map (fun s => f s x) l)) Rplus).
  - apply H; left; auto.
  - apply IH. intros; apply H; right; auto.
  - apply (filterlim_plus (V := R_NormedModule)).
Qed.

Section F.
Variable l : list segment.
Hypothesis W : Forall wf_seg l.
Hypothesis HI : Forall integrable_piece l.

Lemma cF_right_cont x : filterlim (cF l) (at_right x) (locally (cF l x)).
Proof.
  rewrite Forall_forall in W, HI.
  apply (filterlim_sum (at_right x) cpart (fun s => cpart s x) l). intros s Hs. apply cpart_right_cont; auto.
Qed.
Lemma cF_left_lim x : filterlim (cF l) (at_left x) (locally (cF l x - sumR (map (fun s => atom_at s x) l))).
Proof.
  rewrite Forall_forall in W, HI.
  replace (cF l x - sumR (map (fun s => atom_at s x) l)) with (sumR (map (fun s => cpart s x - atom_at s x) l)).
  - apply (filterlim_sum (at_left x) cpart (fun s => cpart s x - atom_at s x) l). intros s Hs. apply cpart_left_lim; auto.
  - unfold cF. clear. induction l as [|s l' IH]; simpl; [ring|rewrite IH; ring].
Qed.
Lemma cF_lim_p : filterlim (cF l) (Rbar_locally p_infty) (locally (cmasses l)).
Proof.
  rewrite Forall_forall in W, HI.
  apply (filterlim_sum (Rbar_locally p_infty) cpart cmass l). intros s Hs. apply cpart_lim_p; auto.
Qed.
Lemma cF_lim_m : filterlim (cF l) (Rbar_locally m_infty) (locally 0).
Proof.
  rewrite Forall_forall in W, HI.
  replace 0 with (sumR (map (fun s : segment => 0) l)).
  - apply (filterlim_sum (Rbar_locally m_infty) cpart (fun _ => 0) l). intros s Hs. apply cpart_lim_m; auto.
  - clear. induction l; simpl; auto. rewrite IHl0. ring.
Qed.
Lemma cF_mono x y : Forall nonneg_piece l -> x <= y -> 0 <= cF l x /\ cF l x <= cF l y /\ cF l y <= cmasses l.
Proof.
  intros NN XY. unfold cF, cmasses. revert W HI NN.
  induction l as [|s l' IH]; simpl; intros W' HI' NN; [lra|]. inversion W'; subst. inversion HI'; subst. inversion NN; subst.
  destruct IH as (I1 & I2 & I3); auto. destruct (cpart_mono s x y) as (J1 & J2 & J3); auto. lra.
Qed.
End F.
