(** Concrete instances for the theorems on quantiles: a root finder without rounding exists, and the density of
    ExSegInt.v (tails, an atom, a constant and a singular piece) meets the hypotheses. *)
From Coq Require Import Reals Lra List Bool.
From Coquelicot Require Import Coquelicot.
From Verif Require Import Base Seg Piecewise PiecewiseSpec Integral IntegralFacts SegInt SegIntSpec CumintFacts CumintFacts2 Quant QuantSpec QuantFacts QuantFacts2 PropQuant ExSegInt.
Import List ListNotations.
Open Scope R_scope.

(** the largest root in the bracket *)
Definition top_root (g : R -> R) (a b : R) : res R := Ok (real (Lub_Rbar (fun x => a <= x <= b /\ g x = 0))).
Lemma top_root_exact : exact_solver top_root.
Proof.
  intros g a b AB (h & H1 & H2) S. unfold top_root.
  destruct (IVT_cor h a b H1 ltac:(lra)) as (z & Z1 & Z2); [rewrite <- !H2 by lra; auto|].
  set (E := fun x => a <= x <= b /\ g x = 0). assert (Ez : E z) by (split; auto; rewrite H2; auto).
  destruct (Lub_Rbar_correct E) as (U & L). fold E.
  assert (B : Rbar_le (Lub_Rbar E) b) by (apply L; intros x (X & _); simpl; lra).
  specialize (U z Ez) as Uz. destruct (Lub_Rbar E) as [r| |] eqn:Er; simpl in B, Uz; try tauto.
  exists r. simpl real. split; auto. split; [lra|]. rewrite H2 by lra.
  destruct (Req_dec (h r) 0) as [|N]; auto. exfalso.
  destruct (H1 r (Rabs (h r))) as (d & D1 & D2); [apply Rabs_pos_lt; auto|].
  assert (K : Rbar_le r (r - d)).
  { apply L. intros x (X1 & X2). simpl. specialize (U x (conj X1 X2)). simpl in U.
    apply Rnot_lt_le. intros Lt. destruct (Req_dec x r) as [->|Nx]; [rewrite <- H2 in N; auto|].
    specialize (D2 x). simpl in D2. unfold R_dist in D2. rewrite <- (H2 x), X2 in D2 by auto.
    replace (0 - h r) with (- h r) in D2 by ring. rewrite Rabs_Ropp in D2.
    assert (Rabs (h r) < Rabs (h r)); [|lra]. apply D2. split; [split; [exact I|auto]|]. rewrite Rabs_minus_sym, Rabs_pos_eq; lra. }
  simpl in K. lra.
Qed.

(** the limit at an infinite end *)
Definition lim_inf (s : segment) : R := real (if isMInf s then Lim (sf s) m_infty else Lim (sf s) p_infty).
Lemma lim_inf_ok eps l q : density l -> cumint eps l = Ok q -> end_limits lim_inf (segs q).
Proof.
  intros D E t I. pose proof D as (N & W & HI & _). destruct (pieces_ok eps l q t D E I) as (h & _ & H2 & H3). unfold lim_inf. split; intros M.
  - rewrite M. destruct (isM t M) as (b & f & ->).
    assert (L : filterlim (sf (MInfSeg b f)) (Rbar_locally m_infty) (locally 0)).
    { eapply filterlim_ext_loc; [|exact (cF_lim_m l W HI)]. exists b. intros x Hx.
      assert (C : covers (MInfSeg b f) x) by (split; simpl; auto).
      rewrite <- (H3 x C). symmetry. apply H2; [apply C|apply Rbar_lt_le, C]. }
    rewrite (is_lim_unique _ m_infty 0); auto.
  - destruct (isP t M) as (a & f & ->). cbn [isMInf].
    assert (L : filterlim (sf (PInfSeg a f)) (Rbar_locally p_infty) (locally (cmasses l))).
    { eapply filterlim_ext_loc; [|exact (cF_lim_p l W HI)]. exists a. intros x Hx.
      assert (C : covers (PInfSeg a f) x) by (split; simpl; auto; lra).
      rewrite <- (H3 x C). symmetry. apply H2; [apply C|apply Rbar_lt_le, C]. }
    rewrite (is_lim_unique _ p_infty (cmasses l)); auto.
Qed.

Lemma exD_median : exists N, forall fuel, (N <= fuel)%nat -> exists m : R,
  median lim_inf top_root fuel (1/1000) exD = Ok (QAt m) /\ (forall t, t < m -> cdf_spec exD t <= 1/2) /\ 1/2 <= cdf_spec exD m.
Proof.
  apply median_half; [apply exD_density|apply exD_nonneg|apply exD_mass|apply top_root_exact|].
  intros q E. apply (lim_inf_ok (1/1000) exD); [apply exD_density|auto].
Qed.

(** bounded support, no atoms: the uniform distribution on [2,6] *)
Definition exU : list segment := [ConstSeg 2 6 (1/4)].
Lemma exU_ok : density exU /\ Forall nonneg_piece exU /\ total_mass exU = 1.
Proof.
  assert (W : Forall wf_seg exU) by (apply Forall_cons; [simpl; lra|apply Forall_nil]).
  splits.
  - unfold density. splits; auto; [discriminate| |repeat constructor|simpl; auto].
    apply Forall_cons; [apply (integrable_const 2 6 (1/4)); lra|apply Forall_nil].
  - apply Forall_cons; [simpl; intros; lra|apply Forall_nil].
  - rewrite (cmasses_spec exU W). unfold cmasses, exU. cbn [map sumR fold_right cmass].
    change (sf (ConstSeg 2 6 (1/4))) with (fun _ : R => 1/4). cbn [sa sb]. rewrite Q_const. lra.
Qed.
Lemma exU_quartile : exists N, forall fuel, (N <= fuel)%nat -> exists x : R,
  quantile lim_inf top_root fuel (1/1000) exU (1/4) = Ok (QAt x) /\ cdf_spec exU x = 1/4.
Proof.
  destruct exU_ok as (D & NN & TM). apply quantile_round_trip; auto; [apply top_root_exact| |lra|].
  - intros q E. apply (lim_inf_ok (1/1000) exU); auto.
  - intros s [<-|[]]. reflexivity.
Qed.
Lemma exU_one : exists N, forall fuel, (N <= fuel)%nat -> exists x : R,
  quantile lim_inf top_root fuel (1/1000) exU 1 = Ok (QAt x) /\ is_quantile (cdf_spec exU) 1 x.
Proof.
  destruct exU_ok as (D & NN & TM).
  destruct (quantile_ends (1/1000) exU lim_inf top_root 1 D NN TM top_root_exact) as (N & H); [|lra|].
  - intros q E. apply (lim_inf_ok (1/1000) exU); auto.
  - exists N. intros fuel Hf. destruct (H fuel Hf) as (x & X1 & X2 & X3). destruct X3 as (r & ->).
    + exists 2. intros s l' E. injection E as <- <-. reflexivity.
    + exists 6. intros s l' E. destruct l' as [|u l']; [injection E as <-; reflexivity|].
      injection E as _ E. destruct l'; discriminate.
    + exists r; auto.
Qed.

(** a function on [0,1] with values from 1/4 to 3/4 only: levels outside that range *)
Lemma ex_beyond vinf solve fuel :
  inverse_scalar vinf solve fuel [Seg 0 1 (fun x => 1/4 + x/2)] (1/10) = Ok (QAt m_infty) /\
  inverse_scalar vinf solve fuel [Seg 0 1 (fun x => 1/4 + x/2)] (9/10) = Ok (QAt p_infty).
Proof.
  assert (V : forall v, In v (getSegVals vinf [Seg 0 1 (fun x => 1/4 + x/2)]) -> v = (1/4, 3/4)).
  { intros v [<-|[]]. cbn [sa sb end_val]. unfold seg_call. cbn [sa sb sf]. f_equal;
      (match goal with |- (if ?c then _ else _) = _ => replace c with true by (symmetry; apply andb_true_iff; split; apply ble_true; simpl; lra) end); lra. }
  split; eapply inverse_beyond; try discriminate; try lra; intros v Hv; rewrite (V v Hv); simpl; lra.
Qed.
