(** Tail formula for the mean of one piece. *)
From Coq Require Import Reals Lra Lia List Bool.
From Coquelicot Require Import Coquelicot.
From Verif Require Import Base Seg Piecewise PiecewiseSpec Integral IntegralFacts SegIntSpec SegIntFacts TransformSpec TransformFacts SubstFacts MomSpec.
Import List ListNotations.
Open Scope R_scope.

Lemma cont_sides (h : R -> R) (x l : R) : h x = l -> filterlim h (at_left x) (locally l) -> filterlim h (at_right x) (locally l) -> continuous h x.
Proof.
  intros <- A B P HP. specialize (A P HP). specialize (B P HP). destruct A as (d1 & A). destruct B as (d2 & B).
  exists (mkposreal (Rmin d1 d2) (Rmin_pos _ _ (cond_pos d1) (cond_pos d2))). intros y Y. simpl in Y.
  change (Rabs (y - x) < Rmin d1 d2) in Y. pose proof (Rmin_l d1 d2). pose proof (Rmin_r d1 d2).
  destruct (Rtotal_order y x) as [L|[->|L]].
  - apply A; auto. change (Rabs (y - x) < d1). lra.
  - apply locally_singleton in HP. exact HP.
  - apply B; auto. change (Rabs (y - x) < d2). lra.
Qed.

(** an antiderivative off finitely many points *)
Lemma pieces_RInt (h P : R -> R) : (forall x, continuous h x) -> (forall x, continuous P x) ->
  forall (xs : list R) (u v : R), u < v -> (forall x, u < x < v -> ~ In x xs -> is_derive P x (h x)) -> is_RInt h u v (P v - P u).
Proof.
  intros Ch CP.
  assert (EX : forall u v, ex_RInt h u v) by (intros; apply (ex_RInt_continuous (V := R_CompleteNormedModule)); auto).
  induction xs as [|x0 xs IH]; intros u v L D.
  - destruct (ftc h P u v (P u) (P v)) as (I1 & Q1); auto.
    + apply filterlim_at_r_cont; auto.
    + apply filterlim_at_l_cont; auto.
    + rewrite <- Q1. destruct (proper_int h u v L (EX u v)) as (_ & ->). apply RIc; auto.
  - destruct (Rlt_dec u x0) as [A|A]; [destruct (Rlt_dec x0 v) as [B|B]|].
    + replace (P v - P u) with (plus (P x0 - P u) (P v - P x0)) by (unfold plus; simpl; ring).
      apply (is_RInt_Chasles h u x0 v).
      * apply IH; auto. intros x X N. apply D; [lra|]. intros [E|E]; [lra|auto].
      * apply IH; auto. intros x X N. apply D; [lra|]. intros [E|E]; [lra|auto].
    + apply IH; auto. intros x X N. apply D; auto. intros [E|E]; [lra|auto].
    + apply IH; auto. intros x X N. apply D; auto. intros [E|E]; [lra|auto].
Qed.

Section Piece.
Variable s : segment.
Hypothesis D : isDirac s = false.
Hypothesis W : wf_seg s.
Variable G : Rbar -> R.
Variable f : R -> R.
Hypothesis PG : prim f (sa s) (sb s) G.
Let a := sa s.
Let b := sb s.
Let Lab : Rbar_lt a b.
Proof. exact (wf_lt s D W). Qed.

Lemma clamp_cont (x : R) : continuous (fun t : R => G (clamp s t)) x.
Proof.
  pose proof Lab as L. pose proof (Rbar_lt_le _ _ L) as Le. destruct PG as (_ & _ & P3 & P4).
  apply (cont_sides _ _ (G (clamp s x))); auto.
  - destruct (Rbar_lt_le_dec b x) as [B|B].
    + apply (filterlim_ext_loc (fun _ => G b)); [|rewrite (clamp_high s x) by (auto; apply Rbar_lt_le; auto); apply filterlim_const].
      apply filter_le_within. generalize (open_Rbar_gt' x b B). apply filter_imp. intros y Y.
      rewrite clamp_high; auto. apply Rbar_lt_le; auto.
    + destruct (Rbar_lt_le_dec a x) as [A|A].
      * rewrite (clamp_id s x) by (auto; apply Rbar_lt_le; auto).
        apply (filterlim_ext_loc (fun t : R => G t)); [|apply (P3 x); auto].
        pose proof (at_l_between a x A) as E. simpl in E. revert E. apply filter_imp. intros y (Y1 & Y2).
        rewrite clamp_id; auto; [apply Rbar_lt_le; auto|]. apply (Rbar_le_trans _ x); auto. apply Rbar_lt_le; auto.
      * apply (filterlim_ext_loc (fun _ => G a)); [|rewrite (clamp_low s x) by auto; apply filterlim_const].
        exists (mkposreal 1 Rlt_0_1). intros y _ Y. rewrite clamp_low; auto. apply (Rbar_le_trans _ x); auto. simpl; lra.
  - destruct (Rbar_lt_le_dec x a) as [A|A].
    + apply (filterlim_ext_loc (fun _ => G a)); [|rewrite (clamp_low s x) by (auto; apply Rbar_lt_le; auto); apply filterlim_const].
      apply filter_le_within. generalize (open_Rbar_lt' x a A). apply filter_imp. intros y Y.
      rewrite clamp_low; auto. apply Rbar_lt_le; auto.
    + destruct (Rbar_lt_le_dec x b) as [B|B].
      * rewrite (clamp_id s x) by (auto; apply Rbar_lt_le; auto).
        apply (filterlim_ext_loc (fun t : R => G t)); [|apply (P4 x); auto].
        pose proof (at_r_between x b B) as E. simpl in E. revert E. apply filter_imp. intros y (Y1 & Y2).
        rewrite clamp_id; auto; [|apply Rbar_lt_le; auto]. apply (Rbar_le_trans _ x); auto. apply Rbar_lt_le; auto.
      * apply (filterlim_ext_loc (fun _ => G b)); [|rewrite (clamp_high s x) by auto; apply filterlim_const].
        exists (mkposreal 1 Rlt_0_1). intros y _ Y. rewrite clamp_high; auto. apply (Rbar_le_trans _ x); auto. simpl; lra.
Qed.

(** derivative of the clamped antiderivative *)
Lemma clamp_der (x : R) : (RbarIn a b x -> continuous f x) -> Finite x <> a -> Finite x <> b ->
  is_derive (fun t : R => G (clamp s t)) x (if Rbar_lt_dec a x then if Rbar_lt_dec x b then f x else 0 else 0).
Proof.
  intros C Na Nb. pose proof (Rbar_lt_le _ _ Lab) as Le.
  destruct (Rbar_lt_dec a x) as [A|A]; [destruct (Rbar_lt_dec x b) as [B|B]|].
  - apply (is_derive_ext_loc (fun t : R => G t)).
    + pose proof (open_Rbar_lt' x b B) as O1. pose proof (open_Rbar_gt' x a A) as O2.
      generalize (filter_and _ _ O1 O2). apply filter_imp. intros y (Y1 & Y2). rewrite clamp_id; auto; apply Rbar_lt_le; auto.
    + assert (X : RbarIn a b x) by (split; auto). apply (prim_derive f a b); auto.
  - assert (B' : Rbar_lt b x). { apply Rbar_not_lt_le in B. destruct (Rbar_le_lt_or_eq_dec _ _ B) as [|E]; auto. congruence. }
    apply (is_derive_ext_loc (fun _ : R => G b)); [|apply (is_derive_const (V := R_NormedModule))].
    generalize (open_Rbar_gt' x b B'). apply filter_imp. intros y Y. rewrite clamp_high; auto. apply Rbar_lt_le; auto.
  - assert (A' : Rbar_lt x a). { apply Rbar_not_lt_le in A. destruct (Rbar_le_lt_or_eq_dec _ _ A) as [|E]; auto. congruence. }
    apply (is_derive_ext_loc (fun _ : R => G a)); [|apply (is_derive_const (V := R_NormedModule))].
    generalize (open_Rbar_lt' x a A'). apply filter_imp. intros y Y. rewrite clamp_low; auto. apply Rbar_lt_le; auto.
Qed.
End Piece.
