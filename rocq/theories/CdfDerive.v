(** The derivative of the distribution function is the density. *)
From Coq Require Import Reals Lra Lia List Bool Sorted Permutation.
From Coquelicot Require Import Coquelicot.
From Verif Require Import Base Bisect Seg Piecewise PiecewiseSpec PiecewiseFacts PiecewiseFacts2 PiecewiseFacts3 PiecewiseFacts4 Integral SegInt SegIntSpec IntParts Indep IndepSpec AtomFacts AtomFacts2 AtomFacts3 ConvolFacts IntegralFacts SegIntFacts CumintFacts SubstFacts ExtrFacts ExtrFacts2.
Import List ListNotations.
Open Scope R_scope.

Lemma loc_lt (x : R) (y : Rbar) : Rbar_lt x y -> locally x (fun t : R => Rbar_lt t y).
Proof. intros H. apply (open_Rbar_lt y x). auto. Qed.
Lemma loc_gt (x : R) (y : Rbar) : Rbar_lt y x -> locally x (fun t : R => Rbar_lt y t).
Proof. intros H. apply (open_Rbar_gt y x). auto. Qed.
Lemma derive_loc_const (f : R -> R) (c x : R) : locally x (fun t => f t = c) -> is_derive f x 0.
Proof.
  intros H. apply (is_derive_ext_loc (fun _ => c)); [|apply (is_derive_const (V := R_NormedModule))].
  eapply filter_imp; [|exact H]. simpl. auto.
Qed.
Lemma mass_upto_derive s (x : R) : wf_seg s -> integrable_piece s -> not_end s x ->
  (isDirac s = false -> inside s x -> continuous (sf s) x) -> is_derive (mass_upto s) x (dens1 s x).
Proof.
  intros W HI (N1 & N2) C. destruct (isDirac s) eqn:D.
  - destruct s as [| | | |a m|]; try discriminate. rewrite dens1_dirac by auto. simpl in N1.
    assert (a <> x) by congruence. apply (derive_loc_const _ (if Rle_dec a x then m else 0)). simpl.
    destruct (Rle_dec a x) as [L|L].
    + eapply filter_imp; [|apply (loc_gt x a); simpl; lra]. simpl. intros t Ht. destruct (Rle_dec a t); lra.
    + eapply filter_imp; [|apply (loc_lt x a); simpl; lra]. simpl. intros t Ht. destruct (Rle_dec a t); lra.
  - pose proof (wf_le s W) as WL.
    assert (U : forall t, mass_upto s t = Q (sf s) (sa s) (clamp s t)).
    { intros t. rewrite mass_upto_cpart by auto. destruct s; try discriminate; reflexivity. }
    destruct (Rbar_lt_dec (sa s) x) as [A|A].
    + destruct (Rbar_lt_dec x (sb s)) as [B|B].
      * rewrite dens1_in by auto. pose proof (integrable_piece_int s D HI) as HI'. destruct (integrable_prim _ _ _ HI') as (G & PG).
        assert (DG : is_derive (fun t => G (Finite t)) x (sf s x)).
        { apply (prim_derive (sf s) (sa s) (sb s) G x PG); [split; auto|apply C; [auto|split; auto]]. }
        apply (is_derive_ext_loc (fun t => G (Finite t) - G (sa s))).
        -- assert (L : locally x (fun t : R => Rbar_lt (sa s) t /\ Rbar_lt t (sb s))) by (apply filter_and; [apply loc_gt|apply loc_lt]; auto).
           eapply filter_imp; [|exact L]. simpl. intros t (T1 & T2). rewrite U.
           rewrite clamp_id by auto using Rbar_lt_le. rewrite (prim_Q (sf s) (sa s) (sb s) G); auto using Rbar_le_refl, Rbar_lt_le.
        -- replace (sf s x) with (minus (sf s x) 0) by (unfold minus, plus, opp; simpl; ring).
           apply (is_derive_minus (V := R_NormedModule)); auto. apply (is_derive_const (V := R_NormedModule)).
      * assert (B' : Rbar_lt (sb s) x). { apply Rbar_not_lt in B. apply Rbar_le_lt_or_eq_dec in B. destruct B as [B|B]; auto. congruence. }
        rewrite dens1_out by tauto. apply (derive_loc_const _ (mass s)). eapply filter_imp; [|apply (loc_gt x _ B')]. simpl.
        intros t Ht. rewrite U, clamp_high by auto using Rbar_lt_le. symmetry. apply mass_Q; auto.
    + assert (A' : Rbar_lt x (sa s)). { apply Rbar_not_lt in A. apply Rbar_le_lt_or_eq_dec in A. destruct A as [A|A]; auto. congruence. }
      rewrite dens1_out by tauto. apply (derive_loc_const _ 0). eapply filter_imp; [|apply (loc_lt x _ A')]. simpl.
      intros t Ht. rewrite U, clamp_low by auto using Rbar_lt_le. unfold Q. rewrite beq_refl. auto.
Qed.
Lemma cdf_derive l (x : R) : Forall wf_seg l -> Forall integrable_piece l -> ~ is_end l x -> cont_at l x ->
  is_derive (cdf_spec l) x (dens l x).
Proof.
  intros W HI N C. rewrite dens_sum. unfold cdf_spec. induction l as [|s l IH].
  - simpl. apply (is_derive_const (V := R_NormedModule)).
  - inversion W; inversion HI; subst. cbn [map]. rewrite sumR_cons.
    apply (is_derive_ext (fun t => mass_upto s t + sumR (map (fun s0 => mass_upto s0 t) l))).
    { intros t. rewrite sumR_cons. auto. }
    apply (is_derive_plus (V := R_NormedModule)).
    + apply mass_upto_derive; auto.
      * split; intros E; apply N; exists s; simpl; auto.
      * intros D I. apply C; simpl; auto.
    + apply IH; auto.
      * intros (t & Ht & E). apply N. exists t. simpl. auto.
      * intros t Ht. apply C. simpl. auto.
Qed.
