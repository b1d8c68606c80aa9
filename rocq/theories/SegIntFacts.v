(** Facts about integration of pieces. *)
From Coq Require Import Reals Lra List Bool.
From Coquelicot Require Import Coquelicot.
From Verif Require Import Base Bisect Seg Piecewise PiecewiseSpec Integral IntegralFacts SegInt SegIntSpec.
Import List ListNotations.
Open Scope R_scope.

Definition clamp (s : segment) (u : Rbar) : Rbar :=
  if blt u (sa s) then sa s else if blt (sb s) u then sb s else u.

Lemma prim_zero (f : R -> R) a b : Rbar_lt a b -> (forall x : R, RbarIn a b x -> f x = 0) -> prim f a b (fun _ => 0).
Proof.
  intros H E. split; auto. splits.
  - intros u v (U1 & U2) (V1 & V2). rewrite Rminus_0_r.
    apply (is_RInt_ext (fun _ => 0)); [|apply is_RInt_zero].
    intros x (X1 & X2). symmetry. apply E. split.
    + destruct (Rle_dec u v).
      * rewrite Rmin_left in X1 by lra. apply (Rbar_lt_trans _ u); auto.
      * rewrite Rmin_right in X1 by lra. apply (Rbar_lt_trans _ v); auto.
    + destruct (Rle_dec u v).
      * rewrite Rmax_right in X2 by lra. apply (Rbar_lt_trans _ v); auto.
      * rewrite Rmax_left in X2 by lra. apply (Rbar_lt_trans _ u); auto.
  - intros. apply filterlim_const.
  - intros. apply filterlim_const.
Qed.

Lemma Q_zero f a b : Rbar_lt a b -> (forall x : R, RbarIn a b x -> f x = 0) -> Q f a b = 0.
Proof.
  intros H E. rewrite (prim_Q f a b (fun _ => 0)); auto using Rbar_le_refl, Rbar_lt_le, prim_zero. ring.
Qed.

Lemma seg_call_in s (x : R) : isDirac s = false -> RbarIn (sa s) (sb s) x -> seg_call s x = sf s x.
Proof.
  intros D (X1 & X2). assert (E : (ble (sa s) x && ble x (sb s))%bool = true).
  { apply andb_true_intro; split; apply ble_true, Rbar_lt_le; auto. }
  destruct s; try discriminate; unfold seg_call; rewrite E; auto.
Qed.
Lemma seg_call_out s (x : R) : isDirac s = false -> Rbar_lt x (sa s) \/ Rbar_lt (sb s) x -> seg_call s x = 0.
Proof.
  intros D X. assert (E : (ble (sa s) x && ble x (sb s))%bool = false).
  { apply andb_false_iff. destruct X; [left|right]; apply ble_false; auto. }
  destruct s; try discriminate; unfold seg_call; rewrite E; auto.
Qed.

(** the integral of the closed-interval call over the clipped interval *)
Lemma Q_call s u v : isDirac s = false -> Rbar_lt (sa s) (sb s) -> Rbar_le u v ->
  Q (seg_call s) (clip_lo s u) (clip_hi s v) = Q (sf s) (clamp s u) (clamp s v).
Proof.
  intros D W UV. unfold clip_lo, clip_hi, clamp.
  assert (IN : forall x y, Rbar_le (sa s) x -> Rbar_lt x y -> Rbar_le y (sb s) -> Q (seg_call s) x y = Q (sf s) x y).
  { intros x y X XY Y. apply Q_ext; auto. intros z (Z1 & Z2). apply seg_call_in; auto. split.
    - apply (Rbar_le_lt_trans _ x); auto.
    - apply (Rbar_lt_le_trans _ y); auto. }
  assert (IN' : forall x y, Rbar_le (sa s) x -> Rbar_le x y -> Rbar_le y (sb s) -> Q (seg_call s) x y = Q (sf s) x y).
  { intros x y X XY Y. destruct (Rbar_le_lt_or_eq_dec _ _ XY) as [L| ->]; auto. rewrite !Q_refl; auto. }
  destruct (bltP u (sa s)) as [U1|U1].
  - destruct (bltP (sb s) v) as [V1|V1].
    + destruct (bltP v (sa s)) as [V2|V2].
      * exfalso. apply (Rbar_lt_irrefl (sa s)). apply (Rbar_lt_trans _ (sb s)); auto. apply (Rbar_lt_trans _ v); auto.
      * apply IN; auto using Rbar_le_refl.
    + destruct (bltP v (sa s)) as [V2|V2].
      * rewrite Q_refl. rewrite Q_swap. rewrite Q_zero; auto; [ring|].
        intros x (X1 & X2). apply seg_call_out; auto.
      * apply Rbar_not_lt in V1, V2. apply IN'; auto using Rbar_le_refl.
  - apply Rbar_not_lt in U1.
    destruct (bltP (sb s) v) as [V1|V1].
    + destruct (bltP v (sa s)) as [V2|V2].
      { exfalso. apply (Rbar_lt_irrefl (sa s)). apply (Rbar_lt_trans _ (sb s)); auto. apply (Rbar_lt_trans _ v); auto. }
      destruct (bltP (sb s) u) as [U2|U2].
      * rewrite Q_refl. rewrite Q_swap. rewrite Q_zero; auto; [ring|].
        intros x (X1 & X2). apply seg_call_out; auto.
      * apply Rbar_not_lt in U2. apply IN'; auto using Rbar_le_refl.
    + apply Rbar_not_lt in V1.
      destruct (bltP v (sa s)) as [V2|V2].
      { exfalso. apply (Rbar_lt_irrefl (sa s)). apply (Rbar_le_lt_trans _ u); auto. apply (Rbar_le_lt_trans _ v); auto. }
      destruct (bltP (sb s) u) as [U2|U2].
      { exfalso. apply (Rbar_lt_irrefl (sb s)). apply (Rbar_lt_le_trans _ u); auto. apply (Rbar_le_trans _ v); auto. }
      apply IN'; auto.
Qed.

Lemma clamp_in s u : Rbar_le (sa s) (sb s) -> Rbar_le (sa s) (clamp s u) /\ Rbar_le (clamp s u) (sb s).
Proof.
  intros W. unfold clamp. destruct (bltP u (sa s)) as [U1|U1]; [split; auto using Rbar_le_refl|].
  apply Rbar_not_lt in U1. destruct (bltP (sb s) u) as [U2|U2]; [split; auto using Rbar_le_refl|].
  apply Rbar_not_lt in U2. auto.
Qed.

Lemma clamp_mono s u v : Rbar_le (sa s) (sb s) -> Rbar_le u v -> Rbar_le (clamp s u) (clamp s v).
Proof.
  intros W UV. unfold clamp. destruct (bltP u (sa s)) as [U1|U1].
  - apply clamp_in; auto.
  - apply Rbar_not_lt in U1. destruct (bltP v (sa s)) as [V1|V1].
    + exfalso. apply (Rbar_lt_irrefl v). apply (Rbar_lt_le_trans _ (sa s)); auto. apply (Rbar_le_trans _ u); auto.
    + destruct (bltP (sb s) u) as [U2|U2].
      * destruct (bltP (sb s) v) as [V2|V2]; [apply Rbar_le_refl|].
        destruct V2. apply (Rbar_lt_le_trans _ u); auto.
      * destruct (bltP (sb s) v) as [V2|V2]; auto. apply Rbar_not_lt; auto.
Qed.

Lemma clamp_id s u : Rbar_le (sa s) u -> Rbar_le u (sb s) -> clamp s u = u.
Proof.
  intros H1 H2. unfold clamp. destruct (bltP u (sa s)) as [U1|U1]; [destruct (Rbar_lt_irrefl u); apply (Rbar_lt_le_trans _ (sa s)); auto|].
  destruct (bltP (sb s) u) as [U2|U2]; [destruct (Rbar_lt_irrefl u); apply (Rbar_le_lt_trans _ (sb s)); auto|]. auto.
Qed.
Lemma clamp_low s u : Rbar_le u (sa s) -> Rbar_le (sa s) (sb s) -> clamp s u = sa s.
Proof.
  intros H1 H2. unfold clamp. destruct (bltP u (sa s)) as [U1|U1]; auto.
  apply Rbar_not_lt in U1. assert (u = sa s) as -> by (apply Rbar_le_antisym; auto).
  destruct (bltP (sb s) (sa s)) as [U2|U2]; auto. apply Rbar_le_antisym; auto. apply Rbar_lt_le; auto.
Qed.
Lemma clamp_high s u : Rbar_le (sb s) u -> Rbar_le (sa s) (sb s) -> clamp s u = sb s.
Proof.
  intros H1 H2. unfold clamp. destruct (bltP u (sa s)) as [U1|U1].
  - exfalso. apply (Rbar_lt_irrefl (sb s)). apply (Rbar_le_lt_trans _ u); auto. apply (Rbar_lt_le_trans _ (sa s)); auto.
  - destruct (bltP (sb s) u) as [U2|U2]; auto. apply Rbar_not_lt in U2. apply Rbar_le_antisym; auto.
Qed.

Lemma integrable_piece_int s : isDirac s = false -> integrable_piece s -> integrable (sf s) (sa s) (sb s).
Proof. intros D H. destruct s as [a b f|a b c|b f|a f|a m|a b f [|]]; try discriminate; simpl in *; tauto. Qed.


Lemma Q_call_glue (a b : R) f l (v : Rbar) : a < b -> integrable f a b ->
  (forall c, a < c -> c < b -> ex_RInt f a c) -> Rbar_lt v a ->
  Q (seg_call (PoleSeg a b f l)) v b = Q f a b.
Proof.
  intros W HI HR L. set (s := PoleSeg a b f l).
  destruct (integrable_prim _ _ _ HI) as (G & P).
  pose (G0 := fun x => if Rle_dec x a then G a else G x).
  rewrite (prim_Q f a b G); auto using Rbar_le_refl; try (simpl; lra).
  apply Q_is; [apply (Rbar_lt_trans _ a); auto|].
  apply (is_RInt_gen_lim (seg_call s) (at_r v) (at_l b) G0).
  - apply (Filter_prod _ _ _ (fun x : R => Rbar_lt v x /\ Rbar_lt x a) (fun x : R => Rbar_lt a x /\ Rbar_lt x b)).
    + apply at_r_between; auto.
    + apply (at_l_between a b); auto.
    + simpl. intros x y (H1 & H2) (H3 & H4). unfold G0. destruct (Rle_dec y a); [lra|]. destruct (Rle_dec x a); [|lra].
      replace (G y - G a) with (plus 0 (G y - G a)) by (unfold plus; simpl; ring).
      apply (is_RInt_Chasles (V := R_NormedModule) (seg_call s) x a y).
      * apply (is_RInt_ext (fun _ => 0)); [|apply is_RInt_zero].
        intros z (Z1 & Z2). rewrite Rmax_right in Z2 by lra. symmetry. apply seg_call_out; auto.
      * apply (is_RInt_ext f).
        -- intros z (Z1 & Z2). rewrite Rmin_left in Z1 by lra. rewrite Rmax_right in Z2 by lra.
           symmetry. apply (seg_call_in s); auto. split; simpl; lra.
        -- destruct (proper_int f a y H3 (HR y H3 H4)) as (_ & E).
           rewrite (prim_Q f a b G) in E; auto; try (simpl; lra). rewrite E. apply RIc; auto.
  - apply (filterlim_ext_loc (fun _ => G a)); [|apply filterlim_const].
    eapply filter_imp; [|apply (at_r_between v a L)]. intros x (X1 & X2). simpl in X2. unfold G0.
    destruct (Rle_dec x a); [auto|lra].
  - apply (filterlim_ext_loc (fun t => G (Finite t))).
    + eapply filter_imp; [|apply (at_l_between a b W)]. intros x (X1 & X2). simpl in X1. unfold G0.
      destruct (Rle_dec x a); [lra|auto].
    + apply P; simpl; auto using Rle_refl.
Qed.

Lemma seg_integrate_clamp s u v : isDirac s = false -> isConst s = false -> wf_seg s ->
  integrable_piece s -> Rbar_le u v ->
  seg_integrate s u v = Q (sf s) (clamp s u) (clamp s v).
Proof.
  intros D C W HP UV. assert (HI : integrable (sf s) (sa s) (sb s)) by (apply integrable_piece_int; auto).
  assert (W' : Rbar_lt (sa s) (sb s)) by (destruct s; auto; discriminate).
  destruct s as [a b f|a b c|b f|a f|a m|a b f l]; try discriminate.
  - unfold seg_integrate. apply Q_call; auto.
  - unfold seg_integrate, clamp, clip_hi. cbn [sa sb sf]; cbv zeta.
    assert (MI : forall z, blt z m_infty = false) by (intros z; apply blt_false; destruct z; simpl; auto).
    destruct (beqP u m_infty) as [E|N].
    + subst u. rewrite !MI. auto.
    + rewrite !MI.
      destruct (bltP b v) as [V|V].
      * destruct (bltP u b) as [U|U].
        -- rewrite (proj2 (blt_false b u)); auto. apply Rbar_lt_le; auto.
        -- destruct (bltP b u) as [U'|U']; [rewrite Q_refl; auto|].
           apply Rbar_not_lt in U, U'. assert (u = b) as -> by (apply Rbar_le_antisym; auto). rewrite Q_refl; auto.
      * apply Rbar_not_lt in V. destruct (bltP u v) as [U|U].
        -- rewrite (proj2 (blt_false b u)); auto. apply (Rbar_le_trans _ v); auto.
        -- apply Rbar_not_lt in U. assert (u = v) as -> by (apply Rbar_le_antisym; auto).
           rewrite (proj2 (blt_false b v)); auto. rewrite Q_refl; auto.
  - unfold seg_integrate, clamp, clip_lo. cbn [sa sb sf]; cbv zeta.
    assert (PI : forall z, blt p_infty z = false) by (intros z; apply blt_false; destruct z; simpl; auto).
    rewrite !PI.
    destruct (beqP v p_infty) as [->|N].
    + rewrite !PI. reflexivity.
    + destruct (bltP u a) as [U|U].
      * destruct (bltP a v) as [V|V].
        -- rewrite (proj2 (blt_false v a)); auto. apply Rbar_lt_le; auto.
        -- destruct (bltP v a) as [V'|V']; [rewrite Q_refl; auto|].
           apply Rbar_not_lt in V, V'. assert (v = a) as -> by (apply Rbar_le_antisym; auto). rewrite Q_refl; auto.
      * apply Rbar_not_lt in U. destruct (bltP u v) as [V|V].
        -- rewrite (proj2 (blt_false v a)); auto. apply (Rbar_le_trans _ u); auto.
        -- apply Rbar_not_lt in V. assert (u = v) as -> by (apply Rbar_le_antisym; auto).
           rewrite (proj2 (blt_false v a)); auto. rewrite Q_refl; auto.
  - unfold seg_integrate. set (s := PoleSeg a b f l) in *.
    destruct (beqP (clip_lo s u) (clip_hi s v)) as [E|N].
    + rewrite <- Q_call; auto. rewrite E, Q_refl. auto.
    + destruct l; cbn [negb andb].
      * destruct (beq (clip_lo s u) a); apply Q_call; auto.
      * destruct (beqP (clip_hi s v) b) as [E2|N2]; [apply Q_call; auto|].
        (* right pole, upper end inside *)
        assert (V : Rbar_le v b).
        { apply Rbar_not_lt. intros L. apply N2. unfold clip_hi. cbn [sb s].
          rewrite (proj2 (blt_true b v)); auto. }
        assert (EV : clip_hi s v = v) by (unfold clip_hi; cbn [sb s]; rewrite (proj2 (blt_false b v)); auto).
        rewrite EV.
        assert (UB : Rbar_le u b) by (apply (Rbar_le_trans _ v); auto).
        assert (Eb : clip_hi s b = b) by (unfold clip_hi; cbn [sb s]; rewrite (proj2 (blt_false b b)); auto using Rbar_le_refl).
        pose proof (Q_call s u b D W' UB) as Q1. rewrite Eb in Q1. rewrite Q1.
        assert (Q2 : Q (seg_call s) v b = Q (sf s) (clamp s v) b).
        { destruct (bltP v a) as [L|L].
          - assert (E0 : clamp s v = a) by (apply clamp_low; cbn [sa sb s]; apply Rbar_lt_le; auto).
            rewrite E0. apply Q_call_glue; auto. apply HP.
          - pose proof (Q_call s v b D W' V) as Q3. rewrite Eb in Q3.
            replace (clip_lo s v) with v in Q3; [|unfold clip_lo; cbn [sa s]; destruct (bltP v a); tauto].
            rewrite Q3. f_equal. apply clamp_id; cbn [sa sb s]; [apply Rbar_lt_le; auto|apply Rbar_le_refl]. }
        rewrite Q2.
        assert (EB : clamp s b = b) by (apply clamp_id; cbn [sa sb s]; [apply Rbar_lt_le; auto|apply Rbar_le_refl]).
        rewrite EB.
        destruct (clamp_in s u (Rbar_lt_le _ _ W')). destruct (clamp_in s v (Rbar_lt_le _ _ W')).
        pose proof (Q_chasles (sf s) a b (clamp s u) (clamp s v) b HI H H0 H1 H2 (Rbar_lt_le _ _ W') (Rbar_le_refl _)).
        lra.
Qed.
