(** Change of variables for ideal quadrature over extended intervals. *)
From Coq Require Import Reals Lra List Bool.
From Coquelicot Require Import Coquelicot.
From Verif Require Import Base Integral IntegralFacts.
Import List ListNotations.
Open Scope R_scope.

Lemma at_r_iff a (P : R -> Prop) : a <> p_infty ->
  (at_r a P <-> exists b : R, Rbar_lt a b /\ forall x : R, Rbar_lt a x -> x < b -> P x).
Proof.
  destruct a as [a| |]; simpl; intros N; [|congruence|].
  - split.
    + intros (d & D). exists (a + d). split; [pose proof (cond_pos d); lra|]. intros x X1 X2. apply D; auto.
      unfold ball; simpl; unfold AbsRing_ball, abs, minus, plus, opp; simpl. apply Rabs_def1; lra.
    + intros (b & B & H). exists (mkposreal (b - a) (Rlt_Rminus _ _ B)). intros y Hy Hay. simpl in Hy.
      unfold ball in Hy; simpl in Hy; unfold AbsRing_ball, abs, minus, plus, opp in Hy; simpl in Hy.
      apply Rabs_def2 in Hy. apply H; auto; lra.
  - split.
    + intros (M & H). exists M. auto.
    + intros (b & _ & H). exists b. auto.
Qed.
Lemma at_l_iff b (P : R -> Prop) : b <> m_infty ->
  (at_l b P <-> exists a : R, Rbar_lt a b /\ forall x : R, a < x -> Rbar_lt x b -> P x).
Proof.
  destruct b as [b| |]; simpl; intros N; [| |congruence].
  - split.
    + intros (d & D). exists (b - d). split; [pose proof (cond_pos d); lra|]. intros x X1 X2. apply D; auto.
      unfold ball; simpl; unfold AbsRing_ball, abs, minus, plus, opp; simpl. apply Rabs_def1; lra.
    + intros (a & B & H). exists (mkposreal (b - a) (Rlt_Rminus _ _ B)). intros y Hy Hay. simpl in Hy.
      unfold ball in Hy; simpl in Hy; unfold AbsRing_ball, abs, minus, plus, opp in Hy; simpl in Hy.
      apply Rabs_def2 in Hy. apply H; auto; lra.
  - split.
    + intros (M & H). exists M. auto.
    + intros (a & _ & H). exists a. auto.
Qed.
Lemma lt_not_p a b : Rbar_lt a b -> a <> p_infty.
Proof. intros H ->. destruct b; auto. Qed.
Lemma lt_not_m a b : Rbar_lt a b -> b <> m_infty.
Proof. intros H ->. destruct a; auto. Qed.

Lemma between_min a (x : R) b : Rbar_lt a x -> Rbar_lt a b -> exists c : R, Rbar_lt a c /\ c <= x /\ Rbar_lt c b.
Proof.
  intros H1 H2. destruct (Rbar_le_dec x b) as [L|L].
  - destruct (Rbar_between a x H1) as (c & C1 & C2). exists c. splits; auto; [simpl in C2; lra|].
    apply (Rbar_lt_le_trans _ x); auto.
  - apply Rbar_not_le in L. destruct (Rbar_between a b H2) as (c & C1 & C2). exists c. splits; auto.
    apply Rlt_le. apply (Rbar_lt_trans c b x); auto.
Qed.
Lemma between_max a (x : R) b : Rbar_lt x b -> Rbar_lt a b -> exists c : R, Rbar_lt c b /\ x <= c /\ Rbar_lt a c.
Proof.
  intros H1 H2. destruct (Rbar_le_dec a x) as [L|L].
  - destruct (Rbar_between x b H1) as (c & C1 & C2). exists c. splits; auto; [simpl in C1; lra|].
    apply (Rbar_le_lt_trans _ x); auto.
  - apply Rbar_not_le in L. destruct (Rbar_between a b H2) as (c & C1 & C2). exists c. splits; auto.
    apply Rlt_le. apply (Rbar_lt_trans x a c); auto.
Qed.

(** [phi] maps the open interval (c,d) onto (a,b), strictly increasing / decreasing *)
Definition inc_onto (phi : R -> R) (c d a b : Rbar) : Prop :=
  Rbar_lt c d /\ Rbar_lt a b /\ (forall y, RbarIn c d y -> RbarIn a b (phi y)) /\
  (forall y z, RbarIn c d y -> RbarIn c d z -> y < z -> phi y < phi z) /\
  (forall x, RbarIn a b x -> exists y, RbarIn c d y /\ phi y = x).
Definition dec_onto (phi : R -> R) (c d a b : Rbar) : Prop :=
  Rbar_lt c d /\ Rbar_lt a b /\ (forall y, RbarIn c d y -> RbarIn a b (phi y)) /\
  (forall y z, RbarIn c d y -> RbarIn c d z -> y < z -> phi z < phi y) /\
  (forall x, RbarIn a b x -> exists y, RbarIn c d y /\ phi y = x).

Lemma inc_lim_r phi c d a b : inc_onto phi c d a b -> filterlim phi (at_r c) (at_r a).
Proof.
  intros (CD & AB & M & I & O) P HP. apply at_r_iff in HP; [|eapply lt_not_p; eauto].
  destruct HP as (x0 & X0 & HP).
  destruct (between_min a x0 b X0 AB) as (x1 & X1 & X3).
  destruct (O x1) as (y1 & Y1 & E); [split; tauto|].
  apply at_r_iff; [eapply lt_not_p; eauto|]. exists y1. split; [apply Y1|]. intros y Hy1 Hy2.
  assert (Y : RbarIn c d y). { split; auto. apply (Rbar_lt_trans _ y1); [simpl; lra|apply Y1]. }
  apply HP; [apply M; auto|]. pose proof (I y y1 Y Y1 Hy2). lra.
Qed.
Lemma inc_lim_l phi c d a b : inc_onto phi c d a b -> filterlim phi (at_l d) (at_l b).
Proof.
  intros (CD & AB & M & I & O) P HP. apply at_l_iff in HP; [|eapply lt_not_m; eauto].
  destruct HP as (x0 & X0 & HP).
  destruct (between_max a x0 b X0 AB) as (x1 & X1 & X3).
  destruct (O x1) as (y1 & Y1 & E); [split; tauto|].
  apply at_l_iff; [eapply lt_not_m; eauto|]. exists y1. split; [apply Y1|]. intros y Hy1 Hy2.
  assert (Y : RbarIn c d y). { split; auto. apply (Rbar_lt_trans _ y1); [apply Y1|simpl; lra]. }
  apply HP; [|apply M; auto]. pose proof (I y1 y Y1 Y Hy1). lra.
Qed.
Lemma dec_lim_r phi c d a b : dec_onto phi c d a b -> filterlim phi (at_r c) (at_l b).
Proof.
  intros (CD & AB & M & I & O) P HP. apply at_l_iff in HP; [|eapply lt_not_m; eauto].
  destruct HP as (x0 & X0 & HP).
  destruct (between_max a x0 b X0 AB) as (x1 & X1 & X3).
  destruct (O x1) as (y1 & Y1 & E); [split; tauto|].
  apply at_r_iff; [eapply lt_not_p; eauto|]. exists y1. split; [apply Y1|]. intros y Hy1 Hy2.
  assert (Y : RbarIn c d y). { split; auto. apply (Rbar_lt_trans _ y1); [simpl; lra|apply Y1]. }
  apply HP; [|apply M; auto]. pose proof (I y y1 Y Y1 Hy2). lra.
Qed.
Lemma dec_lim_l phi c d a b : dec_onto phi c d a b -> filterlim phi (at_l d) (at_r a).
Proof.
  intros (CD & AB & M & I & O) P HP. apply at_r_iff in HP; [|eapply lt_not_p; eauto].
  destruct HP as (x0 & X0 & HP).
  destruct (between_min a x0 b X0 AB) as (x1 & X1 & X3).
  destruct (O x1) as (y1 & Y1 & E); [split; tauto|].
  apply at_l_iff; [eapply lt_not_m; eauto|]. exists y1. split; [apply Y1|]. intros y Hy1 Hy2.
  assert (Y : RbarIn c d y). { split; auto. apply (Rbar_lt_trans _ y1); [apply Y1|simpl; lra]. }
  apply HP; [apply M; auto|]. pose proof (I y1 y Y1 Y Hy1). lra.
Qed.

(** a primitive is differentiable where the function is continuous *)
Lemma prim_derive f a b G (x : R) : prim f a b G -> RbarIn a b x -> continuous f x ->
  is_derive (fun t => G (Finite t)) x (f x).
Proof.
  intros (_ & H1 & _) X C.
  assert (D : is_derive (fun t => minus (G (Finite t)) (G x)) x (f x)).
  { apply (is_derive_RInt (V := R_NormedModule) f _ x x); auto.
    destruct X as (X1 & X2).
    assert (L : locally x (fun t : R => RbarIn a b t)).
    { apply (open_and (fun t : R => Rbar_lt a t) (fun t : R => Rbar_lt t b)); [apply open_Rbar_gt|apply open_Rbar_lt|split; auto]. }
    apply (filter_imp (fun t : R => RbarIn a b t)); auto.
    intros t T. apply H1; auto. split; auto. }
  apply (is_derive_ext (fun t => plus (minus (G (Finite t)) (G x)) (G x))).
  { intros t. unfold minus, plus, opp; simpl; ring. }
  replace (f x) with (plus (f x) 0) by (unfold plus; simpl; ring).
  apply (is_derive_plus (V := R_NormedModule)); auto. apply (is_derive_const (V := R_NormedModule)).
Qed.

Lemma derive_nonneg phi c d dphi y : RbarIn c d y ->
  (forall y z, RbarIn c d y -> RbarIn c d z -> y < z -> phi y < phi z) -> is_derive phi y dphi -> 0 <= dphi.
Proof.
  intros Y I D. apply is_derive_Reals in D. destruct (Rle_or_lt 0 dphi) as [|L]; auto. exfalso.
  destruct (D (- dphi / 2)) as (del & Hd); [lra|].
  destruct (between_min y (y + del / 2) d) as (z & Z1 & Z2); [simpl; pose proof (cond_pos del); lra|apply Y|].
  assert (Z3 : Rbar_lt z d /\ z < y + del) by (split; [tauto|pose proof (cond_pos del); lra]).
  simpl in Z1. specialize (Hd (z - y)). rewrite Rabs_right in Hd by lra.
  assert (H : Rabs ((phi (y + (z - y)) - phi y) / (z - y) - dphi) < - dphi / 2) by (apply Hd; lra).
  replace (y + (z - y)) with z in H by ring.
  assert (P : phi y < phi z). { apply I; auto. split; [apply (Rbar_lt_trans _ y); [apply Y|simpl; lra]|tauto]. }
  assert (0 < (phi z - phi y) / (z - y)) by (apply Rdiv_lt_0_compat; lra).
  apply Rabs_def2 in H. lra.
Qed.

(** substitution, increasing *)
Lemma subst_inc f a b G phi dphi c d : prim f a b G -> inc_onto phi c d a b ->
  (forall x : R, RbarIn a b x -> continuous f x) ->
  (forall y : R, RbarIn c d y -> is_derive phi y (dphi y) /\ continuous dphi y) ->
  integrable (fun y => f (phi y) * Rabs (dphi y)) c d /\
  Q (fun y => f (phi y) * Rabs (dphi y)) c d = G b - G a.
Proof.
  intros P IO C D. destruct (IO) as (CD & AB & M & I & O).
  assert (E : forall y : R, RbarIn c d y -> f (phi y) * dphi y = f (phi y) * Rabs (dphi y)).
  { intros y Y. f_equal. symmetry. apply Rabs_right, Rle_ge. apply (derive_nonneg phi c d _ y); auto. apply D; auto. }
  destruct (ftc (fun y => f (phi y) * dphi y) (fun y => G (Finite (phi y))) c d (G a) (G b)) as (A & B); auto.
  - intros y Y. replace (f (phi y) * dphi y) with (scal (dphi y) (f (phi y))) by (unfold scal; simpl; unfold mult; simpl; ring).
    apply (is_derive_comp (V := R_NormedModule) (fun t : R => G (Finite t)) phi); [|apply D; auto].
    apply (prim_derive f a b); auto.
  - intros y Y. apply (continuous_mult (K := R_AbsRing) (fun y => f (phi y)) dphi); [|apply D; auto].
    apply (continuous_comp phi f); [|apply C; auto]. apply (ex_derive_continuous (V := R_NormedModule)).
    exists (dphi y). apply D; auto.
  - eapply (filterlim_comp _ _ _ phi (fun t => G (Finite t))); [apply (inc_lim_r phi c d a b IO)|].
    apply P; auto. apply Rbar_le_refl.
  - eapply (filterlim_comp _ _ _ phi (fun t => G (Finite t))); [apply (inc_lim_l phi c d a b IO)|].
    apply P; auto. apply Rbar_le_refl.
  - split; [exact (integrable_ext _ _ c d E A)|]. rewrite <- B. symmetry. apply Q_ext; auto.
Qed.

(** substitution, decreasing *)
Lemma subst_dec f a b G phi dphi c d : prim f a b G -> dec_onto phi c d a b ->
  (forall x : R, RbarIn a b x -> continuous f x) ->
  (forall y : R, RbarIn c d y -> is_derive phi y (dphi y) /\ continuous dphi y) ->
  integrable (fun y => f (phi y) * Rabs (dphi y)) c d /\
  Q (fun y => f (phi y) * Rabs (dphi y)) c d = G b - G a.
Proof.
  intros P IO C D. destruct (IO) as (CD & AB & M & I & O).
  assert (E : forall y : R, RbarIn c d y -> - (f (phi y) * dphi y) = f (phi y) * Rabs (dphi y)).
  { intros y Y. assert (0 <= - dphi y).
    { apply (derive_nonneg (fun y => - phi y) c d _ y); auto.
      - intros u v U V UV. pose proof (I u v U V UV). lra.
      - apply (is_derive_opp (V := R_NormedModule)). apply D; auto. }
    rewrite Rabs_left1 by lra. ring. }
  destruct (ftc (fun y => - (f (phi y) * dphi y)) (fun y => - G (Finite (phi y))) c d (- G b) (- G a)) as (A & B); auto.
  - intros y Y. apply (is_derive_opp (V := R_NormedModule) (fun y => G (Finite (phi y)))).
    replace (f (phi y) * dphi y) with (scal (dphi y) (f (phi y))) by (unfold scal; simpl; unfold mult; simpl; ring).
    apply (is_derive_comp (V := R_NormedModule) (fun t : R => G (Finite t)) phi); [|apply D; auto].
    apply (prim_derive f a b); auto.
  - intros y Y. apply (continuous_opp (K := R_AbsRing) (V := R_NormedModule) (fun y => f (phi y) * dphi y)).
    apply (continuous_mult (K := R_AbsRing) (fun y => f (phi y)) dphi); [|apply D; auto].
    apply (continuous_comp phi f); [|apply C; auto]. apply (ex_derive_continuous (V := R_NormedModule)).
    exists (dphi y). apply D; auto.
  - apply (filterlim_comp _ _ _ (fun y => G (Finite (phi y))) Ropp _ (locally (G b))); [|apply (filterlim_opp (V := R_NormedModule))].
    eapply (filterlim_comp _ _ _ phi (fun t => G (Finite t))); [apply (dec_lim_r phi c d a b IO)|].
    apply P; auto. apply Rbar_le_refl.
  - apply (filterlim_comp _ _ _ (fun y => G (Finite (phi y))) Ropp _ (locally (G a))); [|apply (filterlim_opp (V := R_NormedModule))].
    eapply (filterlim_comp _ _ _ phi (fun t => G (Finite t))); [apply (dec_lim_l phi c d a b IO)|].
    apply P; auto. apply Rbar_le_refl.
  - split; [exact (integrable_ext _ _ c d E A)|]. replace (G b - G a) with (- G a - - G b) by ring. rewrite <- B. symmetry. apply Q_ext; auto.
Qed.

(** substitution by a linear map needs no continuity *)
Lemma subst_lin f a b G k t c d : prim f a b G -> k <> 0 ->
  (0 < k /\ inc_onto (fun y => k * y + t) c d a b \/ k < 0 /\ dec_onto (fun y => k * y + t) c d a b) ->
  integrable (fun y => Rabs k * f (k * y + t)) c d /\
  Q (fun y => Rabs k * f (k * y + t)) c d = G b - G a.
Proof.
  intros P K H.
  assert (CD : Rbar_lt c d) by (destruct H as [(_ & H)|(_ & H)]; apply H).
  assert (M : forall y, RbarIn c d y -> RbarIn a b (k * y + t)) by (destruct H as [(_ & H)|(_ & H)]; apply H).
  assert (J : forall s F1 F2, (s * k = Rabs k) ->
     filterlim (fun y => s * G (Finite (k * y + t))) (at_r c) (locally F1) ->
     filterlim (fun y => s * G (Finite (k * y + t))) (at_l d) (locally F2) ->
     is_RInt_gen (fun y => Rabs k * f (k * y + t)) (at_r c) (at_l d) (F2 - F1)).
  { intros s F1 F2 Hs L1 L2.
    apply (is_RInt_gen_lim _ (at_r c) (at_l d) (fun y => s * G (Finite (k * y + t))) F1 F2); auto.
    apply (prod_imp c d); auto. intros u v U UV V. cbn [fst snd].
    assert (IU : RbarIn c d u) by (split; auto; apply (Rbar_lt_trans _ v); auto).
    assert (IV : RbarIn c d v) by (split; auto; apply (Rbar_lt_trans _ u); auto).
    pose proof (proj1 (proj2 P) _ _ (M u IU) (M v IV)) as R1.
    apply (is_RInt_comp_lin (V := R_NormedModule)) in R1.
    apply (is_RInt_scal (V := R_NormedModule) _ u v s) in R1.
    replace (s * G (Finite (k * v + t)) - s * G (Finite (k * u + t))) with (scal s (G (Finite (k * v + t)) - G (Finite (k * u + t)))) by (unfold scal; simpl; unfold mult; simpl; ring).
    apply (is_RInt_ext (V := R_NormedModule) (fun y => scal s (scal k (f (k * y + t))))); auto.
    intros x _. unfold scal; simpl; unfold mult; simpl. rewrite <- Hs. ring. }
  assert (EX : forall u v : R, Rbar_lt c u -> u < v -> Rbar_lt v d -> ex_RInt (fun y => Rabs k * f (k * y + t)) u v).
  { intros u v U UV V.
    assert (IU : RbarIn c d u) by (split; auto; apply (Rbar_lt_trans _ v); auto).
    assert (IV : RbarIn c d v) by (split; auto; apply (Rbar_lt_trans _ u); auto).
    pose proof (proj1 (proj2 P) _ _ (M u IU) (M v IV)) as R1.
    apply (is_RInt_comp_lin (V := R_NormedModule)) in R1.
    apply (is_RInt_scal (V := R_NormedModule) _ u v (Rabs k / k)) in R1.
    eexists. apply (is_RInt_ext (V := R_NormedModule) (fun y => scal (Rabs k / k) (scal k (f (k * y + t))))); eauto.
    intros x _. unfold scal; simpl; unfold mult; simpl. field. auto. }
  assert (W : forall s l F, filterlim (fun y => G (Finite (k * y + t))) F (locally l) -> filterlim (fun y => s * G (Finite (k * y + t))) F (locally (s * l))).
  { intros s l F HF. apply (filterlim_comp _ _ _ (fun y => G (Finite (k * y + t))) (fun z => s * z) _ (locally l)); auto.
    apply (filterlim_scal_r (K := R_AbsRing) (V := R_NormedModule) s l). }
  assert (R1 : is_RInt_gen (fun y => Rabs k * f (k * y + t)) (at_r c) (at_l d) (G b - G a)).
  { destruct H as [(K1 & IO)|(K1 & IO)]; destruct (IO) as (_ & AB & _).
    - replace (G b - G a) with (1 * G b - 1 * G a) by ring. apply (J 1); [rewrite Rabs_right; lra| |]; apply W.
      + eapply (filterlim_comp _ _ _ (fun y => k * y + t) (fun t => G (Finite t))); [apply (inc_lim_r _ c d a b IO)|].
        apply P; auto. apply Rbar_le_refl.
      + eapply (filterlim_comp _ _ _ (fun y => k * y + t) (fun t => G (Finite t))); [apply (inc_lim_l _ c d a b IO)|].
        apply P; auto. apply Rbar_le_refl.
    - replace (G b - G a) with (-1 * G a - -1 * G b) by ring. apply (J (-1)); [rewrite Rabs_left; lra| |]; apply W.
      + eapply (filterlim_comp _ _ _ (fun y => k * y + t) (fun t => G (Finite t))); [apply (dec_lim_r _ c d a b IO)|].
        apply P; auto. apply Rbar_le_refl.
      + eapply (filterlim_comp _ _ _ (fun y => k * y + t) (fun t => G (Finite t))); [apply (dec_lim_l _ c d a b IO)|].
        apply P; auto. apply Rbar_le_refl. }
  split.
  - split; auto. split; auto. eexists; eauto.
  - apply Q_is; auto.
Qed.
