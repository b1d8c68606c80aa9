(** Facts about ideal quadrature. *)
From Coq Require Import Reals Lra List Bool.
From Coquelicot Require Import Coquelicot.
From Verif Require Import Base Integral.
Import List ListNotations.
Open Scope R_scope.

Global Instance at_r_proper x : ProperFilter (at_r x).
Proof.
  destruct x; simpl; [apply at_right_proper_filter| |].
  - exact (Rbar_locally_filter p_infty).
  - exact (Rbar_locally_filter m_infty).
Qed.
Global Instance at_l_proper x : ProperFilter (at_l x).
Proof.
  destruct x; simpl; [apply at_left_proper_filter| |].
  - exact (Rbar_locally_filter p_infty).
  - exact (Rbar_locally_filter m_infty).
Qed.
Global Instance at_r_proper' x : ProperFilter' (at_r x).
Proof. apply Proper_StrongProper, at_r_proper. Qed.
Global Instance at_l_proper' x : ProperFilter' (at_l x).
Proof. apply Proper_StrongProper, at_l_proper. Qed.

Lemma at_r_between a b : Rbar_lt a b -> at_r a (fun x => Rbar_lt a x /\ Rbar_lt x b).
Proof.
  destruct a as [a| |]; destruct b as [b| |]; simpl; intros H; try tauto.
  - exists (mkposreal (b - a) (Rlt_Rminus _ _ H)). intros y Hy Hay. simpl in Hy.
    unfold ball in Hy; simpl in Hy; unfold AbsRing_ball, abs, minus, plus, opp in Hy; simpl in Hy.
    apply Rabs_def2 in Hy. lra.
  - exists (mkposreal 1 Rlt_0_1). intros y _ Hy. auto.
  - exists b. intros x Hx. auto.
  - exists 0. intros x Hx. auto.
Qed.

Lemma at_l_between a b : Rbar_lt a b -> at_l b (fun x => Rbar_lt a x /\ Rbar_lt x b).
Proof.
  destruct a as [a| |]; destruct b as [b| |]; simpl; intros H; try tauto.
  - exists (mkposreal (b - a) (Rlt_Rminus _ _ H)). intros y Hy Hay. simpl in Hy.
    unfold ball in Hy; simpl in Hy; unfold AbsRing_ball, abs, minus, plus, opp in Hy; simpl in Hy.
    apply Rabs_def2 in Hy. lra.
  - exists a. intros x Hx. auto.
  - exists (mkposreal 1 Rlt_0_1). intros y _ Hy. auto.
  - exists 0. intros x Hx. auto.
Qed.

(** a real point strictly between two extended reals *)
Lemma Rbar_between a b : Rbar_lt a b -> exists c : R, Rbar_lt a c /\ Rbar_lt c b.
Proof.
  intros H. destruct (filter_ex _ (at_r_between a b H)) as (c & Hc). eauto.
Qed.

Lemma prod_imp a b (P : R * R -> Prop) : Rbar_lt a b ->
  (forall u v : R, Rbar_lt a u -> u < v -> Rbar_lt v b -> P (u, v)) -> filter_prod (at_r a) (at_l b) P.
Proof.
  intros H HP. destruct (Rbar_between a b H) as (c & Hc1 & Hc2).
  apply (Filter_prod _ _ _ (fun x : R => Rbar_lt a x /\ Rbar_lt x c) (fun x : R => Rbar_lt c x /\ Rbar_lt x b)).
  - apply at_r_between; auto.
  - apply at_l_between; auto.
  - simpl. intros x y (H1 & H2) (H3 & H4). apply HP; auto. simpl in *; lra.
Qed.

Lemma filterlim_diff (G : R -> R) (Fa Fb : (R -> Prop) -> Prop) {FFa : Filter Fa} {FFb : Filter Fb} (la lb : R) :
  filterlim G Fa (locally la) -> filterlim G Fb (locally lb) ->
  filterlim (fun ab => G (snd ab) - G (fst ab)) (filter_prod Fa Fb) (locally (lb - la)).
Proof.
  intros Ha Hb.
  apply (filterlim_comp_2 (G := locally lb) (H := locally (- la)) (fun ab => G (snd ab)) (fun ab => - G (fst ab)) Rplus).
  - eapply filterlim_comp; [apply filterlim_snd|exact Hb].
  - apply (filterlim_comp _ _ _ (fun ab => G (fst ab)) Ropp _ (locally la)).
    + eapply filterlim_comp; [apply filterlim_fst|exact Ha].
    + apply (filterlim_opp (V := R_NormedModule) la).
  - apply (filterlim_plus (V := R_NormedModule) lb (- la)).
Qed.

Lemma is_RInt_gen_lim (f : R -> R) (Fa Fb : (R -> Prop) -> Prop) {FFa : Filter Fa} {FFb : Filter Fb} (G : R -> R) la lb :
  filter_prod Fa Fb (fun ab => is_RInt f (fst ab) (snd ab) (G (snd ab) - G (fst ab))) ->
  filterlim G Fa (locally la) -> filterlim G Fb (locally lb) ->
  is_RInt_gen f Fa Fb (lb - la).
Proof.
  intros H Ha Hb. unfold is_RInt_gen.
  apply (filterlimi_lim_ext_loc (fun ab => G (snd ab) - G (fst ab))); auto.
  apply filterlim_diff; auto.
Qed.

Lemma is_RInt_cst (a b k : R) : is_RInt (fun _ => k) a b (k * (b - a)).
Proof. rewrite Rmult_comm. exact (is_RInt_const (V := R_NormedModule) a b k). Qed.
Lemma is_RInt_zero (a b : R) : is_RInt (fun _ => 0) a b 0.
Proof. generalize (is_RInt_cst a b 0). rewrite Rmult_0_l. auto. Qed.

Lemma RIc (f : R -> R) (a b : R) : ex_RInt f a b -> is_RInt f a b (RInt f a b).
Proof. exact (RInt_correct (V := R_CompleteNormedModule) f a b). Qed.

(** inside the interval *)
Definition RbarIn (a b : Rbar) (x : R) : Prop := Rbar_lt a x /\ Rbar_lt x b.

Lemma ex_RInt_inside (f : R -> R) a b (u v : R) :
  (forall u v : R, Rbar_lt a u -> u < v -> Rbar_lt v b -> ex_RInt f u v) ->
  RbarIn a b u -> RbarIn a b v -> ex_RInt f u v.
Proof.
  intros H (U1 & U2) (V1 & V2). destruct (Rtotal_order u v) as [L|[->|L]].
  - apply H; auto.
  - apply ex_RInt_point.
  - apply ex_RInt_swap. apply H; auto.
Qed.

(** The primitive of an integrable function, defined up to the ends. *)
Lemma integrable_primitive f a b :
  integrable f a b ->
  exists G : Rbar -> R,
    (forall u v : R, RbarIn a b u -> RbarIn a b v -> is_RInt f u v (G v - G u)) /\
    (forall x, Rbar_lt a x -> Rbar_le x b -> filterlim (fun t => G (Finite t)) (at_l x) (locally (G x))) /\
    (forall x, Rbar_le a x -> Rbar_lt x b -> filterlim (fun t => G (Finite t)) (at_r x) (locally (G x))).
Proof.
  intros (Hab & Hloc & l & Hl).
  destruct (Rbar_between a b Hab) as (c & Hc).
  pose (H := (fun t : R => RInt f c t) : R -> R).
  assert (E : forall u v, RbarIn a b u -> RbarIn a b v -> is_RInt f u v (H v - H u)).
  { intros u v Hu Hv. unfold H.
    replace (RInt f c v - RInt f c u) with (plus (opp (RInt f c u)) (RInt f c v)).
    2:{ unfold plus, opp; simpl; ring. }
    apply (is_RInt_Chasles (V := R_NormedModule) f u c v).
    - apply (is_RInt_swap (V := R_NormedModule)). apply RIc. eapply ex_RInt_inside; eauto.
    - apply RIc. eapply ex_RInt_inside; eauto. }
  (* Cauchy at both ends *)
  assert (CL : exists lb : R, filterlim H (at_l b) (locally lb)).
  { apply (proj1 (filterlim_locally_cauchy H)). intros eps.
    assert (Heps : 0 < eps / 2) by (destruct eps; simpl; lra).
    unfold is_RInt_gen in Hl. rewrite filterlimi_locally in Hl.
    specialize (Hl (mkposreal _ Heps)).
    destruct Hl as [P Pb HP HQ HPQ].
    assert (HP' : at_r a (fun x => P x /\ RbarIn a b x)) by (apply filter_and; auto; apply at_r_between; auto).
    destruct (filter_ex _ HP') as (u & Pu & Iu).
    exists (fun v => Pb v /\ RbarIn a b v). split.
    - apply filter_and; auto. apply at_l_between; auto.
    - intros v w (Qv & Iv) (Qw & Iw).
      destruct (HPQ u v Pu Qv) as (zv & Zv & Bv). destruct (HPQ u w Pu Qw) as (zw & Zw & Bw).
      simpl in Zv, Zw.
      assert (zv = H v - H u) by (rewrite <- (is_RInt_unique _ _ _ _ Zv); apply is_RInt_unique, E; auto).
      assert (zw = H w - H u) by (rewrite <- (is_RInt_unique _ _ _ _ Zw); apply is_RInt_unique, E; auto).
      subst zv zw.
      unfold ball in *; simpl in *; unfold AbsRing_ball, abs, minus, plus, opp in *; simpl in *.
      apply Rabs_def2 in Bv. apply Rabs_def2 in Bw. apply Rabs_def1; destruct eps; simpl in *; lra. }
  assert (CR : exists la : R, filterlim H (at_r a) (locally la)).
  { apply (proj1 (filterlim_locally_cauchy H)). intros eps.
    assert (Heps : 0 < eps / 2) by (destruct eps; simpl; lra).
    unfold is_RInt_gen in Hl. rewrite filterlimi_locally in Hl.
    specialize (Hl (mkposreal _ Heps)).
    destruct Hl as [Pa P HP HQ HPQ].
    assert (HQ' : at_l b (fun x => P x /\ RbarIn a b x)) by (apply filter_and; auto; apply at_l_between; auto).
    destruct (filter_ex _ HQ') as (u & Pu & Iu).
    exists (fun v => Pa v /\ RbarIn a b v). split.
    - apply filter_and; auto. apply at_r_between; auto.
    - intros v w (Qv & Iv) (Qw & Iw).
      destruct (HPQ v u Qv Pu) as (zv & Zv & Bv). destruct (HPQ w u Qw Pu) as (zw & Zw & Bw).
      simpl in Zv, Zw.
      assert (zv = H u - H v) by (rewrite <- (is_RInt_unique _ _ _ _ Zv); apply is_RInt_unique, E; auto).
      assert (zw = H u - H w) by (rewrite <- (is_RInt_unique _ _ _ _ Zw); apply is_RInt_unique, E; auto).
      subst zv zw.
      unfold ball in *; simpl in *; unfold AbsRing_ball, abs, minus, plus, opp in *; simpl in *.
      apply Rabs_def2 in Bv. apply Rabs_def2 in Bw. apply Rabs_def1; destruct eps; simpl in *; lra. }
  destruct CL as (lb & CL). destruct CR as (la & CR).
  (* continuity inside *)
  assert (CI : forall x : R, RbarIn a b x -> filterlim H (locally x) (locally (H x))).
  { intros x Hx. apply (continuous_RInt_1 f c x H).
    assert (LX : locally x (fun z => RbarIn a b z)).
    { destruct Hx as (X1 & X2). apply (filter_and (F := locally x)).
      - destruct a as [a| |]; simpl in X1; try tauto.
        + apply (open_gt a x); auto.
        + exists (mkposreal 1 Rlt_0_1). simpl; auto.
      - destruct b as [b| |]; simpl in X2; try tauto.
        + apply (open_lt b x); auto.
        + exists (mkposreal 1 Rlt_0_1). simpl; auto. }
    eapply filter_imp; [|exact LX]. intros z Hz. unfold H. apply RIc. eapply ex_RInt_inside; eauto. }
  pose (G := fun x : Rbar => if beq x b then lb else if beq x a then la else H (real x)).
  assert (GI : forall x : R, RbarIn a b x -> G x = H x).
  { intros x (X1 & X2). unfold G. destruct (beqP x b) as [E1|_]; [rewrite E1 in X2; destruct (Rbar_lt_irrefl _ X2)|].
    destruct (beqP x a) as [E1|_]; [rewrite E1 in X1; destruct (Rbar_lt_irrefl _ X1)|]. reflexivity. }
  assert (Gb : G b = lb) by (unfold G; rewrite beq_refl; auto).
  assert (Ga : G a = la).
  { unfold G. destruct (beqP a b) as [E1|_]; [rewrite E1 in Hab; destruct (Rbar_lt_irrefl _ Hab)|].
    rewrite beq_refl; auto. }
  exists G. splits.
  - intros u v Hu Hv. rewrite (GI u Hu), (GI v Hv). auto.
  - intros x H1 H2. apply (filterlim_ext_loc H).
    { eapply filter_imp; [|apply (at_l_between a x H1)]. intros t (T1 & T2). symmetry. apply GI. split; auto.
      apply (Rbar_lt_le_trans _ x); auto. }
    destruct (Rbar_eq_dec x b) as [->|N]; [rewrite Gb; auto|].
    destruct x as [x| |]; simpl in H1, H2; try tauto.
    + assert (Ix : RbarIn a b x).
      { split; auto. destruct (Rbar_le_lt_or_eq_dec x b H2); auto. congruence. }
      rewrite (GI x Ix). simpl. eapply filterlim_filter_le_1; [|apply CI; auto]. apply filter_le_within.
    + destruct b; simpl in *; try tauto; congruence.
    + destruct a; simpl in H1; tauto.
  - intros x H1 H2. apply (filterlim_ext_loc H).
    { eapply filter_imp; [|apply (at_r_between x b H2)]. intros t (T1 & T2). symmetry. apply GI. split; auto.
      apply (Rbar_le_lt_trans _ x); auto. }
    destruct (Rbar_eq_dec x a) as [->|N]; [rewrite Ga; auto|].
    destruct x as [x| |]; simpl in H1, H2; try tauto.
    + assert (Ix : RbarIn a b x).
      { split; auto. destruct (Rbar_le_lt_or_eq_dec a x H1); auto. congruence. }
      rewrite (GI x Ix). simpl. eapply filterlim_filter_le_1; [|apply CI; auto]. apply filter_le_within.
    + destruct a; simpl in *; try tauto; congruence.
Qed.

(** [G] is a primitive of [f] over the closed extended interval [a,b]. *)
Definition prim (f : R -> R) (a b : Rbar) (G : Rbar -> R) : Prop :=
  Rbar_lt a b /\
  (forall u v : R, RbarIn a b u -> RbarIn a b v -> is_RInt f u v (G v - G u)) /\
  (forall x, Rbar_lt a x -> Rbar_le x b -> filterlim (fun t => G (Finite t)) (at_l x) (locally (G x))) /\
  (forall x, Rbar_le a x -> Rbar_lt x b -> filterlim (fun t => G (Finite t)) (at_r x) (locally (G x))).

Lemma integrable_prim f a b : integrable f a b -> exists G, prim f a b G.
Proof.
  intros H. destruct (integrable_primitive f a b H) as (G & H1 & H2 & H3). exists G.
  split; [apply H|]. auto.
Qed.

Lemma prim_is f a b G u v : prim f a b G -> Rbar_le a u -> Rbar_lt u v -> Rbar_le v b ->
  is_RInt_gen f (at_r u) (at_l v) (G v - G u).
Proof.
  intros (_ & H1 & H2 & H3) Hu Huv Hv.
  apply (is_RInt_gen_lim f (at_r u) (at_l v) (fun t => G (Finite t)) (G u) (G v)).
  - apply (prod_imp u v _ Huv). intros x y X XY Y; simpl.
    apply H1; split; try (apply (Rbar_le_lt_trans _ u); auto; fail); try (apply (Rbar_lt_le_trans _ v); auto; fail).
    + apply (Rbar_lt_trans _ y); auto. apply (Rbar_lt_le_trans _ v); auto.
    + apply (Rbar_le_lt_trans _ u); auto. apply (Rbar_lt_trans _ x); auto.
  - apply H3; auto. apply (Rbar_lt_le_trans _ v); auto.
  - apply H2; auto. apply (Rbar_le_lt_trans _ u); auto.
Qed.

Lemma prim_RInt_gen f a b G u v : prim f a b G -> Rbar_le a u -> Rbar_lt u v -> Rbar_le v b ->
  RInt_gen f (at_r u) (at_l v) = G v - G u.
Proof.
  intros. apply (is_RInt_gen_unique (V := R_CompleteNormedModule)). eapply prim_is; eauto.
Qed.

Lemma prim_Q f a b G u v : prim f a b G ->
  Rbar_le a u -> Rbar_le u b -> Rbar_le a v -> Rbar_le v b -> Q f u v = G v - G u.
Proof.
  intros P U1 U2 V1 V2. unfold Q. destruct (beqP u v) as [->|N]; [ring|].
  destruct (bltP u v) as [L|L].
  - eapply prim_RInt_gen; eauto.
  - apply Rbar_not_lt in L. destruct (Rbar_le_lt_or_eq_dec _ _ L) as [L'|E]; [|congruence].
    rewrite (prim_RInt_gen f a b G v u); auto. ring.
Qed.

Lemma prim_sub f a b G u v : prim f a b G -> Rbar_le a u -> Rbar_lt u v -> Rbar_le v b -> prim f u v G.
Proof.
  intros (_ & H1 & H2 & H3) Hu Huv Hv. split; auto. splits.
  - intros x y (X1 & X2) (Y1 & Y2). apply H1; split;
    try (apply (Rbar_le_lt_trans _ u); auto; fail); try (apply (Rbar_lt_le_trans _ v); auto; fail).
  - intros x X1 X2. apply H2. apply (Rbar_le_lt_trans _ u); auto. apply (Rbar_le_trans _ v); auto.
  - intros x X1 X2. apply H3. apply (Rbar_le_trans _ u); auto. apply (Rbar_lt_le_trans _ v); auto.
Qed.

Lemma prim_integrable f a b G : prim f a b G -> integrable f a b.
Proof.
  intros P. split; [apply P|]. split.
  - intros u v U UV V. exists (G v - G u). apply (proj1 (proj2 P)); split; auto.
    + apply (Rbar_lt_trans _ v); auto.
    + apply (Rbar_lt_trans _ u); auto.
  - exists (G b - G a). apply prim_is with a b; auto; try apply Rbar_le_refl. apply P.
Qed.

Lemma integrable_sub f a b u v : integrable f a b -> Rbar_le a u -> Rbar_lt u v -> Rbar_le v b -> integrable f u v.
Proof.
  intros H Hu Huv Hv. destruct (integrable_prim _ _ _ H) as (G & P).
  eapply prim_integrable, prim_sub; eauto.
Qed.

(** A primitive in the ordinary sense, with limits at the ends. *)
Lemma prim_ext f a b G G' : prim f a b G -> (forall x, Rbar_le a x -> Rbar_le x b -> G x = G' x) -> prim f a b G'.
Proof.
  intros (Hab & H1 & H2 & H3) E.
  assert (EI : forall u : R, RbarIn a b u -> G u = G' u).
  { intros u (U1 & U2). apply E; apply Rbar_lt_le; auto. }
  split; auto. splits.
  - intros u v Hu Hv. rewrite <- (EI u Hu), <- (EI v Hv). auto.
  - intros x X1 X2. rewrite <- (E x); auto; [|apply Rbar_lt_le; auto].
    eapply filterlim_ext_loc; [|apply H2; auto].
    eapply filter_imp; [|apply (at_l_between a x X1)]. intros t (T1 & T2). apply EI. split; auto.
    apply (Rbar_lt_le_trans _ x); auto.
  - intros x X1 X2. rewrite <- (E x); auto; [|apply Rbar_lt_le; auto].
    eapply filterlim_ext_loc; [|apply H3; auto].
    eapply filter_imp; [|apply (at_r_between x b X2)]. intros t (T1 & T2). apply EI. split; auto.
    apply (Rbar_le_lt_trans _ x); auto.
Qed.

Lemma Q_refl f a : Q f a a = 0.
Proof. unfold Q. rewrite beq_refl. auto. Qed.

Lemma Q_swap f a b : Q f b a = - Q f a b.
Proof.
  unfold Q. destruct (beqP a b) as [->|N]; [rewrite beq_refl; ring|].
  destruct (beqP b a) as [->|_]; [congruence|].
  destruct (bltP a b) as [L|L]; destruct (bltP b a) as [L'|L'].
  - destruct (Rbar_lt_irrefl a). apply (Rbar_lt_trans _ b); auto.
  - reflexivity.
  - symmetry. apply Ropp_involutive.
  - apply Rbar_not_lt in L, L'. destruct N. apply Rbar_le_antisym; auto.
Qed.

Lemma Q_chasles f a b u v w : integrable f a b ->
  Rbar_le a u -> Rbar_le u b -> Rbar_le a v -> Rbar_le v b -> Rbar_le a w -> Rbar_le w b ->
  Q f u v + Q f v w = Q f u w.
Proof.
  intros H; intros. destruct (integrable_prim _ _ _ H) as (G & P).
  rewrite !(prim_Q f a b G); auto. ring.
Qed.

Lemma prim_nondec f a b G u v : prim f a b G -> (forall x : R, RbarIn a b x -> 0 <= f x) ->
  Rbar_le a u -> Rbar_le u v -> Rbar_le v b -> G u <= G v.
Proof.
  intros P Hf Hu Huv Hv. destruct (Rbar_le_lt_or_eq_dec _ _ Huv) as [L| ->]; [|lra].
  assert (P' := prim_sub f a b G u v P Hu L Hv).
  destruct P' as (_ & H1 & H2 & H3).
  pose proof (filterlim_diff (fun t => G (Finite t)) (at_r u) (at_l v) (G u) (G v)
     (H3 u (Rbar_le_refl u) L) (H2 v L (Rbar_le_refl v))) as HL.
  assert (Rbar_le 0 (G v - G u)).
  { apply (filterlim_le (F := filter_prod (at_r u) (at_l v)) (fun _ => 0) (fun ab => G (snd ab) - G (fst ab)) 0 (G v - G u)).
    - apply (prod_imp u v _ L). intros x y X XY Y; simpl.
      assert (HI : is_RInt f x y (G y - G x)).
      { apply H1; split; auto. apply (Rbar_lt_trans _ y); auto. apply (Rbar_lt_trans _ x); auto. }
      apply (is_RInt_le (fun _ => 0) f x y 0 (G y - G x)); auto; [lra| |].
      + apply is_RInt_zero.
      + intros t (T1 & T2). apply Hf. split.
        * apply (Rbar_le_lt_trans _ u); auto. apply (Rbar_lt_trans _ x); auto.
        * apply (Rbar_lt_le_trans _ v); auto. apply (Rbar_lt_trans _ y); auto.
    - apply filterlim_const.
    - exact HL. }
  simpl in H. lra.
Qed.

Lemma Q_nonneg f a b : integrable f a b -> (forall x : R, RbarIn a b x -> 0 <= f x) -> 0 <= Q f a b.
Proof.
  intros H Hf. destruct (integrable_prim _ _ _ H) as (G & P).
  assert (L : Rbar_le a b) by (apply Rbar_lt_le, H).
  rewrite (prim_Q f a b G); auto; try apply Rbar_le_refl.
  pose proof (prim_nondec f a b G a b P Hf (Rbar_le_refl _) L (Rbar_le_refl _)). lra.
Qed.

Lemma Q_RInt_gen f a b : Rbar_lt a b -> Q f a b = RInt_gen f (at_r a) (at_l b).
Proof.
  intros H. unfold Q. destruct (beqP a b) as [->|_]; [destruct (Rbar_lt_irrefl _ H)|].
  destruct (bltP a b); tauto.
Qed.

Lemma Q_is f a b l : Rbar_lt a b -> is_RInt_gen f (at_r a) (at_l b) l -> Q f a b = l.
Proof. intros H Hl. rewrite Q_RInt_gen; auto. apply (is_RInt_gen_unique (V := R_CompleteNormedModule)); auto. Qed.

Lemma is_RInt_gen_ext_in (f g : R -> R) a b l : Rbar_lt a b -> (forall x : R, RbarIn a b x -> f x = g x) ->
  is_RInt_gen f (at_r a) (at_l b) l -> is_RInt_gen g (at_r a) (at_l b) l.
Proof.
  intros H E. apply is_RInt_gen_ext.
  apply (prod_imp a b _ H). intros u v U UV V; simpl; intros x (X1 & X2).
  rewrite Rmin_left in X1 by lra. rewrite Rmax_right in X2 by lra. apply E. split.
  - apply (Rbar_lt_trans _ u); auto.
  - apply (Rbar_lt_trans _ v); auto.
Qed.

Lemma Q_ext f g a b : Rbar_lt a b -> (forall x : R, RbarIn a b x -> f x = g x) -> Q f a b = Q g a b.
Proof.
  intros H E. rewrite !Q_RInt_gen; auto. unfold RInt_gen.
  apply eq_close, (close_iota (T := R_CompleteSpace)). intros l.
  split; apply is_RInt_gen_ext_in; auto. intros x Hx; symmetry; auto.
Qed.

Lemma integrable_ext f g a b : (forall x : R, RbarIn a b x -> f x = g x) -> integrable f a b -> integrable g a b.
Proof.
  intros E (H & H1 & l & Hl). split; auto. split.
  - intros u v U UV V. apply (ex_RInt_ext f); auto. intros x (X1 & X2).
    rewrite Rmin_left in X1 by lra. rewrite Rmax_right in X2 by lra. apply E. split.
    + apply (Rbar_lt_trans _ u); auto.
    + apply (Rbar_lt_trans _ v); auto.
  - exists l. eapply is_RInt_gen_ext_in; eauto.
Qed.

Lemma Q_scal f a b k : integrable f a b -> Q (fun x => k * f x) a b = k * Q f a b.
Proof.
  intros (H & _ & Hex). rewrite (Q_RInt_gen f); auto.
  apply Q_is; auto. apply (is_RInt_gen_scal (V := R_NormedModule) f k).
  apply (RInt_gen_correct (V := R_CompleteNormedModule)); auto.
Qed.

Lemma integrable_scal f a b k : integrable f a b -> integrable (fun x => k * f x) a b.
Proof.
  intros (H & H1 & l & Hl). split; auto. split.
  - intros u v U UV V. apply (ex_RInt_scal (V := R_NormedModule) f u v k). auto.
  - exists (k * l). apply (is_RInt_gen_scal (V := R_NormedModule) f k). auto.
Qed.

Lemma Q_plus f g a b : integrable f a b -> integrable g a b ->
  Q (fun x => f x + g x) a b = Q f a b + Q g a b.
Proof.
  intros (H & _ & Hf) (_ & _ & Hg). rewrite (Q_RInt_gen f), (Q_RInt_gen g); auto.
  apply Q_is; auto. apply (is_RInt_gen_plus (V := R_NormedModule) f g);
  apply (RInt_gen_correct (V := R_CompleteNormedModule)); auto.
Qed.

Lemma integrable_plus f g a b : integrable f a b -> integrable g a b -> integrable (fun x => f x + g x) a b.
Proof.
  intros (H & H1 & l & Hl) (_ & H2 & m & Hm). split; auto. split.
  - intros u v U UV V. apply (ex_RInt_plus (V := R_NormedModule) f g u v); auto.
  - exists (l + m). apply (is_RInt_gen_plus (V := R_NormedModule) f g); auto.
Qed.

(** Antiderivatives. *)
Lemma filterlim_at_l_cont (F : R -> R) (x : R) : continuous F x -> filterlim F (at_l x) (locally (F x)).
Proof. intros H. simpl. eapply filterlim_filter_le_1; [|apply H]. apply filter_le_within. Qed.
Lemma filterlim_at_r_cont (F : R -> R) (x : R) : continuous F x -> filterlim F (at_r x) (locally (F x)).
Proof. intros H. simpl. eapply filterlim_filter_le_1; [|apply H]. apply filter_le_within. Qed.

Lemma ftc f (F : R -> R) a b la lb : Rbar_lt a b ->
  (forall x : R, RbarIn a b x -> is_derive F x (f x)) ->
  (forall x : R, RbarIn a b x -> continuous f x) ->
  filterlim F (at_r a) (locally la) -> filterlim F (at_l b) (locally lb) ->
  integrable f a b /\ Q f a b = lb - la.
Proof.
  intros H D C La Lb.
  assert (I : forall u v : R, Rbar_lt a u -> u < v -> Rbar_lt v b -> is_RInt f u v (F v - F u)).
  { intros u v U UV V. apply (is_RInt_derive F f u v); intros x (X1 & X2);
    rewrite Rmin_left in X1 by lra; rewrite Rmax_right in X2 by lra;
    (apply D || apply C); split; try (apply (Rbar_lt_le_trans _ u); auto; fail);
    apply (Rbar_le_lt_trans _ v); auto. }
  assert (J : is_RInt_gen f (at_r a) (at_l b) (lb - la)).
  { apply (is_RInt_gen_lim f (at_r a) (at_l b) F la lb); auto.
    apply (prod_imp a b); auto. }
  split.
  - split; auto. split.
    + intros u v U UV V. eexists; apply I; auto.
    + eexists; apply J.
  - apply Q_is; auto.
Qed.

(** Proper integrals. *)
Lemma proper_int (f : R -> R) (a b : R) : a < b -> ex_RInt f a b -> integrable f a b /\ Q f a b = RInt f a b.
Proof.
  intros H Hf.
  pose (g := fun x => if Rlt_dec a x then if Rlt_dec x b then f x else 0 else 0).
  assert (Z1 : forall u v : R, u <= v -> v <= a -> is_RInt g u v 0).
  { intros u v U V. apply (is_RInt_ext (fun _ => 0)); [|apply is_RInt_zero].
    intros x (X1 & X2). rewrite Rmin_left in X1 by lra. rewrite Rmax_right in X2 by lra.
    unfold g. destruct (Rlt_dec a x); auto. lra. }
  assert (Z2 : forall u v : R, u <= v -> b <= u -> is_RInt g u v 0).
  { intros u v U V. apply (is_RInt_ext (fun _ => 0)); [|apply is_RInt_zero].
    intros x (X1 & X2). rewrite Rmin_left in X1 by lra. rewrite Rmax_right in X2 by lra.
    unfold g. destruct (Rlt_dec a x); auto. destruct (Rlt_dec x b); auto. lra. }
  assert (Hg : ex_RInt g a b).
  { apply (ex_RInt_ext f); auto.
    intros x (X1 & X2). rewrite Rmin_left in X1 by lra. rewrite Rmax_right in X2 by lra.
    unfold g. destruct (Rlt_dec a x); [|lra]. destruct (Rlt_dec x b); auto; lra. }
  assert (Hg' : forall x, ex_RInt g a x).
  { intros x. destruct (Rle_dec x a) as [L|L].
    - apply ex_RInt_swap. exists 0. apply Z1; lra.
    - destruct (Rle_dec x b) as [L'|L'].
      + apply (ex_RInt_Chasles_1 (V := R_CompleteNormedModule) g a x b); auto. lra.
      + apply (ex_RInt_Chasles g a b x); auto. exists 0. apply Z2; lra. }
  pose (F := (fun x => RInt g a x) : R -> R).
  assert (CF : forall x, continuous F x).
  { intros x. apply (continuous_RInt_1 g a x F). apply filter_forall. intros z. apply RIc. auto. }
  assert (I : forall u v : R, is_RInt g u v (F v - F u)).
  { intros u v. replace (F v - F u) with (plus (opp (F u)) (F v)) by (unfold plus, opp; simpl; ring).
    apply (is_RInt_Chasles (V := R_NormedModule) g u a v).
    - apply (is_RInt_swap (V := R_NormedModule)). apply RIc. auto.
    - apply RIc. auto. }
  assert (J : is_RInt_gen g (at_r a) (at_l b) (F b - F a)).
  { apply (is_RInt_gen_lim g (at_r a) (at_l b) F).
    - apply (prod_imp a b); auto.
    - apply filterlim_at_r_cont; auto.
    - apply filterlim_at_l_cont; auto. }
  assert (IG : integrable g a b).
  { split; auto. split.
    - intros u v _ _ _. eexists; apply I.
    - eexists; apply J. }
  assert (E : forall x : R, RbarIn a b x -> g x = f x).
  { intros x (X1 & X2); simpl in X1, X2. unfold g. destruct (Rlt_dec a x); [|lra]. destruct (Rlt_dec x b); auto; lra. }
  split; [eapply integrable_ext; eauto|].
  rewrite <- (Q_ext g f a b); auto. rewrite (Q_is g a b _ H J).
  unfold F at 2. rewrite RInt_point. unfold zero; simpl. rewrite Rminus_0_r. unfold F.
  apply (RInt_ext (V := R_CompleteNormedModule)). intros x (X1 & X2). rewrite Rmin_left in X1 by lra. rewrite Rmax_right in X2 by lra.
  apply E; split; auto.
Qed.

Lemma Q_const (a b k : R) : Q (fun _ => k) a b = k * (b - a).
Proof.
  assert (P : forall a b, a < b -> Q (fun _ => k) a b = k * (b - a)).
  { clear. intros a b H. destruct (proper_int (fun _ => k) a b H) as (_ & ->).
    - eexists; apply is_RInt_cst.
    - apply is_RInt_unique, is_RInt_cst. }
  destruct (Rtotal_order a b) as [L|[->|L]].
  - auto.
  - rewrite Q_refl. ring.
  - rewrite Q_swap, P; auto. ring.
Qed.

Lemma integrable_const (a b k : R) : a < b -> integrable (fun _ => k) a b.
Proof. intros H. apply (proper_int (fun _ => k) a b H). eexists; apply is_RInt_cst. Qed.

Lemma prim_cont f a b G (x : R) : prim f a b G -> RbarIn a b x -> continuous (fun t => G (Finite t)) x.
Proof.
  intros (_ & H1 & H2 & H3) (X1 & X2).
  apply filterlim_locally. intros eps.
  pose proof (proj1 (filterlim_locally _ _) (H2 x X1 (Rbar_lt_le _ _ X2)) eps) as (d1 & D1).
  pose proof (proj1 (filterlim_locally _ _) (H3 x (Rbar_lt_le _ _ X1) X2) eps) as (d2 & D2).
  exists (mkposreal _ (Rmin_pos _ _ (cond_pos d1) (cond_pos d2))). intros y Hy. simpl in Hy.
  destruct (Rtotal_order y x) as [L|[->|L]].
  - apply D1; auto. apply (ball_le x (mkposreal _ (Rmin_pos _ _ (cond_pos d1) (cond_pos d2))) d1); auto. apply Rmin_l.
  - apply ball_center.
  - apply D2; auto. apply (ball_le x (mkposreal _ (Rmin_pos _ _ (cond_pos d1) (cond_pos d2))) d2); auto. apply Rmin_r.
Qed.
