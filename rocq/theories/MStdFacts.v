(** Moments of the named distributions: integrals over whole supports. *)
From Coq Require Import Reals Lra Lia List Bool Sorted.
From Coquelicot Require Import Coquelicot.
From Verif Require Import Base Seg Piecewise PiecewiseSpec PiecewiseFacts2 Integral IntegralFacts SegIntSpec CumintFacts CumintFacts2 Std StdSpec StdFacts StdFacts2 StdFacts3 StdFacts4.
From Verif Require Import MomSpec Mom MomFacts3 MStdSpec StdFacts9.
Import List ListNotations.
Open Scope R_scope.

(** the integral of f over (a,b) exists and is v *)
Definition has_val (f : R -> R) (a b : Rbar) (v : R) : Prop := integrable f a b /\ Q f a b = v.

Lemma ii_prim f a b G : prim f a b G -> has_val f a b (G b - G a).
Proof.
  intros P. split; [eapply prim_integrable; eauto|]. pose proof (proj1 P) as L.
  apply (prim_Q f a b); auto; try apply Rbar_le_refl; apply Rbar_lt_le; auto.
Qed.
Lemma ii_ex f a b v : has_val f a b v -> exists G, prim f a b G /\ G b - G a = v.
Proof.
  intros (I0 & E). destruct (integrable_prim f a b I0) as (G & P). exists G. split; auto.
  rewrite <- E. symmetry. apply (ii_prim f a b G P).
Qed.
Lemma ii_val f a b v w : has_val f a b v -> v = w -> has_val f a b w.
Proof. intros H <-. auto. Qed.
Lemma ii_unique f a b v w : has_val f a b v -> has_val f a b w -> v = w.
Proof. intros (_ & A) (_ & B). congruence. Qed.
Lemma ii_ext f g a b v : (forall x : R, RbarIn a b x -> f x = g x) -> has_val f a b v -> has_val g a b v.
Proof. intros E (I0 & V). split; [eapply integrable_ext; eauto|]. rewrite <- (Q_ext f g); auto. apply I0. Qed.
Lemma ii_plus f g a b v w : has_val f a b v -> has_val g a b w -> has_val (fun x => f x + g x) a b (v + w).
Proof. intros (I0 & V) (J & W). split; [apply integrable_plus; auto|]. rewrite Q_plus by auto. congruence. Qed.
Lemma ii_scal k f a b v : has_val f a b v -> has_val (fun x => k * f x) a b (k * v).
Proof. intros (I0 & V). split; [apply integrable_scal; auto|]. rewrite Q_scal by auto. congruence. Qed.
Lemma ii_ftc f (H : R -> R) a b la lb v : Rbar_lt a b ->
  (forall x : R, RbarIn a b x -> is_derive H x (f x)) ->
  (forall x : R, RbarIn a b x -> continuous f x) ->
  filterlim H (at_r a) (locally la) -> filterlim H (at_l b) (locally lb) -> v = lb - la -> has_val f a b v.
Proof.
  intros L D C La Lb ->. pose proof (prim_ftc f H a b la lb L D C La Lb) as P.
  apply ii_prim in P. eapply ii_val; [exact P|].
  unfold ext_prim. destruct (Rbar_le_dec b a) as [A|A]; [exfalso; apply (Rbar_le_not_lt _ _ A); auto|].
  destruct (Rbar_le_dec b b) as [|Z]; [|destruct Z; apply Rbar_le_refl].
  destruct (Rbar_le_dec a a) as [|Z]; auto; destruct Z; apply Rbar_le_refl.
Qed.

(** change of variable, increasing and decreasing *)
Lemma ii_up h (p r : Rbar) (phi dphi : R -> R) (a b : Rbar) v : has_val h p r v -> Rbar_lt a b ->
  (forall x : R, RbarIn a b x -> RbarIn p r (phi x) /\ is_derive phi x (dphi x) /\ continuous dphi x /\ continuous h (phi x)) ->
  filterlim phi (at_r a) (at_r p) -> filterlim phi (at_l b) (at_l r) ->
  has_val (fun x => h (phi x) * dphi x) a b v.
Proof.
  intros I0 L D La Lb. destruct (ii_ex h p r v I0) as (G & P & E).
  apply (ii_ftc _ (fun x => G (phi x)) a b (G p) (G r)); auto.
  - intros x X. destruct (D x X) as (X1 & X2 & X3 & X4).
    replace (h (phi x) * dphi x) with (scal (dphi x) (h (phi x))) by (unfold scal; simpl; unfold mult; simpl; ring).
    apply (is_derive_comp (fun t : R => G t) phi); auto. apply (prim_der h p r); auto.
  - intros x X. destruct (D x X) as (X1 & X2 & X3 & X4).
    apply (continuous_mult (fun x => h (phi x)) dphi); auto. apply (continuous_comp phi h); auto.
    apply der_cont. eexists; eauto.
  - eapply (filterlim_comp _ _ _ phi (fun t : R => G t)); [exact La|]. apply (prim_lim_r _ _ _ _ P).
  - eapply (filterlim_comp _ _ _ phi (fun t : R => G t)); [exact Lb|]. apply (prim_lim_l _ _ _ _ P).
Qed.
Lemma ii_down h (p r : Rbar) (phi dphi : R -> R) (a b : Rbar) v : has_val h p r v -> Rbar_lt a b ->
  (forall x : R, RbarIn a b x -> RbarIn p r (phi x) /\ is_derive phi x (dphi x) /\ continuous dphi x /\ continuous h (phi x)) ->
  filterlim phi (at_r a) (at_l r) -> filterlim phi (at_l b) (at_r p) ->
  has_val (fun x => h (phi x) * - dphi x) a b v.
Proof.
  intros I0 L D La Lb. destruct (ii_ex h p r v I0) as (G & P & E).
  assert (K : has_val (fun x => h (phi x) * dphi x) a b (- v)).
  { apply (ii_ftc _ (fun x => G (phi x)) a b (G r) (G p)); auto; [| | | |lra].
    - intros x X. destruct (D x X) as (X1 & X2 & X3 & X4).
      replace (h (phi x) * dphi x) with (scal (dphi x) (h (phi x))) by (unfold scal; simpl; unfold mult; simpl; ring).
      apply (is_derive_comp (fun t : R => G t) phi); auto. apply (prim_der h p r); auto.
    - intros x X. destruct (D x X) as (X1 & X2 & X3 & X4).
      apply (continuous_mult (fun x => h (phi x)) dphi); auto. apply (continuous_comp phi h); auto.
      apply der_cont. eexists; eauto.
    - eapply (filterlim_comp _ _ _ phi (fun t : R => G t)); [exact La|]. apply (prim_lim_l _ _ _ _ P).
    - eapply (filterlim_comp _ _ _ phi (fun t : R => G t)); [exact Lb|]. apply (prim_lim_r _ _ _ _ P). }
  apply (ii_scal (-1)) in K. eapply ii_val; [eapply ii_ext; [|exact K]|ring].
  intros x _. simpl. ring.
Qed.

(** the constructed pieces carry f over (a,b) *)
Definition pieces (r : res pwf) (f : R -> R) (a b : Rbar) : Prop :=
  exists q, r = Ok q /\ Forall (carries f) (segs q) /\ path a (segs q) b.

Lemma pieces_add eps l f a b : Forall (carries f) l -> path a l b -> pieces (addAll eps empty_pwf l) f a b.
Proof.
  intros C P. destruct (carries_split f l C) as (DD & WW).
  destruct (init_ok eps l a b DD WW P) as (q & E1 & E2). exists q. rewrite E2. auto.
Qed.
Lemma pieces_make eps f bp lp : StronglySorted Rbar_lt bp -> (3 <= length bp)%nat -> length lp = length bp ->
  pieces (make_pwf eps f bp lp (no_poles bp)) f (nth 0 bp m_infty) (nth (length bp - 1) bp m_infty).
Proof.
  intros S0 N L.
  destruct (make_ok eps f bp lp (no_poles bp) S0 L) as (q & E1 & E2 & E3 & P & W & PO).
  - unfold no_poles. rewrite map_length. auto.
  - intros i _ _ _. right. apply no_poles_flag.
  - intros i _ X. rewrite no_poles_flag in X. discriminate.
  - lia.
  - intros; lia.
  - exists q. splits; auto.
    apply Forall_forall. intros s Hs. rewrite Forall_forall in W. destruct (In_nth_error _ _ Hs) as (j & Hj).
    destruct (PO j s Hj) as (O1 & _ & _ & O4 & _ & O6). rewrite no_poles_flag, andb_false_r in O6.
    repeat split; auto. intros X. congruence.
Qed.

Lemma tiles_expect g f a b l : forall v, Forall (carries f) l -> path a l b ->
  has_val (fun x => g x * f x) a b v -> has_expect g l /\ expect g l = v.
Proof.
  intros v C P I0. destruct (ii_ex _ _ _ _ I0) as (G & PG & EG). rewrite <- EG. clear EG I0 v.
  assert (K : forall l a0 b0, Forall (carries f) l -> path a0 l b0 -> Rbar_le a a0 -> Rbar_le b0 b -> has_expect g l /\ expect g l = G b0 - G a0).
  2:{ apply K; auto; apply Rbar_le_refl. }
  clear l C P. induction l as [|s l IH]; intros a0 b0 C P A B.
  - simpl in P. subst b0. split; [intros s []|]. unfold expect. simpl. ring.
  - inversion C as [|? ? Cs Cl]; subst. destruct Cs as (C1 & C2 & C3 & C4). destruct P as (E & P). subst a0.
    assert (L : Rbar_lt (sa s) (sb s)) by (apply nd_lt; auto).
    assert (W : Forall wf_seg l) by (eapply Forall_impl; [|exact Cl]; intros t H; apply H).
    assert (LB : Rbar_le (sb s) b0) by (eapply path_le; eauto).
    assert (LB' : Rbar_le (sb s) b) by (apply (Rbar_le_trans _ b0); auto).
    destruct (IH (sb s) b0) as (H1 & H2); auto; [apply (Rbar_le_trans _ (sa s)); auto; apply Rbar_lt_le; auto|].
    assert (PS : prim (fun x => g x * sf s x) (sa s) (sb s) G).
    { apply (prim_eq (fun x => g x * f x)); [intros x X; rewrite (C3 x X); auto|]. apply (prim_sub _ a b); auto. }
    split.
    + intros t [T|T] D; [subst t; eapply prim_integrable; eauto|apply H1; auto].
    + rewrite expect_contrib. cbn [map]. rewrite AtomFacts.sumR_cons, <- expect_contrib, H2, contrib_Q by auto.
      rewrite (prim_Q _ _ _ _ _ _ PS); try apply Rbar_le_refl; try (apply Rbar_lt_le; auto). ring.
Qed.

Lemma mean_zero_err l : Forall wf_seg l -> mean (fun _ _ _ => 0) l = Num (expect (fun x => x) l).
Proof.
  intros W. unfold mean.
  assert (E : forall l I0 E, snd (mean_loop (fun _ _ _ => 0) l I0 E) = E).
  { clear. induction l as [|s l IH]; intros I0 E; cbn [mean_loop]; auto.
    destruct s; simpl mean_piece; cbn [piece_int mean_piece]; rewrite IH; ring. }
  pose proof (mean_loop_val (fun _ _ _ => 0) l 0 0 W) as V. specialize (E l 0 0).
  destruct (mean_loop (fun _ _ _ => 0) l 0 0) as (I0, E0). simpl in V, E. subst E0.
  destruct (rltP (1 / 10) 0); [lra|]. f_equal. lra.
Qed.
Lemma var_zero_err l : Forall wf_seg l -> exists v, var (fun _ _ _ => 0) l = Num v.
Proof.
  intros W. unfold var. rewrite mean_zero_err by auto.
  assert (E : forall m l I0 E, snd (var_loop1 (fun _ _ _ => 0) m l I0 E) = E).
  { clear. induction l as [|s l IH]; intros I0 E; cbn [var_loop1]; auto. unfold var_cont, piece_int. rewrite IH. ring. }
  specialize (E (expect (fun x => x) l) (getSegments l) 0 0).
  destruct (var_loop1 (fun _ _ _ => 0) (expect (fun x => x) l) (getSegments l) 0 0) as (I0, E0). simpl in E. subst E0.
  destruct (rltP 1 0); [lra|]. eauto.
Qed.

Lemma mean_of r f a b m : pieces r f a b -> has_val (fun x => x * f x) a b m -> has_mean r m.
Proof.
  intros (q & E & C & P) I1. destruct (carries_split f _ C) as (DD & WW).
  destruct (tiles_expect (fun x => x) f a b (segs q) m C P I1) as (H1 & E1).
  exists q. splits; auto.
  - intros err x H. rewrite <- E1. apply (mean_val err); auto.
  - rewrite mean_zero_err by auto. rewrite E1. auto.
Qed.
Lemma moments_of r f a b m v : pieces r f a b -> has_val (fun x => x * f x) a b m ->
  has_val (fun x => (x - m) ^ 2 * f x) a b v -> has_moments r m v.
Proof.
  intros (q & E & C & P) I1 I2. destruct (carries_split f _ C) as (DD & WW).
  destruct (tiles_expect (fun x => x) f a b (segs q) m C P I1) as (H1 & E1).
  destruct (tiles_expect (fun x => (x - m) ^ 2) f a b (segs q) v C P I2) as (H2 & E2).
  assert (MV : forall err x, mean err (segs q) = Num x -> x = m).
  { intros err x H. rewrite <- E1. apply (mean_val err); auto. }
  assert (VV : forall err x, var err (segs q) = Num x -> x = v).
  { intros err x H. destruct (var_val err (segs q) x WW H) as (m' & Hm & Hx). rewrite (MV err m' Hm) in Hx. congruence. }
  exists q. splits; auto.
  - rewrite mean_zero_err by auto. rewrite E1. auto.
  - destruct (var_zero_err (segs q) WW) as (v' & V). rewrite V. f_equal. apply (VV _ _ V).
Qed.
(** first and second moments *)
Lemma moments_raw r f a b m v w : pieces r f a b -> has_val f a b 1 -> has_val (fun x => x * f x) a b m ->
  has_val (fun x => x ^ 2 * f x) a b w -> v = w - m ^ 2 -> has_moments r m v.
Proof.
  intros P I0 I1 I2 ->. apply (moments_of r f a b); auto.
  apply (ii_scal (- (2 * m))) in I1. apply (ii_scal (m ^ 2)) in I0.
  pose proof (ii_plus _ _ _ _ _ _ I2 (ii_plus _ _ _ _ _ _ I1 I0)) as K.
  eapply ii_val; [eapply ii_ext; [|exact K]|ring]. intros x _. simpl. ring.
Qed.
(** a density whose x-integral diverges at infinity has no mean *)
Lemma no_mean_tail r f a b (c u : R) (h H : R -> R) : pieces r f a b -> (forall q, r = Ok q -> In (PInfSeg c f) (segs q)) -> c < u ->
  (forall x, u <= x -> h x <= x * f x) -> (forall x, u <= x -> is_derive H x (h x)) -> (forall x, u <= x -> continuous h x) ->
  filterlim H (Rbar_locally p_infty) (Rbar_locally p_infty) -> no_mean r.
Proof.
  intros (q & E & C & P) IN CU LE D CH LH. exists q. split; auto. intros HE.
  pose proof (HE _ (IN q E) eq_refl) as I0. simpl in I0. destruct (integrable_prim _ _ _ I0) as (G & PG).
  assert (K : forall t, u <= t -> H t - H u <= G t - G u).
  { intros t T. destruct (Req_dec u t) as [->|N]; [lra|].
    assert (I1 : is_RInt h u t (H t - H u)).
    { apply (is_RInt_derive H h u t); intros x (X1 & X2); rewrite Rmin_left in X1 by lra; auto. }
    assert (I2 : is_RInt (fun x => x * f x) u t (G t - G u)) by (apply (proj1 (proj2 PG)); split; simpl; auto; lra).
    apply (is_RInt_le h (fun x => x * f x) u t _ _ T I1 I2). intros x X. apply LE. lra. }
  pose proof (prim_lim_l _ _ _ _ PG) as LG. simpl in LG.
  assert (A : Rbar_locally p_infty (fun t => G t < G p_infty + 1)).
  { apply (LG (fun y => y < G p_infty + 1)). exists (mkposreal 1 Rlt_0_1). intros y Y.
    apply Rabs_lt_between in Y. unfold minus, plus, opp in Y. simpl in Y. lra. }
  assert (B : Rbar_locally p_infty (fun t => H u - G u + G p_infty + 1 < H t)).
  { apply (LH (fun y => H u - G u + G p_infty + 1 < y)). exists (H u - G u + G p_infty + 1). auto. }
  assert (U : Rbar_locally p_infty (fun t => u < t)) by (exists u; auto).
  destruct (filter_ex _ (filter_and _ _ A (filter_and _ _ B U))) as (t & T1 & T2 & T3).
  pose proof (K t ltac:(lra)). lra.
Qed.

(** a common integral on both sides of a point *)
Lemma ii_glue f a (c : R) b v w : has_val f a c v -> has_val f c b w -> (forall x : R, RbarIn a b x -> continuous f x) -> has_val f a b (v + w).
Proof.
  intros IV IW C. destruct (ii_ex _ _ _ _ IV) as (G1 & P1 & E1). destruct (ii_ex _ _ _ _ IW) as (G2 & P2 & E2).
  pose proof (proj1 P1) as L1. pose proof (proj1 P2) as L2.
  assert (L : Rbar_lt a b) by (eapply Rbar_lt_trans; eauto).
  assert (CI : RbarIn a b c) by (split; auto).
  set (H := fun x : R => RInt f c x).
  assert (EX : forall x : R, RbarIn a b x -> ex_RInt f c x).
  { intros x (X1 & X2). apply (ex_RInt_continuous (V := R_CompleteNormedModule)). intros z Z. apply C.
    unfold Rmin, Rmax in Z. split; destruct (Rle_dec c x).
    - apply (Rbar_lt_le_trans _ c); auto. simpl. lra.
    - apply (Rbar_lt_le_trans _ x); auto. simpl. lra.
    - apply (Rbar_le_lt_trans _ x); auto. simpl. lra.
    - apply (Rbar_le_lt_trans _ c); auto. simpl. lra. }
  assert (H1 : forall x : R, RbarIn a c x -> H x = G1 x - G1 c).
  { intros x X. pose proof (prim_Q f a c G1 c x P1) as K. rewrite <- K; try (apply Rbar_le_refl); try (apply Rbar_lt_le; auto; apply X).
    destruct X as (X1 & X2). simpl in X2. unfold H. rewrite Q_swap. rewrite <- (opp_RInt_swap f x c).
    2:{ apply (ex_RInt_swap (V := R_NormedModule)). apply EX. split; auto. apply (Rbar_lt_trans _ c); auto. }
    unfold opp; simpl. f_equal. symmetry. apply proper_int; auto.
    apply (ex_RInt_swap (V := R_NormedModule)). apply EX. split; auto. apply (Rbar_lt_trans _ c); auto. }
  assert (H2 : forall x : R, RbarIn c b x -> H x = G2 x - G2 c).
  { intros x X. pose proof (prim_Q f c b G2 c x P2) as K. rewrite <- K; try (apply Rbar_le_refl); try (apply Rbar_lt_le; auto; apply X).
    destruct X as (X1 & X2). simpl in X1. unfold H. symmetry. apply proper_int; auto. apply EX. split; auto. apply (Rbar_lt_trans _ c); auto. }
  apply (ii_ftc f H a b (G1 a - G1 c) (G2 b - G2 c)); auto.
  - intros x X. apply (is_derive_RInt (V := R_NormedModule) f H c x); [|apply C; auto].
    destruct X as (X1 & X2).
    assert (LO : locally x (fun y : R => RbarIn a b y)).
    { apply filter_and; [apply (open_Rbar_gt' x a); auto|apply (open_Rbar_lt' x b); auto]. }
    eapply filter_imp; [|exact LO]. intros y Y. apply (RInt_correct (V := R_CompleteNormedModule)). apply EX; auto.
  - apply (filterlim_ext_loc (fun t : R => G1 t - G1 c)).
    { eapply filter_imp; [|apply (at_r_between a c L1)]. intros x X. symmetry. apply H1. auto. }
    apply (lim_der (at_r a) (fun y => y - G1 c) (fun t : R => G1 t) (G1 a)); [auto_derive; auto|ring|]. apply (prim_lim_r _ _ _ _ P1).
  - apply (filterlim_ext_loc (fun t : R => G2 t - G2 c)).
    { eapply filter_imp; [|apply (at_l_between c b L2)]. intros x X. symmetry. apply H2. auto. }
    apply (lim_der (at_l b) (fun y => y - G2 c) (fun t : R => G2 t) (G2 b)); [auto_derive; auto|ring|]. apply (prim_lim_l _ _ _ _ P2).
  - rewrite <- E1, <- E2. ring.
Qed.
