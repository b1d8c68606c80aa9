(** Main statements about variable transforms. *)
From Coq Require Import Reals Lra List Bool.
From Coquelicot Require Import Coquelicot.
From Verif Require Import Base Integral IntegralFacts SubstFacts Vt VtSpec VtFacts.
Import List ListNotations.
Open Scope R_scope.

(** C34: the six transforms of infinite intervals.  Every one is a bijection of its interval onto its
    parameter interval, is undone by its inverse in both orders, is strictly monotone, and the supplied
    derivative is the absolute value of the derivative of the inverse. *)
Lemma vartransforms_exact_main :
  exact_transform rec_pm m_infty p_infty 1 /\
  (forall c, 0 < c -> exact_transform (alg_pm c) m_infty p_infty 1) /\
  (forall L c : R, 0 < c -> exact_transform (alg_p L c) L p_infty 1) /\
  (forall U c : R, 0 < c -> exact_transform (alg_m U c) m_infty U (-1)) /\
  (forall L p : R, 0 < p -> exact_transform (rec_p L p None) L p_infty (-1)) /\
  (forall U p : R, 0 < p -> exact_transform (rec_m U p None) m_infty U 1).
Proof. splits; auto using rec_pm_exact, alg_pm_exact, alg_p_exact, alg_m_exact, rec_p_exact, rec_m_exact. Qed.

(** C34: with a second, finite end the reciprocal transforms are exact on the finite interval. *)
Lemma vartransforms_finite_main :
  (forall L p u : R, 0 < p -> L < u -> exact_transform (rec_p L p (Some u)) L u (-1)) /\
  (forall U p l : R, 0 < p -> l < U -> exact_transform (rec_m U p (Some l)) l U 1).
Proof. split; auto using rec_p_cut, rec_m_cut. Qed.

(** C34: the finite ends correspond to each other: the parameter 1 for the reciprocal transforms and the
    parameter -1 for the algebraic ones. *)
Lemma vartransforms_ends_main :
  (forall L p : R, 0 < p -> vchange (rec_p L p None) L = 1 /\ vinv (rec_p L p None) 1 = L) /\
  (forall U p : R, 0 < p -> vchange (rec_m U p None) U = 1 /\ vinv (rec_m U p None) 1 = U) /\
  (forall L c : R, 0 < c -> vchange (alg_p L c) L = -1 /\ vinv (alg_p L c) (-1) = L) /\
  (forall U c : R, 0 < c -> vchange (alg_m U c) U = -1 /\ vinv (alg_m U c) (-1) = U).
Proof.
  splits; [exact rp_end|exact rm_end| |]; intros L c C; cbn; split; field; lra.
Qed.

(** C34: integration over an infinite interval through a transform returns the integral. *)
Lemma vartransforms_integral_main :
  forall f,
  (integrable f m_infty p_infty -> (forall x : R, continuous f x) -> fejer2_pminf f = Q f m_infty p_infty /\ clenshaw_pminf f = Q f m_infty p_infty) /\
  (forall a p : R, 0 < p -> integrable f a p_infty -> (forall x : R, a < x -> continuous f x) ->
    fejer2_pinf f a None p = Q f a p_infty /\ clenshaw_pinf f a = Q f a p_infty) /\
  (forall b p : R, 0 < p -> integrable f m_infty b -> (forall x : R, x < b -> continuous f x) ->
    fejer2_minf f b None p = Q f m_infty b /\ clenshaw_minf f b = Q f m_infty b) /\
  (forall a b p : R, 0 < p -> integrable f a b -> (forall x : R, a < x < b -> continuous f x) ->
    fejer2_pinf f a (Some b) p = Q f a b /\ fejer2_minf f b (Some a) p = Q f a b).
Proof.
  intros f. splits.
  - intros H C. split; eapply (integrate_exact_vt _ _ _ 1 f); auto using rec_pm_exact; apply alg_pm_exact; lra.
  - intros a p P H C. split; [eapply (integrate_exact_vt _ _ _ (-1) f); auto using rec_p_exact|eapply (integrate_exact_vt _ _ _ 1 f); auto; [apply alg_p_exact; simpl; lra|]]; intros x (X & _); auto.
  - intros a p P H C. split; [eapply (integrate_exact_vt _ _ _ 1 f); auto using rec_m_exact|eapply (integrate_exact_vt _ _ _ (-1) f); auto; [apply alg_m_exact; simpl; lra|]]; intros x (_ & X); auto.
  - intros a b p P H C. assert (AB : a < b) by exact (proj1 H).
    split; [eapply (integrate_exact_vt _ _ _ (-1) f); auto using rec_p_cut|eapply (integrate_exact_vt _ _ _ 1 f); auto using rec_m_cut].
Qed.

(** C34: the power substitution used next to a pole returns the integral up to the sliver [a, a + |a| ue]
    (or [b - |b| ue, b]) that it leaves out on purpose; it is exact when the pole is at zero. *)
Lemma pole_transform_integral_main :
  forall ue N f (a b : R), 0 < N -> 0 <= ue -> integrable f a b -> (forall x : R, a < x < b -> continuous f x) ->
  (a + Rabs a * ue < b -> fejer2_XnP ue N f a b = Q f a b - Q f a (a + Rabs a * ue)) /\
  (a < b - Rabs b * ue -> fejer2_XnN ue N f a b = Q f a b - Q f (b - Rabs b * ue) b) /\
  (a = 0 -> fejer2_XnP ue N f a b = Q f a b) /\
  (b = 0 -> fejer2_XnN ue N f a b = Q f a b).
Proof.
  intros ue N f a b HN HU HI C. assert (AB : a < b) by exact (proj1 HI).
  assert (A0 : 0 <= Rabs a * ue) by (apply Rmult_le_pos; auto using Rabs_pos).
  assert (B0 : 0 <= Rabs b * ue) by (apply Rmult_le_pos; auto using Rabs_pos).
  assert (P1 : a + Rabs a * ue < b -> fejer2_XnP ue N f a b = Q f a b - Q f a (a + Rabs a * ue)).
  { intros L. rewrite xnp_exact; auto.
    - unfold edgeP. rewrite <- (Q_chasles f a b a (a + Rabs a * ue) b HI); try (simpl; lra).
    - unfold edgeP. apply (integrable_sub f a b); auto; simpl; lra.
    - unfold edgeP. intros x (X1 & X2). simpl in *. apply C. lra. }
  assert (P2 : a < b - Rabs b * ue -> fejer2_XnN ue N f a b = Q f a b - Q f (b - Rabs b * ue) b).
  { intros L. rewrite xnn_exact; auto.
    - unfold edgeN. rewrite <- (Q_chasles f a b a (b - Rabs b * ue) b HI); try (simpl; lra).
    - unfold edgeN. apply (integrable_sub f a b); auto; simpl; lra.
    - unfold edgeN. intros x (X1 & X2). simpl in *. apply C. lra. }
  splits; auto.
  - intros Z. rewrite P1; rewrite Z, Rabs_R0, Rmult_0_l, Rplus_0_r; [rewrite Q_refl; ring|lra].
  - intros Z. rewrite P2; rewrite Z, Rabs_R0, Rmult_0_l, Rminus_0_r; [rewrite Q_refl; ring|lra].
Qed.
