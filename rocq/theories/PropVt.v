(** Property theorems (Vt). Proofs are in VtMain.v and the files it imports. *)
From Coq Require Import Reals Lra List Bool.
From Coquelicot Require Import Coquelicot.
From Verif Require Import Base Integral IntegralFacts SubstFacts Vt VtSpec VtFacts.
From Verif Require Import VtMain.
Import List ListNotations.
Open Scope R_scope.

(** C34: the six transforms of infinite intervals.  Every one is a bijection of its interval onto its
    parameter interval, is undone by its inverse in both orders, is strictly monotone, and the supplied
    derivative is the absolute value of the derivative of the inverse. *)
Theorem vartransforms_exact :
  exact_transform rec_pm m_infty p_infty 1 /\
  (forall c, 0 < c -> exact_transform (alg_pm c) m_infty p_infty 1) /\
  (forall L c : R, 0 < c -> exact_transform (alg_p L c) L p_infty 1) /\
  (forall U c : R, 0 < c -> exact_transform (alg_m U c) m_infty U (-1)) /\
  (forall L p : R, 0 < p -> exact_transform (rec_p L p None) L p_infty (-1)) /\
  (forall U p : R, 0 < p -> exact_transform (rec_m U p None) m_infty U 1).
Proof. exact vartransforms_exact_main. Qed.
Print Assumptions vartransforms_exact.

(** C34: with a second, finite end the reciprocal transforms are exact on the finite interval. *)
Theorem vartransforms_finite :
  (forall L p u : R, 0 < p -> L < u -> exact_transform (rec_p L p (Some u)) L u (-1)) /\
  (forall U p l : R, 0 < p -> l < U -> exact_transform (rec_m U p (Some l)) l U 1).
Proof. exact vartransforms_finite_main. Qed.
Print Assumptions vartransforms_finite.

(** C34: the finite ends correspond to each other: the parameter 1 for the reciprocal transforms and the
    parameter -1 for the algebraic ones. *)
Theorem vartransforms_ends :
  (forall L p : R, 0 < p -> vchange (rec_p L p None) L = 1 /\ vinv (rec_p L p None) 1 = L) /\
  (forall U p : R, 0 < p -> vchange (rec_m U p None) U = 1 /\ vinv (rec_m U p None) 1 = U) /\
  (forall L c : R, 0 < c -> vchange (alg_p L c) L = -1 /\ vinv (alg_p L c) (-1) = L) /\
  (forall U c : R, 0 < c -> vchange (alg_m U c) U = -1 /\ vinv (alg_m U c) (-1) = U).
Proof. exact vartransforms_ends_main. Qed.
Print Assumptions vartransforms_ends.

(** C34: integration over an infinite interval through a transform returns the integral. *)
Theorem vartransforms_integral :
  forall f,
  (integrable f m_infty p_infty -> (forall x : R, continuous f x) -> fejer2_pminf f = Q f m_infty p_infty /\ clenshaw_pminf f = Q f m_infty p_infty) /\
  (forall a p : R, 0 < p -> integrable f a p_infty -> (forall x : R, a < x -> continuous f x) ->
    fejer2_pinf f a None p = Q f a p_infty /\ clenshaw_pinf f a = Q f a p_infty) /\
  (forall b p : R, 0 < p -> integrable f m_infty b -> (forall x : R, x < b -> continuous f x) ->
    fejer2_minf f b None p = Q f m_infty b /\ clenshaw_minf f b = Q f m_infty b) /\
  (forall a b p : R, 0 < p -> integrable f a b -> (forall x : R, a < x < b -> continuous f x) ->
    fejer2_pinf f a (Some b) p = Q f a b /\ fejer2_minf f b (Some a) p = Q f a b).
Proof. exact vartransforms_integral_main. Qed.
Print Assumptions vartransforms_integral.

(** C34: the power substitution used next to a pole returns the integral up to the sliver [a, a + |a| ue]
    (or [b - |b| ue, b]) that it leaves out on purpose; it is exact when the pole is at zero. *)
Theorem pole_transform_integral :
  forall ue N f (a b : R), 0 < N -> 0 <= ue -> integrable f a b -> (forall x : R, a < x < b -> continuous f x) ->
  (a + Rabs a * ue < b -> fejer2_XnP ue N f a b = Q f a b - Q f a (a + Rabs a * ue)) /\
  (a < b - Rabs b * ue -> fejer2_XnN ue N f a b = Q f a b - Q f (b - Rabs b * ue) b) /\
  (a = 0 -> fejer2_XnP ue N f a b = Q f a b) /\
  (b = 0 -> fejer2_XnN ue N f a b = Q f a b).
Proof. exact pole_transform_integral_main. Qed.
Print Assumptions pole_transform_integral.
