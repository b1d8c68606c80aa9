(** Property theorems (Depm). Proofs are in DepmMain.v and the files it imports. *)
From Coq Require Import Reals Lra Lia List Bool Arith FunctionalExtensionality.
From Coquelicot Require Import Coquelicot.
From Verif Require Import Base Integral IntegralFacts SegIntFacts StdFacts2 StdFacts3 MStdFacts MStdFacts2 Copula CopulaSpec CopulaFacts CopulaFacts2 CopulaFacts3 CopulaMain Depm DepmSpec DepmFacts.
From Verif Require Import DepmMain.
Import List ListNotations.
Open Scope R_scope.

(** C74: Spearman's rho of a pair of variables lies between -1 and 1, whatever the copula and the marginals; it is -1 for the lower
    bound copula, 1 for the upper bound, 0 under independence. *)
Theorem rho_s_bounds :
  (forall a (C : R -> R -> R) c f g i j, is_copula2 C -> (i, j) = (0, 1)%nat \/ (i, j) = (1, 0)%nat ->
   exists r, cop_rho_s (Cop a (as_list C) c [f; g]) i j = Ok r /\ -1 <= r <= 1) /\
  (forall a c f g, cop_rho_s (Cop a (as_list lower2) c [f; g]) 0 1 = Ok (-1) /\ cop_rho_s (Cop a (as_list upper2) c [f; g]) 0 1 = Ok 1 /\
   cop_rho_s (Cop a (as_list Rmult) c [f; g]) 0 1 = Ok 0).
Proof. exact rho_s_bounds_main. Qed.
Print Assumptions rho_s_bounds.

(** C74: every variable is fully dependent on itself: rho and tau are 1, and the covariance is the variance, for both variables of an
    Archimedean copula. *)
Theorem dependence_self :
  (forall C c ms i, cop_rho_s (Cop true C c ms) i i = Ok 1 /\ cop_ctau (Cop true C c ms) i i = Ok 1) /\
  (forall C c f g i m, nth_error [f; g] i = Some m -> cop_tau (Cop true C c [f; g]) i i = Ok 1 /\
     cop_cov (Cop true C c [f; g]) i i = Ok (Q (fun x => (x - m_mean m) * (x - m_mean m) * m_pdf m x) (m_lo m) (m_hi m))).
Proof. exact dependence_self_main. Qed.
Print Assumptions dependence_self.

(** C74: a copula that lies above another one everywhere has the larger rho and the larger beta. *)
Theorem rho_s_order :
  forall a (C D : R -> R -> R) c c' f g, is_copula2 C -> is_copula2 D -> (forall u v, in01 u -> in01 v -> C u v <= D u v) ->
  exists r r', cop_rho_s (Cop a (as_list C) c [f; g]) 0 1 = Ok r /\ cop_rho_s (Cop a (as_list D) c' [f; g]) 0 1 = Ok r' /\ r <= r' /\
    blomqvist (as_list C) <= blomqvist (as_list D).
Proof. exact rho_s_order_main. Qed.
Print Assumptions rho_s_order.

(** C74: Kendall's tau from the density of a copula lies between -1 and 1; under independence it is 0. *)
Theorem ctau_bounds :
  (forall a (C c : R -> R -> R) f g i j, is_copula2 C -> copula_density c -> (i, j) = (0, 1)%nat \/ (i, j) = (1, 0)%nat ->
   (forall y, 0 < y < 1 -> integrable (fun x => C x y * c x y) 0 1) -> integrable (fun y => Q (fun x => C x y * c x y) 0 1) 0 1 ->
   exists r, cop_ctau (Cop a (as_list C) (as_list c) [f; g]) i j = Ok r /\ -1 <= r <= 1) /\
  (forall a f g, cop_ctau (Cop a (as_list Rmult) (as_list (fun _ _ => 1)) [f; g]) 0 1 = Ok 0).
Proof. exact ctau_bounds_main. Qed.
Print Assumptions ctau_bounds.

(** C74: Kendall's tau computed through the marginals is that of the copula: it does not depend on smooth marginals. *)
Theorem tau_margins :
  forall a (C c : list R -> R) f g (k : R -> R -> R), smooth_marg f -> smooth_marg g ->
  (forall u v, in01 u -> in01 v -> C [u; v] * c [u; v] = k u v) ->
  (forall v u, in01 u -> continuous (fun u => k u v) u) -> (forall v, in01 v -> continuous (fun v => RInt (fun u => k u v) 0 1) v) ->
  cop_tau (Cop a C c [f; g]) 0 1 = cop_ctau (Cop a C c [f; g]) 0 1.
Proof. exact tau_margins_main. Qed.
Print Assumptions tau_margins.

(** C74: independent variables have covariance and correlation 0, when the marginals report their mean. *)
Theorem cov_independent :
  forall a f g C i j, has_mean f -> has_mean g -> (i, j) = (0, 1)%nat \/ (i, j) = (1, 0)%nat ->
  cop_cov (Cop a C (as_list (fun _ _ => 1)) [f; g]) i j = Ok 0 /\ cop_corrcoef (Cop a C (as_list (fun _ _ => 1)) [f; g]) i j = Ok 0.
Proof. exact cov_independent_main. Qed.
Print Assumptions cov_independent.

(** C74: the diagonal of the correlation matrix of an Archimedean copula is not 1: corrcoef(0,0) is the ratio of the standard
    deviations of the first and the second variable. *)
Theorem corrcoef_diag_refuted :
  (forall C c f g, 0 < m_std f -> 0 < m_std g -> Q (fun x => (x - m_mean f) ^ 2 * m_pdf f x) (m_lo f) (m_hi f) = m_std f ^ 2 ->
   cop_corrcoef (Cop true C c [f; g]) 0 0 = Ok (m_std f / m_std g)) /\
  exists f g, (forall m, m = f \/ m = g -> has_mean m /\ 0 < m_std m /\ Q (fun x => (x - m_mean m) ^ 2 * m_pdf m x) (m_lo m) (m_hi m) = m_std m ^ 2) /\
    forall C c, exists r, cop_corrcoef (Cop true C c [f; g]) 0 0 = Ok r /\ 1 < r.
Proof. exact corrcoef_diag_refuted_main. Qed.
Print Assumptions corrcoef_diag_refuted.

(** C74: with three variables, cov(0,2) integrates over the range of variable 1: if the third density vanishes there, the result
    is 0, whatever the copula. *)
Theorem cov_third_lost :
  forall C c f g h, m_lo f < m_hi f -> m_lo g < m_hi g -> (forall y, m_lo g < y < m_hi g -> m_pdf h y = 0) ->
  cop_cov (Cop true C c [f; g; h]) 0 2 = Ok 0.
Proof. exact cov_third_lost_main. Qed.
Print Assumptions cov_third_lost.

(** C74: Kendall's tau from the generator is theta/(theta+2) for the Clayton copula and 1 - 1/theta for the Gumbel copula. *)
Theorem tau_c_values :
  forall (th : R) (fi fi' : R -> R),
  (0 < th -> (forall t, 0 < t < 1 -> clayton_fi th t = Some (Finite (fi t)) /\ is_derive fi t (fi' t)) -> tau_c fi fi' = th / (th + 2)) /\
  (1 <= th -> (forall t, 0 < t < 1 -> gumbel_fi th t = Some (Finite (fi t)) /\ is_derive fi t (fi' t)) -> tau_c fi fi' = 1 - 1 / th).
Proof. exact tau_c_values_main. Qed.
Print Assumptions tau_c_values.

(** C74: the covariance matrix of a joint density has 1 on its diagonal and E(XY) beside it: for two independent variables,
    uniform on [0,1], it says 1 and 1/4 where the covariances are 1/12 and 0. *)
Theorem nd_cov_refuted :
  (forall h f0 f1 g0 g1 i, nd_cov h f0 f1 g0 g1 i i = 1) /\ nd_cov (fun _ _ => 1) 0 1 0 1 0 1 = 1 / 4 /\
  integrate_iter (fun x y => (x - / 2) * (y - / 2)) 0 1 0 1 = 0 /\ Q (fun x => (x - / 2) ^ 2) 0 1 = 1 / 12.
Proof. exact nd_cov_refuted_main. Qed.
Print Assumptions nd_cov_refuted.
