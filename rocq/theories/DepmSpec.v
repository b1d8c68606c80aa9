(** Specification vocabulary for measures of dependence. *)
From Coq Require Import Reals List.
From Coquelicot Require Import Coquelicot.
From Verif Require Import Base Integral CopulaSpec Depm.
Import List ListNotations.
Open Scope R_scope.

(** a function of two numbers as a function of a list *)
Definition as_list (C : R -> R -> R) : list R -> R := fun X => C (nth 0 X 0) (nth 1 X 0).
(** the extreme copulas *)
Definition lower2 (u v : R) : R := Rmax (u + v - 1) 0.
Definition upper2 (u v : R) : R := Rmin u v.
(** a smooth marginal: on its range the cdf rises from 0 to 1 with derivative pdf (one-sided at the ends) *)
Definition smooth_marg (m : dmarg) : Prop :=
  m_lo m < m_hi m /\ m_cdf m (m_lo m) = 0 /\ m_cdf m (m_hi m) = 1 /\ (forall x, m_lo m <= x <= m_hi m -> in01 (m_cdf m x)) /\
  exists F f : R -> R, forall x, m_lo m <= x <= m_hi m -> m_cdf m x = F x /\ m_pdf m x = f x /\ is_derive F x (f x) /\ continuous f x.
(** a marginal with the stated mean *)
Definition has_mean (m : dmarg) : Prop :=
  m_lo m < m_hi m /\ integrable (m_pdf m) (m_lo m) (m_hi m) /\ Q (m_pdf m) (m_lo m) (m_hi m) = 1 /\
  integrable (fun x => x * m_pdf m x) (m_lo m) (m_hi m) /\ Q (fun x => x * m_pdf m x) (m_lo m) (m_hi m) = m_mean m.
(** a density of a copula: nonnegative, with uniform margins in the first variable *)
Definition copula_density (c : R -> R -> R) : Prop :=
  (forall x y, 0 < x < 1 -> 0 < y < 1 -> 0 <= c x y) /\
  (forall y, 0 < y < 1 -> integrable (fun x => c x y) 0 1 /\ Q (fun x => c x y) 0 1 = 1).
