(** Vocabulary for expectations. *)
From Coq Require Import Reals List.
From Coquelicot Require Import Coquelicot.
From Verif Require Import Base Seg PiecewiseSpec Integral SegIntSpec TransformSpec.
Import List ListNotations.
Open Scope R_scope.

(** [m] is the mean of a law given by the probabilities [p u v] of open intervals (u,v): the integral of
    P(X > x) over the positive numbers minus the integral of P(X < x) over the negative ones *)
Definition law_mean (p : Rbar -> Rbar -> R) (m : R) : Prop :=
  integrable (fun x => p (Finite x) p_infty) 0 p_infty /\ integrable (fun x => p m_infty (Finite x)) m_infty 0 /\
  m = Q (fun x => p (Finite x) p_infty) 0 p_infty - Q (fun x => p m_infty (Finite x)) m_infty 0.

(** g(X) has an expectation: its integral against every continuous piece exists *)
Definition has_expect (g : R -> R) (l : list segment) : Prop :=
  forall s, In s l -> isDirac s = false -> integrable (fun x => g x * sf s x) (sa s) (sb s).
(** its value *)
Definition expect (g : R -> R) (l : list segment) : R :=
  sumR (map (fun s => match s with
                      | DiracSeg a m => g a * m
                      | _ => RInt_gen (fun x => g x * sf s x) (at_r (sa s)) (at_l (sb s))
                      end) l).

(** pieces of a probability density: well-formed, integrable, non-negative, of total probability one *)
Definition prob_law (l : list segment) : Prop :=
  Forall wf_seg l /\ Forall has_int l /\ Forall nonneg_piece l /\ pprob l m_infty p_infty = 1.
(** ... continuous inside its pieces and with a mean *)
Definition mean_ready (l : list segment) : Prop :=
  Forall wf_seg l /\ Forall has_int l /\ Forall nonneg_piece l /\ Forall cont_inside l /\ has_expect (fun x => x) l.
