(** Specification vocabulary for the named distributions. *)
From Coq Require Import Reals Lra List Bool Sorted.
From Coquelicot Require Import Coquelicot.
From Verif Require Import Base Seg Piecewise PiecewiseSpec Integral SegIntSpec.
Import List ListNotations.
Open Scope R_scope.

(** the pieces fill [a,b] from left to right without gaps *)
Fixpoint tiles (a : Rbar) (l : list segment) (b : Rbar) : Prop :=
  match l with
  | [] => a = b
  | s :: l' => sa s = a /\ tiles (sb s) l' b
  end.

(** The call succeeds, and the result is a density without atoms on the support [a,b], with total
    mass c and distribution function F. *)
Definition law_mass (r : res pwf) (a b : Rbar) (c : R) (F : R -> R) : Prop :=
  exists q, r = Ok q /\ tiles a (segs q) b /\ density (segs q) /\
    Forall (fun s => isDirac s = false /\ nonneg_piece s) (segs q) /\
    total_mass (segs q) = c /\ forall x : R, cdf_spec (segs q) x = F x.
(** the total mass is 1 *)
Definition law (r : res pwf) (a b : Rbar) (F : R -> R) : Prop := law_mass r a b 1 F.

(** a distribution function given by the formula H inside its support *)
Definition within (a b : Rbar) (H : R -> R) (x : R) : R :=
  if Rbar_le_dec x a then 0 else if Rbar_le_dec b x then 1 else H x.

(** Textbook distribution functions. *)
Definition uniform_cdf (a b : R) : R -> R := within a b (fun x => (x - a) / (b - a)).
Definition trapz_cdf (a b c d : R) : R -> R := within a d (fun x =>
  let u := 2 / (d + c - (b + a)) in
  if Rle_dec x b then u * (x - a) * (x - a) / (2 * (b - a))
  else if Rle_dec x c then u * ((b - a) / 2 + (x - b))
  else 1 - u * (d - x) * (d - x) / (2 * (d - c))).
Definition cauchy_cdf (gamma center : R) (x : R) : R := 1 / 2 + atan ((x - center) / gamma) / PI.
Definition expo_cdf (lmbda : R) : R -> R := within 0 p_infty (fun x => 1 - exp (- (lmbda * x))).
Definition pareto_cdf (alpha xmin : R) : R -> R := within xmin p_infty (fun x => 1 - Rpower (xmin / x) alpha).
Definition laplace_cdf (lmbda mu x : R) : R :=
  if Rle_dec x mu then / 2 * exp ((x - mu) / lmbda) else 1 - / 2 * exp (- (x - mu) / lmbda).
Definition weibull_cdf (k lmbda : R) : R -> R := within 0 p_infty (fun x => 1 - exp (- Rpower (x / lmbda) k)).
Definition gumbel_cdf (mu sigma x : R) : R := exp (- exp (- (x - mu) / sigma)).
Definition frechet_cdf (alpha s m : R) : R -> R := within m p_infty (fun x => exp (- Rpower ((x - m) / s) (- alpha))).
Definition loglog_cdf (k s : R) : R -> R := within 0 p_infty (fun x => Rpower x k / (Rpower s k + Rpower x k)).
Definition semi_cdf (r : R) : R -> R := within (- r) r (fun x =>
  / 2 + x * sqrt (r * r - x * x) / (PI * r * r) + asin (x / r) / PI).
(** the standard normal distribution function *)
Definition Phi (x : R) : R := / 2 + RInt (fun t => exp (- (t * t) / 2)) 0 x / sqrt (2 * PI).
Definition normal_cdf (mu sigma x : R) : R := Phi ((x - mu) / sigma).
Definition levy_cdf (c xmin : R) : R -> R := within xmin p_infty (fun x => 2 * (1 - Phi (sqrt (c / (x - xmin))))).
(** the gamma integral, and what utils.lgamma has to return at k *)
Definition gamma_kernel (k t : R) : R := Rpower t (k - 1) * exp (- t).
Definition Gamma (k : R) : R := Q (gamma_kernel k) 0 p_infty.
Definition is_lgamma (lg : R -> R) (k : R) : Prop := exp (lg k) = Gamma k.
Definition gamma_cdf (k theta : R) : R -> R := within 0 p_infty (fun x => Q (gamma_kernel k) 0 (x / theta) / Gamma k).
(** the beta integral, and its relation to lgamma *)
Definition beta_kernel (p q t : R) : R := Rpower t (p - 1) * Rpower (1 - t) (q - 1).
Definition Beta (p q : R) : R := Q (beta_kernel p q) 0 1.
Definition is_lbeta (lg : R -> R) (p q : R) : Prop := exp (lg p + lg q - lg (p + q)) = Beta p q.
Definition beta_cdf (p q : R) : R -> R := within 0 1 (fun x => Q (beta_kernel p q) 0 x / Beta p q).
Definition fdist_cdf (d1 d2 : R) : R -> R := within 0 p_infty (fun x => beta_cdf (d1 / 2) (d2 / 2) (d1 * x / (d1 * x + d2))).
(** Student's kernel, and what lgamma has to return for its integral *)
Definition student_kernel (df t : R) : R := Rpower (1 + t ^ 2 / df) (- ((df + 1) / 2)).
Definition student_integral (df : R) : R := Q (student_kernel df) m_infty p_infty.
Definition is_lstudent (lg : R -> R) (df : R) : Prop :=
  sqrt (df * PI) * exp (lg (df / 2) - lg ((df + 1) / 2)) = student_integral df.
Definition student_cdf (df x : R) : R := Q (student_kernel df) m_infty x / student_integral df.

Definition finb (x : Rbar) : bool := match x with Finite _ => true | _ => false end.
Definition flag (l : list bool) (i : nat) : bool := nth i l false.

(** What a caller of PiecewiseFunction(fun, breakPoints, lpoles, rpoles) expects of piece i: it spans break points
    i and i+1, evaluates to the function, and is declared singular at the flagged ends (half-lines never are). *)
Definition piece_ok (f : R -> R) (bp : list Rbar) (lp rp : list bool) (i : nat) (s : segment) : Prop :=
  let a := nth i bp m_infty in let b := nth (S i) bp m_infty in
  isDirac s = false /\ sa s = a /\ sb s = b /\ (forall x : R, sf s x = f x) /\
  hasLeftPole s = (finb a && finb b && flag lp i)%bool /\
  hasRightPole s = (finb a && finb b && flag rp (S i))%bool.

(** the two ends of an interval are never both declared singular *)
Definition poles_apart (bp : list Rbar) (lp rp : list bool) : Prop :=
  forall i, (S i < length bp)%nat -> finb (nth i bp m_infty) = true -> finb (nth (S i) bp m_infty) = true ->
    flag lp i = false \/ flag rp (S i) = false.
(** no two consecutive break points are declared singular from the left *)
Definition no_double_rpole (bp : list Rbar) (rp : list bool) : Prop :=
  forall i, (S i < length bp)%nat -> flag rp (S i) = true -> flag rp i = false.
