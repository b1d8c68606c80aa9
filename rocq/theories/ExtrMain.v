(** Main statements about minima and maxima of independent variables. *)
From Coq Require Import Reals Lra List Bool Sorted Permutation.
From Coquelicot Require Import Coquelicot.
From Verif Require Import Base Bisect Seg Piecewise PiecewiseSpec PiecewiseFacts PiecewiseFacts2 PiecewiseFacts3 PiecewiseFacts4 Integral SegInt SegIntSpec IntParts Indep IndepSpec AtomFacts AtomFacts2 AtomFacts3 ConvolFacts IndepAsm AsmFacts ExtrFacts ExtrFacts2 ExtrFacts3 CdfDerive.
Import List ListNotations.
Open Scope R_scope.

(** C25: one value of the density of the minimum and of the maximum.  With the pairs of pieces selected for
    any point z that no end of a piece separates from x, the number computed at x is f(x)P(Y>x) + g(x)P(X>x) for
    the minimum and f(x)P(Y<x) + g(x)P(X<x) for the maximum. *)
Lemma extr_point_exact_main :
  forall f g z x, Forall wf_seg f -> Forall wf_seg g -> Forall integrable_piece f -> Forall integrable_piece g ->
  (forall p : R, is_end f p \/ is_end g p -> same_side p z x) ->
  rbind (findSegList f g z op_min) (fun l => convmin_at_point l x) = Ok (dens f x * prob_above g x + dens g x * prob_above f x) /\
  rbind (findSegList f g z op_max) (fun l => convmax_at_point l x) = Ok (dens f x * prob_below g x + dens g x * prob_below f x).
Proof.
  intros f g z x Wf Wg If Ig S. split; [apply min_value|apply max_value]; auto; intros p Hp; apply S; auto.
Qed.

Lemma above_derive l (x : R) : Forall wf_seg l -> Forall integrable_piece l -> ~ is_end l x -> cont_at l x -> is_derive (prob_above l) x (- dens l x).
Proof.
  intros W HI N C. unfold prob_above. replace (- dens l x) with (minus 0 (dens l x)) by (unfold minus, plus, opp; simpl; ring).
  apply (is_derive_minus (V := R_NormedModule)); [apply (is_derive_const (V := R_NormedModule))|apply cdf_derive; auto].
Qed.
Lemma below_cdf l (x : R) : ~ is_end l x -> prob_below l x = cdf_spec l x.
Proof. intros N. unfold prob_below. rewrite pm_notin; [ring|]. intros H. apply N. apply dirac_end; auto. Qed.

Lemma min_struct eps f g : 0 <= eps ->
  ordered f -> ordered g -> Forall wf_seg f -> Forall wf_seg g -> Forall integrable_piece f -> Forall integrable_piece g ->
  dirac_sep eps f -> dirac_sep eps g -> cross_sep eps f g ->
  (exists p : R, is_end f p) -> (exists p : R, is_end g p) ->
  exists q, convmin eps f g = Ok q /\ ordered (segs q) /\ Forall wf_seg (segs q) /\
    (forall z, pm (segs q) z = pm f z * prob_above g z + prob_above f z * pm g z + pm f z * pm g z) /\
    (forall x : R, ~ is_end f x -> ~ is_end g x -> call_vec (segs q) x = dens f x * prob_above g x + dens g x * prob_above f x) /\
    (forall y, is_end (segs q) y -> is_end f y \/ is_end g y) /\
    dirac_sep eps (segs q) /\ (forall b, In b (dirac_pos (segs q)) <-> In b (dirac_pos f) \/ In b (dirac_pos g)) /\
    (forall s, In s (segs q) -> isDirac s = false ->
       (integrable (sf s) (sa s) (sb s) -> integrable_piece s) /\
       (forall p, is_end f p \/ is_end g p -> ~ (Rbar_lt (sa s) p /\ Rbar_lt p (sb s))) /\
       (exists p r, is_end f p /\ is_end g r /\ sa s = bmin p r) /\ (exists p r, is_end f p /\ is_end g r /\ sb s = bmin p r)).
Proof.
  intros. apply (conv_extr_ok bmin convmin_at_point (fun g x => pw_integrate g x p_infty) prob_above); auto.
  - intros p r. unfold bmin. destruct (blt _ _); auto.
  - apply far_min.
  - intros. apply min_value; auto.
  - intros. apply prob_above_ok; auto.
  - intros. apply split_prob; auto.
  - intros. apply outside_min; auto.
Qed.
Lemma max_struct eps f g : 0 <= eps ->
  ordered f -> ordered g -> Forall wf_seg f -> Forall wf_seg g -> Forall integrable_piece f -> Forall integrable_piece g ->
  dirac_sep eps f -> dirac_sep eps g -> cross_sep eps f g ->
  (exists p : R, is_end f p) -> (exists p : R, is_end g p) ->
  exists q, convmax eps f g = Ok q /\ ordered (segs q) /\ Forall wf_seg (segs q) /\
    (forall z, pm (segs q) z = pm f z * prob_below g z + prob_below f z * pm g z + pm f z * pm g z) /\
    (forall x : R, ~ is_end f x -> ~ is_end g x -> call_vec (segs q) x = dens f x * prob_below g x + dens g x * prob_below f x) /\
    (forall y, is_end (segs q) y -> is_end f y \/ is_end g y) /\
    dirac_sep eps (segs q) /\ (forall b, In b (dirac_pos (segs q)) <-> In b (dirac_pos f) \/ In b (dirac_pos g)) /\
    (forall s, In s (segs q) -> isDirac s = false ->
       (integrable (sf s) (sa s) (sb s) -> integrable_piece s) /\
       (forall p, is_end f p \/ is_end g p -> ~ (Rbar_lt (sa s) p /\ Rbar_lt p (sb s))) /\
       (exists p r, is_end f p /\ is_end g r /\ sa s = bmax p r) /\ (exists p r, is_end f p /\ is_end g r /\ sb s = bmax p r)).
Proof.
  intros. apply (conv_extr_ok bmax convmax_at_point (fun g x => pw_integrate g m_infty x) prob_below); auto.
  - intros p r. unfold bmax. destruct (blt _ _); auto.
  - apply far_max.
  - intros. apply max_value; auto.
  - intros. apply prob_below_ok; auto.
  - intros. apply split_prob; auto.
  - intros. apply outside_max; auto.
Qed.

(** C25: the whole of convmin.  The result exists, is ordered, its atoms are those of min(X,Y), and at
    every point that is not an end of a piece its value is f(x)P(Y>x) + g(x)P(X>x); that is the derivative of
    the distribution function of min(X,Y), 1 - P(X>t)P(Y>t), wherever the densities are continuous.  Gaps between
    pieces, atoms, infinite ends and poles are all allowed.  The result has no ends of its own. *)
Lemma min_exact_main :
  forall eps f g, 0 <= eps ->
  ordered f -> ordered g -> Forall wf_seg f -> Forall wf_seg g -> Forall integrable_piece f -> Forall integrable_piece g ->
  dirac_sep eps f -> dirac_sep eps g -> cross_sep eps f g ->
  (exists p : R, is_end f p) -> (exists p : R, is_end g p) ->
  exists q, convmin eps f g = Ok q /\ ordered (segs q) /\ Forall wf_seg (segs q) /\
    (forall z, pm (segs q) z = pm f z * prob_above g z + prob_above f z * pm g z + pm f z * pm g z) /\
    (forall x : R, ~ is_end f x -> ~ is_end g x ->
       call_vec (segs q) x = dens f x * prob_above g x + dens g x * prob_above f x /\
       (cont_at f x -> cont_at g x ->
        is_derive (fun t => total_mass f * total_mass g - prob_above f t * prob_above g t) x (call_vec (segs q) x))) /\
    (forall y, is_end (segs q) y -> is_end f y \/ is_end g y).
Proof.
  intros eps f g He Of Og Wf Wg If Ig Sf Sg Sc Ef Eg.
  destruct (min_struct eps f g) as (q & Q1 & Q2 & Q3 & Q4 & Q5 & Q6 & _); auto.
  exists q. splits; auto. intros x Nf Ng. split; auto. intros Cf Cg. rewrite Q5 by auto.
    replace (dens f x * prob_above g x + dens g x * prob_above f x)
      with (minus 0 (plus (mult (- dens f x) (prob_above g x)) (mult (prob_above f x) (- dens g x)))) by (unfold minus, plus, opp, mult; simpl; ring).
    apply (is_derive_minus (V := R_NormedModule)); [apply (is_derive_const (V := R_NormedModule))|].
    apply (is_derive_mult (prob_above f) (prob_above g)); [apply above_derive|apply above_derive|]; auto. intros; unfold mult; simpl; ring.
Qed.

(** C25: the whole of convmax: value f(x)P(Y<x) + g(x)P(X<x), the derivative of P(X<=t)P(Y<=t). *)
Lemma max_exact_main :
  forall eps f g, 0 <= eps ->
  ordered f -> ordered g -> Forall wf_seg f -> Forall wf_seg g -> Forall integrable_piece f -> Forall integrable_piece g ->
  dirac_sep eps f -> dirac_sep eps g -> cross_sep eps f g ->
  (exists p : R, is_end f p) -> (exists p : R, is_end g p) ->
  exists q, convmax eps f g = Ok q /\ ordered (segs q) /\ Forall wf_seg (segs q) /\
    (forall z, pm (segs q) z = pm f z * prob_below g z + prob_below f z * pm g z + pm f z * pm g z) /\
    (forall x : R, ~ is_end f x -> ~ is_end g x ->
       call_vec (segs q) x = dens f x * prob_below g x + dens g x * prob_below f x /\
       (cont_at f x -> cont_at g x ->
        is_derive (fun t => cdf_spec f t * cdf_spec g t) x (call_vec (segs q) x))) /\
    (forall y, is_end (segs q) y -> is_end f y \/ is_end g y).
Proof.
  intros eps f g He Of Og Wf Wg If Ig Sf Sg Sc Ef Eg.
  destruct (max_struct eps f g) as (q & Q1 & Q2 & Q3 & Q4 & Q5 & Q6 & _); auto.
  exists q. splits; auto. intros x Nf Ng. split; auto. intros Cf Cg. rewrite Q5, !below_cdf by auto.
    replace (dens f x * cdf_spec g x + dens g x * cdf_spec f x)
      with (plus (mult (dens f x) (cdf_spec g x)) (mult (cdf_spec f x) (dens g x))) by (unfold plus, mult; simpl; ring).
    apply (is_derive_mult (cdf_spec f) (cdf_spec g)); [apply cdf_derive|apply cdf_derive|]; auto. intros; unfold mult; simpl; ring.
Qed.
