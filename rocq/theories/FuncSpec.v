(** Specification vocabulary for functions of a random variable. *)
From Coq Require Import Reals List Bool Permutation.
From Coquelicot Require Import Coquelicot.
From Verif Require Import Base Seg Piecewise PiecewiseSpec Integral TransformSpec.
Import List ListNotations.
Open Scope R_scope.

(** what the transformations ask of a function: pieces in order, well formed, integrable, continuous inside, atoms
    further apart than the tolerance *)
Definition smooth (eps : R) (l : list segment) : Prop :=
  ordered l /\ Forall wf_seg l /\ dirac_sep eps l /\ Forall has_int l /\ Forall cont_inside l.

(** q is the law of g(X) when l is the law of X and g is monotone on [A,B]: it lives on the image of [A,B] and every
    interval's image has the probability of the interval; its atoms are the images of the atoms *)
Definition image_law (inc : bool) (g : Rbar -> Rbar) (A B : Rbar) (l q : list segment) : Prop :=
  Forall (within (lo_end inc g A B) (hi_end inc g A B)) q /\
  Permutation (map (fun a : R => real (g a)) (dirac_pos l)) (dirac_pos q) /\
  forall u v, Rbar_le A u -> Rbar_lt u v -> Rbar_le v B ->
    pprob q (lo_end inc g u v) (hi_end inc g u v) = pprob l u v.

(** the density of g(X) at g(x), for x inside a piece s of the density of X (x = 0 is a break after the
    transformation): s(ginv y) |dginv y| at y = g(x) *)
Definition image_density (g : Rbar -> Rbar) (ginv dginv : R -> R) (l q : list segment) : Prop :=
  forall s (x : R), In s l -> isDirac s = false -> betw (sa s) (sb s) x -> x <> 0 ->
  exists t, In t q /\ isDirac t = false /\ betw (sa t) (sb t) (real (g x)) /\
    sf t (real (g x)) = sf s (ginv (real (g x))) * Rabs (dginv (real (g x))).

(** a function on R with its limits at -inf and inf *)
Definition lift (g : R -> R) (c d : Rbar) (x : Rbar) : Rbar :=
  match x with Finite x => Finite (g x) | m_infty => c | p_infty => d end.
Definition lift_ln (x : Rbar) : Rbar :=
  match x with Finite x => if Rlt_dec 0 x then Finite (ln x) else m_infty | m_infty => m_infty | p_infty => p_infty end.

(** x^d for x >= 0 and d <> 0 *)
Definition power (d : R) (x : Rbar) : Rbar :=
  match x with
  | Finite x => if Rlt_dec 0 x then Finite (Rpower x d) else if Rlt_dec 0 d then Finite 0 else p_infty
  | p_infty => if Rlt_dec 0 d then p_infty else Finite 0
  | m_infty => m_infty
  end.
(** c^x for c > 0, c <> 1 *)
Definition expo (c : R) (x : Rbar) : Rbar :=
  match x with
  | Finite x => Finite (Rpower c x)
  | p_infty => if Rlt_dec 1 c then p_infty else Finite 0
  | m_infty => if Rlt_dec 1 c then Finite 0 else p_infty
  end.
