(** Vocabulary for mixtures. *)
From Coq Require Import Reals List Arith.
From Coquelicot Require Import Coquelicot.
From Verif Require Import Base Seg PiecewiseSpec TransformSpec.
Import List ListNotations.
Open Scope R_scope.

(** a density: ordered well-formed pieces, separated atoms, integrable *)
Definition component (eps : R) (l : list segment) : Prop :=
  ordered l /\ Forall wf_seg l /\ dirac_sep eps l /\ Forall has_int l.
(** the law with weights ps: sum of p_i times the probability under component i *)
Definition mixture_prob (ps : list R) (cs : list (list segment)) (u v : Rbar) : R :=
  sumR (map (fun pc => fst pc * pprob (snd pc) u v) (combine ps cs)).
(** all sequences of length n with entries below m *)
Fixpoint sequences (m n : nat) : list (list nat) :=
  match n with O => [[]] | S n' => flat_map (fun k => map (cons k) (sequences m n')) (seq 0 m) end.
(** mean over a uniformly chosen sequence *)
Definition uniform_mean (m n : nat) (g : list nat -> R) : R := sumR (map g (sequences m n)) / INR m ^ n.
(** number of earlier positions with the same entry *)
Definition rank (idx : list nat) (j : nat) : nat := length (filter (Nat.eqb (nth j idx O)) (firstn j idx)).
