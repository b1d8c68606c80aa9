(** Specification vocabulary for discrete laws given by a list of values with probabilities. *)
From Coq Require Import Reals List Bool.
From Verif Require Import Base.
Import List ListNotations.
Open Scope R_scope.

(** P(X = x), P(X < x), P(X <= x): the given probabilities of the values in question, added up *)
Definition p_eq (px : list (R * R)) (x : R) : R := sumR (map (fun p => if Req_EM_T (fst p) x then snd p else 0) px).
Definition p_lt (px : list (R * R)) (x : R) : R := sumR (map (fun p => if Rlt_dec (fst p) x then snd p else 0) px).
Definition p_le (px : list (R * R)) (x : R) : R := sumR (map (fun p => if Rle_dec (fst p) x then snd p else 0) px).
(** all of it *)
Definition p_all (px : list (R * R)) : R := sumR (map snd px).
(** values further apart than the tolerance *)
Definition values_apart (eps : R) (xi : list R) : Prop :=
  forall i j a b, nth_error xi i = Some a -> nth_error xi j = Some b -> i <> j -> eps < Rabs (a - b).
