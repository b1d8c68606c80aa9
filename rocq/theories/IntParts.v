(** Specification: integrals with finitely many interior singularities. *)
From Coq Require Import Reals Lra List Bool.
From Coquelicot Require Import Coquelicot.
From Verif Require Import Base Integral.
Import List ListNotations.
Open Scope R_scope.

(** [has_int h a b I]: the interval from a to b can be cut at finitely many points so that [h] has an
    improper Riemann integral on every part, and the sum of those integrals is [I]. *)
Inductive has_int (h : R -> R) : Rbar -> Rbar -> R -> Prop :=
| has_int_one a b I : integrable h a b -> is_RInt_gen h (at_r a) (at_l b) I -> has_int h a b I
| has_int_cat a b c I J : has_int h a b I -> has_int h b c J -> has_int h a c (I + J).
