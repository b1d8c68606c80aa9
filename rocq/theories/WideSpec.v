(** Specification: consecutive intervals from a to b. *)
From Coq Require Import Reals List.
Import List ListNotations.
Open Scope R_scope.
(** nonempty intervals, each starting where the previous one ended *)
Fixpoint tiles (a b : R) (l : list (R * R)) : Prop :=
  match l with
  | [] => a = b
  | (u, v) :: t => u = a /\ u < v /\ tiles v b t
  end.
