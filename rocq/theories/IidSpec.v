(** Specification: n-fold combinations. *)
From Coq Require Import List.
From Verif Require Import Base.

(** ways of bracketing a combination of copies of one variable *)
Inductive tree := Leaf | Node (l r : tree).
Fixpoint leaves (t : tree) : nat := match t with Leaf => 1 | Node l r => leaves l + leaves r end.
(** the value of a bracketing, left to right *)
Fixpoint eval {A} (op : A -> A -> res A) (x : A) (t : tree) : res A :=
  match t with
  | Leaf => Ok x
  | Node l r => rbind (eval op x l) (fun u => rbind (eval op x r) (fun v => op u v))
  end.
(** x combined with itself n+1 times, bracketed to the left *)
Fixpoint nfold {A} (m : A -> A -> A) (x : A) (n : nat) : A := match n with O => x | S k => m (nfold m x k) x end.
