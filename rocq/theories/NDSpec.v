(** Specification vocabulary for multivariate functions and products. *)
From Coq Require Import Reals List Bool Arith Sorted.
From Verif Require Import Base ND.
Import List ListNotations.
Open Scope R_scope.

(** coordinates inside a box *)
Definition all_in (X a b : list R) : Prop := forall i, (i < length X)%nat -> nth i a 0 <= nth i X 0 <= nth i b 0.
Definition none_in (X a b : list R) : Prop := forall i, (i < length X)%nat -> ~ (nth i a 0 <= nth i X 0 <= nth i b 0).
(** a variable set to a value *)
Definition upd (env : nat -> R) (v : nat) (x : R) : nat -> R := fun w => if Nat.eqb w v then x else env w.
(** an integration rule that respects pointwise equality and constant factors *)
Definition homogeneous (integ : (R -> R) -> R -> R -> R) : Prop :=
  (forall f g a b, (forall x, f x = g x) -> integ f a b = integ g a b) /\
  (forall c f a b, integ (fun x => c * f x) a b = c * integ f a b).
Definition fubini (integ : (R -> R) -> R -> R -> R) : Prop :=
  forall h a b c d, integ (fun x => integ (fun y => h x y) c d) a b = integ (fun y => integ (fun x => h x y) a b) c d.
(** a function of an environment integrated over one variable, and over a list of them, the first innermost *)
Definition integ1 (integ : (R -> R) -> R -> R -> R) (lo hi : nat -> R) (v : nat) (g : (nat -> R) -> R) (env : nat -> R) : R :=
  integ (fun x => g (upd env v x)) (lo v) (hi v).
Fixpoint integ_all (integ : (R -> R) -> R -> R -> R) (lo hi : nat -> R) (vs : list nat) (g : (nat -> R) -> R) : (nat -> R) -> R :=
  match vs with [] => g | v :: vs' => integ_all integ lo hi vs' (integ1 integ lo hi v g) end.

(** factors as they are built from random variables: distinct variables, and the box is that of their ranges *)
Definition wf_nd (lo hi : nat -> R) (F : ndfun) : Prop :=
  NoDup (nd_vars F) /\ nd_vars F <> [] /\ nd_a F = map lo (nd_vars F) /\ nd_b F = map hi (nd_vars F).
Definition wf_f (lo hi : nat -> R) (g : factor) : Prop := match g with FDens F => wf_nd lo hi F | _ => True end.
(** the variables of a factor are in the order of their names *)
Definition srt (g : factor) : Prop := StronglySorted lt (f_vars g).
(** the value of a product of factors *)
Definition density (fs : list factor) (env : nat -> R) : R := fold_right (fun g y => f_val g env * y) 1 fs.
(** the variables occurring in a list of factors *)
Definition occurs (w : nat) (fs : list factor) : Prop := exists g, In g fs /\ In w (f_vars g).
