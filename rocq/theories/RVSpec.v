(** Specification vocabulary for random-variable objects. *)
From Coq Require Import Reals List Bool Arith.
From Coquelicot Require Import Coquelicot.
From Verif Require Import Base ND Models RV.
Import List ListNotations.
Open Scope R_scope.

(** objects refer to older objects only *)
Definition wf_heap (h : heap) : Prop :=
  forall i c, nth_error h i = Some c -> (forall p, In p (args (c_kind c)) -> (p < i)%nat) /\ (forall p, In p (c_par c) -> (p < i)%nat).
Definition extends (h h' : heap) : Prop := exists l, h' = h ++ l.
(** the ancestors of an object, itself included *)
Inductive reach (h : heap) : nat -> nat -> Prop :=
| reach_self i : reach h i i
| reach_par i c p j : nth_error h i = Some c -> In p (c_par c) -> reach h p j -> reach h i j.

(** the value of an object for given values of the base variables; functions have values on their domains only *)
Inductive un_is : uop -> R -> R -> Prop :=
| un_exp x : un_is UExp x (exp x)
| un_log x : 0 < x -> un_is ULog x (ln x)
| un_atan x : un_is UAtan x (atan x)
| un_tanh x : un_is UTanh x (tanh x)
| un_inv x : x <> 0 -> un_is UInv x (/ x)
| un_square x : un_is USquare x (x ^ 2)
| un_abs x : un_is UAbs x (Rabs x).
Inductive bin_is : bop -> R -> R -> R -> Prop :=
| bin_sum x y : bin_is OSum x y (x + y)
| bin_sub x y : bin_is OSub x y (x - y)
| bin_mul x y : bin_is OMul x y (x * y)
| bin_div x y : y <> 0 -> bin_is ODiv x y (x / y)
| bin_min x y : bin_is OMin x y (Rmin x y)
| bin_max x y : bin_is OMax x y (Rmax x y).
Inductive value (h : heap) (w : nat -> R) : nat -> R -> Prop :=
| val_base i c : nth_error h i = Some c -> c_kind c = KBase -> value h w i (w i)
| val_const i c r : nth_error h i = Some c -> c_kind c = KConst r -> value h w i r
| val_shift i c s m d x : nth_error h i = Some c -> c_kind c = KShift s m d -> value h w d x -> value h w i (m * x + s)
| val_un i c f d x y : nth_error h i = Some c -> c_kind c = KUn f d -> value h w d x -> un_is f x y -> value h w i y
| val_bin i c o d1 d2 x y z : nth_error h i = Some c -> c_kind c = KBin o d1 d2 -> value h w d1 x -> value h w d2 y -> bin_is o x y z -> value h w i z.
Definition pvalue (h : heap) (w : nat -> R) (v : pyval) (x : R) : Prop := match v with VNum r => x = r | VRV i => value h w i x end.

(** operators with a number: which one, and whether the variable stands on the left *)
Inductive nop := NAdd | NSub | NMul | NDiv | NPow.
Definition num_op (nonneg : heap -> nat -> bool) (o : nop) (left : bool) (h : heap) (X : nat) (r : R) : res (heap * pyval) :=
  match o, left with
  | NAdd, true => add_num h X r | NAdd, false => radd_num h X r
  | NSub, true => sub_num h X r | NSub, false => rsub_num h X r
  | NMul, true => mul_num h X r | NMul, false => rmul_num h X r
  | NDiv, true => div_num h X r | NDiv, false => rdiv_num h X r
  | NPow, true => pow_num nonneg h X r | NPow, false => rpow_num h X r
  end.
(** ... and what they mean for a value x of the variable *)
Definition arith (o : nop) (left : bool) (x r z : R) : Prop :=
  match o, left with
  | NAdd, _ => z = x + r
  | NSub, true => z = x - r
  | NSub, false => z = r - x
  | NMul, _ => z = x * r
  | NDiv, true => r <> 0 /\ z = x / r
  | NDiv, false => x <> 0 /\ z = r / x
  | NPow, true => (0 < x /\ z = Rpower x r) \/ (r = 0 /\ z = 1) \/ (r = 1 /\ z = x) \/ (r = -1 /\ x <> 0 /\ z = / x) \/ (r = 2 /\ z = x ^ 2)
  | NPow, false => (0 < r /\ z = Rpower r x) \/ (r = 0 /\ 0 < x /\ z = 0)
  end.

(** heaps made with the constructors from base variables *)
Inductive built : heap -> Prop :=
| built_nil : built []
| built_base h c : built h -> c_kind c = KBase -> built (h ++ [c])
| built_const h r h' i : built h -> new_const h r = (h', i) -> built h'
| built_shift h d s m h' i : built h -> new_shift h d s m = Ok (h', i) -> built h'
| built_un h f d h' i : built h -> new_un h f d = Ok (h', i) -> built h'
| built_bin h o d1 d2 b h' i : built h -> new_bin h o d1 d2 b = Ok (h', i) -> built h'.
Definition in_range (r : option Rbar * option Rbar) (x : R) : Prop :=
  match r with (Some a, Some b) => Rbar_le a x /\ Rbar_le x b | _ => False end.
(** a range that keeps one sign: not below zero, or below zero *)
Definition one_sign (r : option Rbar * option Rbar) : Prop :=
  match r with (Some a, Some b) => Rbar_le 0 a \/ Rbar_lt b 0 | _ => False end.
(** expressions for which ranges are right: shifts of variables that do not override range(), sums, products,
    and quotients by variables whose range keeps one sign *)
Inductive ranged (h : heap) : nat -> Prop :=
| rg_base i c : nth_error h i = Some c -> c_kind c = KBase -> ranged h i
| rg_shift i c s m d c' : nth_error h i = Some c -> c_kind c = KShift s m d -> ranged h d -> nth_error h d = Some c' -> range_of c' = (c_a c', c_b c') -> ranged h i
| rg_sum i c d1 d2 : nth_error h i = Some c -> c_kind c = KBin OSum d1 d2 -> ranged h d1 -> ranged h d2 -> ranged h i
| rg_mul i c d1 d2 : nth_error h i = Some c -> c_kind c = KBin OMul d1 d2 -> ranged h d1 -> ranged h d2 -> c_a c <> None -> ranged h i
| rg_div i c d1 d2 c2 : nth_error h i = Some c -> c_kind c = KBin ODiv d1 d2 -> ranged h d1 -> ranged h d2 -> nth_error h d2 = Some c2 -> one_sign (range_of c2) -> c_a c <> None -> ranged h i.

(** the base variables an object is computed from *)
Inductive uses (h : heap) : nat -> nat -> Prop :=
| uses_base i c : nth_error h i = Some c -> c_kind c = KBase -> uses h i i
| uses_arg i c p j : nth_error h i = Some c -> In p (args (c_kind c)) -> uses h p j -> uses h i j.
(** all objects an object is computed from, itself included *)
Inductive under (h : heap) : nat -> nat -> Prop :=
| under_self i : under h i i
| under_arg i c p j : nth_error h i = Some c -> In p (args (c_kind c)) -> under h p j -> under h i j.
(** an object tracked for sampling: nothing it is computed from is treated as independent *)
Definition tracked (h : heap) (i : nat) : Prop := forall j c, under h i j -> nth_error h j = Some c -> c_indep c = false.
(** a cache that belongs to one joint sample w of the base variables *)
Definition cache_of (h : heap) (w : nat -> R) (ca : cache) : Prop := forall i x, cached i ca = Some x -> value h w i x.
Definition lookup_val (ca : option cache) (i : nat) : option R := match ca with Some l => cached i l | None => None end.
(** sampling several objects one after another with one cache *)
Fixpoint samples (draw : nat -> nat -> R) (h : heap) (l : list nat) (ca : option cache) (k : nat) : res (list R * option cache * nat) :=
  match l with
  | [] => Ok ([], ca, k)
  | i :: l' => rbind (sample draw h i ca k) (fun t => rmap (fun u => (fst (fst t) :: fst (fst u), snd (fst u), snd u)) (samples draw h l' (snd (fst t)) (snd t)))
  end.
(** an object computed with a separate draw for every occurrence of a base variable, from the k-th to before the k'-th *)
Inductive fresh (draw : nat -> nat -> R) (h : heap) : nat -> nat -> R -> nat -> Prop :=
| fr_base i c k : nth_error h i = Some c -> c_kind c = KBase -> fresh draw h i k (draw k i) (S k)
| fr_const i c r k : nth_error h i = Some c -> c_kind c = KConst r -> fresh draw h i k r k
| fr_shift i c s m d k x k' : nth_error h i = Some c -> c_kind c = KShift s m d -> fresh draw h d k x k' -> fresh draw h i k (m * x + s) k'
| fr_un i c f d k x k' y : nth_error h i = Some c -> c_kind c = KUn f d -> fresh draw h d k x k' -> un_is f x y -> fresh draw h i k y k'
| fr_bin i c o d1 d2 k x k1 y k2 z : nth_error h i = Some c -> c_kind c = KBin o d1 d2 -> fresh draw h d1 k x k1 -> fresh draw h d2 k1 y k2 -> bin_is o x y z -> fresh draw h i k z k2.
(** an object computed without logarithms, inverses and quotients *)
Definition no_partial (h : heap) (i : nat) : Prop :=
  forall j c, under h i j -> nth_error h j = Some c -> match c_kind c with KUn ULog _ | KUn UInv _ | KBin ODiv _ _ => False | _ => True end.
(** objects with names of their own whose operations have their operands as parents and an equation saying what
    they compute *)
Definition equation (h : heap) (c : cell) : Prop :=
  match c_kind c with
  | KBase | KConst _ => c_par c = []
  | KShift s m d => c_par c = [d] /\ exists c', nth_error h d = Some c' /\ forall env, eval (c_sym c) env = m * env (c_name c') + s
  | KUn f d => c_par c = [d] /\ exists c', nth_error h d = Some c' /\ forall env z, un_is f (env (c_name c')) z -> eval (c_sym c) env = z
  | KBin o d1 d2 => c_par c = [d1; d2] /\ exists c1 c2, nth_error h d1 = Some c1 /\ nth_error h d2 = Some c2 /\ forall env z, bin_is o (env (c_name c1)) (env (c_name c2)) z -> eval (c_sym c) env = z
  end.
Definition named (h : heap) : Prop :=
  (forall i j c d, nth_error h i = Some c -> nth_error h j = Some d -> c_name c = c_name d -> i = j) /\
  forall i c, nth_error h i = Some c -> equation h c /\ (c_par c <> [] -> forall v, In v (atoms (c_sym c)) -> exists p cp, In p (c_par c) /\ nth_error h p = Some cp /\ v = c_name cp).
(** the objects given and their ancestors *)
Definition involved (h : heap) (rvs : list nat) (j : nat) (c : cell) : Prop := nth_error h j = Some c /\ exists i, In i rvs /\ reach h i j.
(** heaps made with the constructors from base variables that have no parents and their default names *)
Definition default_base (h : heap) : Prop := forall i c, nth_error h i = Some c -> c_kind c = KBase -> c_par c = [] /\ c_name c = i.
