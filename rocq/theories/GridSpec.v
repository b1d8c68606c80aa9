(** Specification vocabulary for grids. *)
From Coq Require Import Reals List Bool Arith.
From Verif Require Import Base InterpSpec.
Import List ListNotations.
Open Scope R_scope.

(** index tuples: one entry below each bound; the tuple number n in lexicographic order, the last entry fastest *)
Inductive below : list nat -> list nat -> Prop :=
| below_nil : below [] []
| below_cons m ms i t : (i < m)%nat -> below ms t -> below (m :: ms) (i :: t).
Definition prod_nat (ms : list nat) : nat := fold_right Nat.mul 1%nat ms.
Fixpoint lex_rank (ms t : list nat) : nat :=
  match ms, t with m :: ms', i :: t' => (i * prod_nat ms' + lex_rank ms' t')%nat | _, _ => O end.
(** sum over all index tuples of F(tuple) times the entries of the tables it selects *)
Fixpoint tensor_sum (tables : list (list R)) (F : list nat -> R) : R :=
  match tables with
  | [] => F []
  | tab :: ts => sumR (map (fun i => nth i tab 0 * tensor_sum ts (fun t => F (i :: t))) (seq 0 (length tab)))
  end.

(** tuples of nd positive integers with sum s *)
Definition composition_of (nd s : nat) (t : list nat) : Prop := length t = nd /\ Forall (fun x => (1 <= x)%nat) t /\ list_sum t = s.

(** Chebyshev points of level e: 11, 21, 41, ... *)
Definition level_size (e : nat) : nat := (10 * 2 ^ (e - 1) + 1)%nat.
Definition cheb_points (n : nat) (a b : R) : list R := map (fun k => circle_point a b (INR k * PI / INR (n - 1))) (seq 0 n).
(** each coordinate is a Chebyshev point of the given level of its side of the box *)
Inductive on_grid : list nat -> list (R * R) -> list R -> Prop :=
| on_nil : on_grid [] [] []
| on_cons e p ab box x xs : (1 <= e)%nat -> In x (cheb_points (level_size e) (fst ab) (snd ab)) -> on_grid p box xs ->
    on_grid (e :: p) (ab :: box) (x :: xs).
(** a product of one polynomial per coordinate, each of degree below the number of points of its level *)
Inductive tensor_poly : list nat -> (list R -> R) -> Prop :=
| tp_nil c : tensor_poly [] (fun _ => c)
| tp_cons e p P g : (1 <= e)%nat -> poly_lt (level_size e) P -> tensor_poly p g ->
    tensor_poly (e :: p) (fun x => match x with y :: ys => P y * g ys | [] => 0 end).
(** f is a sum of such products with total level at most q *)
Definition sparse_poly (q d : nat) (f : list R -> R) : Prop :=
  exists terms, Forall (fun g => exists p, length p = d /\ (list_sum p <= q)%nat /\ tensor_poly p g) terms /\
    forall x, length x = d -> f x = sumR (map (fun g => g x) terms).
