(** Concrete instances for the grid theorems. *)
From Coq Require Import Reals Lra Lia List Bool Arith.
From Verif Require Import Base Conv Comb Interp InterpSpec PolyFacts InterpFacts Grid GridSpec GridFacts GridFacts2 GridMain.
Import List ListNotations.
Open Scope R_scope.

Example ex_visited : visited [2; 3]%nat [0; 0]%nat 6 = [[0; 0]; [0; 1]; [0; 2]; [1; 0]; [1; 1]; [1; 2]]%nat.
Proof. reflexivity. Qed.
Example ex_dense : c_dense [[2; 3]; [5; 7]] [1; 10; 100; 1000] = Ok (10 + 140 + 1500 + 21000).
Proof.
  rewrite (dense_sum_main [[2; 3]; [5; 7]] (fun t => nth (lex_rank [2; 2]%nat t) [1; 10; 100; 1000] 0)); try discriminate; try reflexivity.
  - simpl. f_equal. lra.
  - repeat constructor; simpl; lia.
  - simpl. lia.
Qed.
Example ex_partitions : gen_partitions 3 5 = [[1; 1; 3]; [1; 2; 2]; [1; 3; 1]; [2; 1; 2]; [2; 2; 1]; [3; 1; 1]]%nat.
Proof. reflexivity. Qed.
Example ex_Q : gen_Q 3 2 = Ok [[1; 1]; [1; 2]; [2; 1]]%nat /\ map (sub_coeff 3 2) [[1; 1]; [1; 2]; [2; 1]]%nat = [-1; 1; 1].
Proof. split; [reflexivity|]. unfold sub_coeff. cbn [map]. apply f_equal2; [|apply f_equal2; [|apply f_equal2; [|auto]]]; cbn -[IZR]; lra. Qed.

(** a function on the unit square that is reproduced everywhere, whatever the tolerances *)
Definition exF (x : list R) : R := match x with [a; b] => 3 + a * a * b | _ => 0 end.
Lemma ex_sparse q : (2 <= q)%nat -> sparse_poly q 2 exF.
Proof.
  intros Q.
  assert (P : forall c d e : R, poly_lt (level_size 1) (fun y => c + d * y + e * (y * y))).
  { intros c d e. exists [c; d; e; 0; 0; 0; 0; 0; 0; 0; 0]. split; [reflexivity|]. intros x. simpl. ring. }
  set (g1 := fun x : list R => match x with y :: ys => (fun y => 3 + 0 * y + 0 * (y * y)) y * (fun x => match x with y :: ys => (fun y => 1 + 0 * y + 0 * (y * y)) y * (fun _ => 1) ys | [] => 0 end) ys | [] => 0 end).
  set (g2 := fun x : list R => match x with y :: ys => (fun y => 0 + 0 * y + 1 * (y * y)) y * (fun x => match x with y :: ys => (fun y => 0 + 1 * y + 0 * (y * y)) y * (fun _ => 1) ys | [] => 0 end) ys | [] => 0 end).
  exists [g1; g2]. split.
  - constructor; [|constructor; [|constructor]]; exists [1; 1]%nat; splits; auto; (apply (tp_cons 1 [1]%nat); [lia|apply P|apply (tp_cons 1 []); [lia|apply P|apply tp_nil]]).
  - intros [|a [|b [|]]] L; simpl in L; try lia. unfold exF, g1, g2. simpl. ring.
Qed.
Example ex_square : [(0, 1); (0, 1)] <> [] /\ Forall (fun ab : R * R => fst ab < snd ab) [(0, 1); (0, 1)].
Proof. split; [discriminate|]. repeat constructor; simpl; lra. Qed.
Example ex_exact par maxq : exists g, sg_make exF [(0, 1); (0, 1)] par maxq = Ok g /\ forall a b, sg_value g [a; b] = Ok (3 + a * a * b).
Proof.
  destruct ex_square as [A B]. destruct (sparse_exact_main exF _ A B par maxq) as (g & G & Q & _ & _ & E). exists g. split; auto. intros a b. rewrite E; auto. apply ex_sparse. auto.
Qed.
