(** Property theorems (Grid). Proofs are in GridMain.v and the files it imports. *)
From Coq Require Import Reals Lra Lia List Bool Arith.
From Verif Require Import Base Conv Comb Interp InterpSpec PolyFacts InterpFacts ChebFacts ChebFacts2 ChebFacts3 Grid GridSpec GridFacts GridFacts2 GridFacts3 GridFacts4 GridFacts5.
From Verif Require Import GridMain.
Import List ListNotations.
Open Scope R_scope.

(** C45: started at the zero tuple, the loop that advances the index vector visits every index tuple of the
    grid exactly once, the tuple with lexicographic number n at step n. *)
Theorem dense_visits :
  forall ms, Forall (fun m => (1 <= m)%nat) ms ->
  let v := visited ms (repeat O (length ms)) (prod_nat ms) in
  NoDup v /\ (forall t, In t v <-> below ms t) /\ (forall t, below ms t -> nth (lex_rank ms t) v [] = t).
Proof. exact dense_visits_main. Qed.
Print Assumptions dense_visits.

(** C45: given the values at the grid points in lexicographic order, the loop returns the full tensor-product
    sum. *)
Theorem dense_sum :
  forall tables F, tables <> [] -> Forall (fun tab => (1 <= length tab)%nat) tables ->
  (length tables <= prod_nat (map (@length R) tables))%nat ->
  forall fs, length fs = prod_nat (map (@length R) tables) ->
  (forall t, below (map (@length R) tables) t -> nth (lex_rank (map (@length R) tables) t) fs 0 = F t) ->
  c_dense tables fs = Ok (tensor_sum tables F).
Proof. exact dense_sum_main. Qed.
Print Assumptions dense_sum.

(** C45: the pointer table of the loop is large enough whenever every axis has at least two points, and
    overflows exactly when there are more axes than grid points. *)
Theorem dense_overflow :
  forall tables fs, tables <> [] -> length fs = prod_nat (map (@length R) tables) ->
  (Forall (fun tab => (2 <= length tab)%nat) tables -> exists v, c_dense tables fs = Ok v) /\
  (c_dense tables fs = Err ERuntime <-> (length fs < length tables)%nat).
Proof. exact dense_overflow_main. Qed.
Print Assumptions dense_overflow.

(** C45 fails for degenerate grids: three axes of one point each have a single grid point, and the loop writes
    outside its pointer table. *)
Theorem dense_overflow_refuted :
  exists tables fs, length fs = prod_nat (map (@length R) tables) /\ tables <> [] /\ Forall (fun tab => (1 <= length tab)%nat) tables /\
  c_dense tables fs = Err ERuntime.
Proof. exact dense_overflow_refuted_main. Qed.
Print Assumptions dense_overflow_refuted.

(** C44: the generated tuples are exactly those of nd positive integers with the given sum, each once; the
    index set of depth q has those of sum q-d+1..q, each once, and is refused for q below d. *)
Theorem index_sets :
  (forall nd s, (1 <= nd)%nat -> (1 <= s)%nat -> NoDup (gen_partitions nd s) /\ forall t, In t (gen_partitions nd s) <-> composition_of nd s t) /\
  (forall q d, (1 <= d)%nat -> (d <= q)%nat -> exists Q, gen_Q q d = Ok Q /\ NoDup Q /\
     forall t, In t Q <-> exists s, (q - d + 1 <= s <= q)%nat /\ composition_of d s t) /\
  (forall q d, (q < d)%nat -> gen_Q q d = Err EAssert).
Proof. exact index_sets_main. Qed.
Print Assumptions index_sets.

(** C44: the combination coefficients of every sparse grid sum to one. *)
Theorem coefficients_sum :
  forall q d, (1 <= d)%nat -> (d <= q)%nat -> exists Q, gen_Q q d = Ok Q /\ sumR (map (sub_coeff q d) Q) = 1.
Proof. exact coefficients_sum_main. Qed.
Print Assumptions coefficients_sum.

(** C44: the nodes of the sparse grid are stored once each, they are the union of the tensor grids of the index
    set, and the axis-by-axis and the compiled interpolation on each tensor grid agree. *)
Theorem sparse_nodes :
  forall f box, box <> [] -> Forall (fun ab => fst ab < snd ab) box -> forall par maxq,
  exists g, sg_make f box par maxq = Ok g /\ (length box <= g_q g <= Nat.max (length box) (maxq + 1))%nat /\ NoDup (g_nodes g) /\
    length (g_Ys g) = length (g_nodes g) /\
    (forall p, length p = length box -> Forall (fun e => (1 <= e)%nat) p -> (g_q g - length box < list_sum p <= g_q g)%nat ->
       exists c nums, In (p, (c, nums)) (g_sub g) /\ Forall (fun i => (i < length (g_nodes g))%nat) nums /\
         map (fun i => nth i (g_Ys g) 0) nums = map f (product (map (fun eb => cheb_points (level_size (fst eb)) (fst (snd eb)) (snd (snd eb))) (combine p box))) /\
         forall x, length x = length box ->
           full_grid (g_levels g) p (map (fun i => nth i (g_Ys g) 0) nums) x = full_grid_new (g_levels g) p (map (fun i => nth i (g_Ys g) 0) nums) x).
Proof. exact sparse_nodes_main. Qed.
Print Assumptions sparse_nodes.

(** C44: adaptive sparse-grid interpolation always ends with a grid; its interpolant is defined at every point,
    equals the function at every sparse-grid node, and reproduces exactly every function that is a sum of
    products of polynomials whose levels add up to at most the final depth, in particular constants. *)
Theorem sparse_exact :
  forall f box, box <> [] -> Forall (fun ab => fst ab < snd ab) box -> forall par maxq,
  exists g, sg_make f box par maxq = Ok g /\ (length box <= g_q g)%nat /\
    (forall x, length x = length box -> exists v, sg_value g x = Ok v) /\
    (forall p x, on_grid p box x -> (list_sum p <= g_q g)%nat -> sg_value g x = Ok (f x)) /\
    (sparse_poly (g_q g) (length box) f -> forall x, length x = length box -> sg_value g x = Ok (f x)).
Proof. exact sparse_exact_main. Qed.
Print Assumptions sparse_exact.
