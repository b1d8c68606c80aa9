(** Property theorems (Interp). Proofs are in InterpMain.v and the files it imports. *)
From Coq Require Import Reals Lra Lia List Bool Arith Sorted Permutation.
From Verif Require Import Base Conv Interp InterpSpec PolyFacts InterpFacts ChebFacts ChebFacts2 ChebFacts3.
From Verif Require Import InterpMain.
Import List ListNotations.
Open Scope R_scope.

(** C36: for distinct nodes there is exactly one interpolating polynomial, and the Lagrange loop, the compiled
    barycentric loop and the numpy formula all return its value at every point. *)
Theorem interp_exact :
  forall Xs Ys, NoDup Xs -> Xs <> [] -> length Ys = length Xs ->
  exists P, interpolates Xs Ys P /\ (forall P', interpolates Xs Ys P' -> forall x, P' x = P x) /\
    forall x, lagrange_at Xs Ys x = P x /\ bary_at Xs Ys (bary_weights Xs) x = Ok (P x) /\ np_at Xs Ys (bary_weights Xs) x = Ok (P x).
Proof. exact interp_exact_main. Qed.
Print Assumptions interp_exact.

(** C36: whatever the weights are, the value at a node is the stored value, and the two implementations agree
    at every point. *)
Theorem interp_nodes :
  forall Xs Ys Ws, NoDup Xs -> length Ys = length Xs -> length Ws = length Xs ->
  (forall j, (j < length Xs)%nat -> bary_at Xs Ys Ws (nth j Xs 0) = Ok (nth j Ys 0)) /\
  (forall x, np_at Xs Ys Ws x = bary_at Xs Ys Ws x).
Proof. exact interp_nodes_main. Qed.
Print Assumptions interp_nodes.

(** C36: the closed-form weights of the four Chebyshev families are right: with them the barycentric formula
    returns the interpolating polynomial of the family's nodes. *)
Theorem cheb_weights_exact :
  forall n a b Ys, (2 <= n)%nat -> a < b ->
  exists X, cheb_nodes n a b = Ok X /\
  (length Ys = n -> exists P, interpolates X Ys P /\ forall x, bary_at X Ys (cheb_weights n) x = Ok (P x)) /\
  (length Ys = (n - 1)%nat -> exists P, interpolates (tl X) Ys P /\ forall x, bary_at (tl X) Ys (nol_weights (n - 1)) x = Ok (P x)) /\
  (length Ys = (n - 1)%nat -> exists P, interpolates (removelast X) Ys P /\ forall x, bary_at (removelast X) Ys (nor_weights (n - 1)) x = Ok (P x)) /\
  (length Ys = n -> exists P, interpolates (cheb_nodes1 n a b) Ys P /\ forall x, bary_at (cheb_nodes1 n a b) Ys (cheb1_weights n) x = Ok (P x)).
Proof. exact cheb_weights_exact_main. Qed.
Print Assumptions cheb_weights_exact.

(** C37: Chebyshev nodes are the projections of equally spaced points of a half circle, in increasing order
    from a to b; with 2n-1 nodes the even ones are the n nodes and the odd ones the incremental nodes, and
    interleaving the two lists (and the values on them) gives the refined list. *)
Theorem cheb_nested :
  forall n a b (f : R -> R), (2 <= n)%nat -> a < b ->
  exists X X', cheb_nodes n a b = Ok X /\ cheb_nodes (2 * n - 1) a b = Ok X' /\ length X = n /\ length X' = (2 * n - 1)%nat /\
  (forall k, (k < n)%nat -> nth k X 0 = circle_point a b (INR k * PI / INR (n - 1))) /\
  increasing X /\ nth 0 X 0 = a /\ nth (n - 1) X 0 = b /\
  (forall k, (k < n)%nat -> nth (2 * k) X' 0 = nth k X 0) /\
  (let I := incremental_cheb_nodes (2 * n - 1) a b in
   length I = (n - 1)%nat /\ (forall k, (k < n - 1)%nat -> nth (2 * k + 1) X' 0 = nth k I 0) /\
   combine_fast X (map f X) I (map f I) = Ok (X', map f X')).
Proof. exact cheb_nested_main. Qed.
Print Assumptions cheb_nested.

(** C37: nodes of the first kind: increasing, and merging n nodes with the incremental ones in sorted order
    gives the 3n nodes, values carried along. *)
Theorem cheb1_nested :
  forall n a b (f : R -> R), (1 <= n)%nat -> a < b ->
  increasing (cheb_nodes1 n a b) /\ length (cheb_nodes1 n a b) = n /\
  (forall k, (k < n)%nat -> nth k (cheb_nodes1 n a b) 0 = circle_point a b ((2 * INR k + 1) * PI / (2 * INR n)) /\
                            nth (3 * k + 1) (cheb_nodes1 (3 * n) a b) 0 = nth k (cheb_nodes1 n a b) 0) /\
  (let X := cheb_nodes1 n a b in let I := incremental_cheb_nodes1 (3 * n) a b in let X' := cheb_nodes1 (3 * n) a b in
   combine_sorted X (map f X) I (map f I) = Ok (X', map f X')).
Proof. exact cheb1_nested_main. Qed.
Print Assumptions cheb1_nested.

(** C37: adaptive interpolation with each of the four families, for every function, every tolerance setting
    and every bound maxn.  It returns after finitely many refinements; the final interpolator is the polynomial
    through the function's values at the family's nodes of the final size, so it is the function itself when
    that is a polynomial of low degree; and the reported error is a deviation actually measured between the
    function and the polynomial of the last stage (or, if maxn stopped the loop, of the stage before). *)
Theorem adaptive_exact :
  forall a b (f : R -> R) p maxn, a < b ->
  (forall fam n0 nodes,
     (fam = fam_cheb a b /\ n0 = 3%nat /\ nodes = (fun n => map (fun k => circle_point a b (INR k * PI / INR (n - 1))) (seq 0 n))) \/
     (fam = fam_nol a b /\ n0 = 3%nat /\ nodes = (fun n => map (fun k => circle_point a b (INR k * PI / INR (n - 1))) (seq 1 (n - 1)))) \/
     (fam = fam_nor a b /\ n0 = 3%nat /\ nodes = (fun n => map (fun k => circle_point a b (INR k * PI / INR (n - 1))) (seq 0 (n - 1)))) \/
     (fam = fam_cheb1 a b /\ n0 = 2%nat /\ nodes = (fun n => map (fun k => circle_point a b (INR (2 * k + 1) * PI / INR (2 * n))) (seq 0 n))) ->
   (n0 <= maxn)%nat ->
   exists n P e, let X := nodes n in
     adaptive fam f p maxn n0 = Ok (n, X, map f X, e) /\ (n0 <= n)%nat /\ (n = n0 \/ exists n', (n0 <= n' <= maxn)%nat /\ n = grow fam n') /\
     interpolates X (map f X) P /\ (forall x, adaptive_fun fam (n, X, map f X, e) x = Ok (P x)) /\
     (poly_lt (length X) f -> forall x, P x = f x) /\
     (exists m Pm x, (m = n \/ (maxn < n)%nat /\ n = grow fam m) /\ interpolates (nodes m) (map f (nodes m)) Pm /\ In x (get_inc fam (grow fam m)) /\ e = Rabs (Pm x - f x) /\
        forall y, In y (get_inc fam (grow fam m)) -> Rabs (Pm y - f y) <= e)).
Proof. exact adaptive_exact_main. Qed.
Print Assumptions adaptive_exact.

(** C37: with a node bound below the starting size the error variable is never assigned. *)
Theorem adaptive_small_bound :
  forall a b (f : R -> R) p maxn, a < b ->
  ((maxn < 3)%nat -> adaptive (fam_cheb a b) f p maxn 3 = Err EName /\ adaptive (fam_nol a b) f p maxn 3 = Err EName /\ adaptive (fam_nor a b) f p maxn 3 = Err EName) /\
  ((maxn < 2)%nat -> adaptive (fam_cheb1 a b) f p maxn 2 = Err EName).
Proof. exact adaptive_small_bound_main. Qed.
Print Assumptions adaptive_small_bound.

(** C37, refuted for the nodes in log space: their ends are written at the wrong places, so with four or more
    nodes the list is not increasing: the second entry exceeds the last but one. *)
Theorem cheb_log_order_refuted :
  forall n a b, (4 <= n)%nat -> 0 < a -> a < b ->
  let X := cheb_nodes_log n a b in nth 0 X 0 = a /\ nth (n - 1) X 0 = b /\ nth (n - 2) X 0 < nth 1 X 0 /\ ~ increasing X.
Proof. exact cheb_log_order_refuted_main. Qed.
Print Assumptions cheb_log_order_refuted.
