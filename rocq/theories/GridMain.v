(** Main statements about grids. *)
From Coq Require Import Reals Lra Lia List Bool Arith.
From Verif Require Import Base Conv Comb Interp InterpSpec PolyFacts InterpFacts ChebFacts ChebFacts2 ChebFacts3 Grid GridSpec GridFacts GridFacts2 GridFacts3 GridFacts4 GridFacts5.
Import List ListNotations.
Open Scope R_scope.

(** C45: started at the zero tuple, the loop that advances the index vector visits every index tuple of the
    grid exactly once, the tuple with lexicographic number n at step n. *)
Lemma dense_visits_main :
  forall ms, Forall (fun m => (1 <= m)%nat) ms ->
  let v := visited ms (repeat O (length ms)) (prod_nat ms) in
  NoDup v /\ (forall t, In t v <-> below ms t) /\ (forall t, below ms t -> nth (lex_rank ms t) v [] = t).
Proof.
  intros ms F v. unfold v. rewrite visited_all by auto. splits.
  - apply product_nodup. apply Forall_map. apply Forall_forall. intros. apply seq_NoDup.
  - intros t. rewrite product_In, below_iff. tauto.
  - intros t T. destruct (digits_rank ms t T) as [A B]. rewrite <- digits_product by auto. rewrite (nth_indep _ [] (digits ms 0)) by (rewrite map_length, seq_length; auto).
    rewrite map_nth, seq_nth by auto. auto.
Qed.

(** C45: given the values at the grid points in lexicographic order, the loop returns the full tensor-product
    sum. *)
Lemma dense_sum_main :
  forall tables F, tables <> [] -> Forall (fun tab => (1 <= length tab)%nat) tables ->
  (length tables <= prod_nat (map (@length R) tables))%nat ->
  forall fs, length fs = prod_nat (map (@length R) tables) ->
  (forall t, below (map (@length R) tables) t -> nth (lex_rank (map (@length R) tables) t) fs 0 = F t) ->
  c_dense tables fs = Ok (tensor_sum tables F).
Proof.
  intros tables F NE POS FIT fs LF HF. rewrite <- c_dense_ok by auto. f_equal. set (ms := map (@length R) tables) in *.
  assert (PM : Forall (fun m => (1 <= m)%nat) ms) by (apply Forall_map; auto). rewrite <- digits_product by auto. apply nth_ext with 0 (F (digits ms 0)); [rewrite !map_length, seq_length; auto|].
  intros n N. rewrite LF in N. rewrite map_map, (map_nth (fun k => F (digits ms k))), seq_nth by auto. cbn [plus].
  assert (V : In (digits ms n) (product (map (seq 0) ms))) by (rewrite <- digits_product by auto; apply in_map; apply in_seq; lia). apply product_In, below_iff in V. rewrite <- HF by auto. f_equal.
  destruct (digits_rank ms _ V) as [A B].
  assert (ND : NoDup (map (digits ms) (seq 0 (prod_nat ms)))) by (rewrite digits_product by auto; apply product_nodup; apply Forall_map; apply Forall_forall; intros; apply seq_NoDup).
  eapply (proj1 (NoDup_nth (map (digits ms) (seq 0 (prod_nat ms))) (digits ms 0))) with (i := n) (j := lex_rank ms (digits ms n)) in ND; auto; rewrite ?map_length, ?seq_length; auto.
  rewrite !map_nth, !seq_nth by auto. cbn [plus]. rewrite B. auto.
Qed.

(** C45: the pointer table of the loop is large enough whenever every axis has at least two points, and
    overflows exactly when there are more axes than grid points. *)
Lemma dense_overflow_main :
  forall tables fs, tables <> [] -> length fs = prod_nat (map (@length R) tables) ->
  (Forall (fun tab => (2 <= length tab)%nat) tables -> exists v, c_dense tables fs = Ok v) /\
  (c_dense tables fs = Err ERuntime <-> (length fs < length tables)%nat).
Proof.
  intros tables fs NE LF. unfold c_dense. destruct tables as [|tab ts]; [tauto|]. set (tables := tab :: ts) in *. split.
  - intros F. assert (length tables < prod_nat (map (@length R) tables))%nat.
    { clear - F. induction F; [simpl; lia|]. cbn [length map]. change (prod_nat (length x :: map (@length R) l)) with (length x * prod_nat (map (@length R) l))%nat. nia. }
    destruct (Nat.ltb_spec (length fs) (length tables)); [lia|]. eauto.
  - destruct (Nat.ltb_spec (length fs) (length tables)); split; intros; auto; try lia. discriminate.
Qed.

(** C45 fails for degenerate grids: three axes of one point each have a single grid point, and the loop writes
    outside its pointer table. *)
Lemma dense_overflow_refuted_main :
  exists tables fs, length fs = prod_nat (map (@length R) tables) /\ tables <> [] /\ Forall (fun tab => (1 <= length tab)%nat) tables /\
  c_dense tables fs = Err ERuntime.
Proof. exists [[1]; [1]; [1]], [1]. splits; try discriminate; auto; repeat constructor; simpl; lia. Qed.

(** C44: the generated tuples are exactly those of nd positive integers with the given sum, each once; the
    index set of depth q has those of sum q-d+1..q, each once, and is refused for q below d. *)
Lemma index_sets_main :
  (forall nd s, (1 <= nd)%nat -> (1 <= s)%nat -> NoDup (gen_partitions nd s) /\ forall t, In t (gen_partitions nd s) <-> composition_of nd s t) /\
  (forall q d, (1 <= d)%nat -> (d <= q)%nat -> exists Q, gen_Q q d = Ok Q /\ NoDup Q /\
     forall t, In t Q <-> exists s, (q - d + 1 <= s <= q)%nat /\ composition_of d s t) /\
  (forall q d, (q < d)%nat -> gen_Q q d = Err EAssert).
Proof.
  splits.
  - intros nd s A B. split; [apply partitions_nodup|]. intros t. apply partitions_In; auto.
  - intros q d A B. destruct (gen_Q_ok q d A B) as (E & N & M). eexists. split; [exact E|]. split; auto. intros t. rewrite M. unfold composition_of. split.
    + intros (P1 & P2 & P3). exists (list_sum t). splits; auto; lia.
    + intros (s & S1 & P1 & P2 & P3). splits; auto; lia.
  - intros q d A. unfold gen_Q. destruct (Nat.leb_spec d q); [lia|auto].
Qed.

(** C44: the combination coefficients of every sparse grid sum to one. *)
Lemma coefficients_sum_main :
  forall q d, (1 <= d)%nat -> (d <= q)%nat -> exists Q, gen_Q q d = Ok Q /\ sumR (map (sub_coeff q d) Q) = 1.
Proof.
  intros q d A B. destruct (gen_Q_ok q d A B) as (E & _ & _). eexists. split; [exact E|].
  rewrite <- (combination q d (fun _ => 1) (repeat 1%nat d)); auto.
  - apply sumR_ext. intros. ring.
  - apply repeat_length.
  - apply Forall_forall. intros x X. apply repeat_spec in X. lia.
  - assert (X : forall n, list_sum (repeat 1%nat n) = n) by (induction n; auto; unfold list_sum in *; simpl; lia). rewrite X. auto.
Qed.

(** C44: the nodes of the sparse grid are stored once each, they are the union of the tensor grids of the index
    set, and the axis-by-axis and the compiled interpolation on each tensor grid agree. *)
Lemma sparse_nodes_main :
  forall f box, box <> [] -> Forall (fun ab => fst ab < snd ab) box -> forall par maxq,
  exists g, sg_make f box par maxq = Ok g /\ (length box <= g_q g <= Nat.max (length box) (maxq + 1))%nat /\ NoDup (g_nodes g) /\
    length (g_Ys g) = length (g_nodes g) /\
    (forall p, length p = length box -> Forall (fun e => (1 <= e)%nat) p -> (g_q g - length box < list_sum p <= g_q g)%nat ->
       exists c nums, In (p, (c, nums)) (g_sub g) /\ Forall (fun i => (i < length (g_nodes g))%nat) nums /\
         map (fun i => nth i (g_Ys g) 0) nums = map f (product (map (fun eb => cheb_points (level_size (fst eb)) (fst (snd eb)) (snd (snd eb))) (combine p box))) /\
         forall x, length x = length box ->
           full_grid (g_levels g) p (map (fun i => nth i (g_Ys g) 0) nums) x = full_grid_new (g_levels g) p (map (fun i => nth i (g_Ys g) 0) nums) x).
Proof.
  intros f box NB BX par maxq. assert (D : (1 <= length box)%nat) by (destruct box; [tauto|simpl; lia]). destruct (make_ok f box par maxq D BX) as (g & A & INV & Q). pose proof INV as (I1 & I2 & I3 & I4 & I5 & I6 & I7 & I8).
  exists g. splits; auto; try lia; [rewrite I8, map_length; auto|]. intros p P1 P2 P3. destruct (gen_Q_ok (g_q g) (length box) D I1) as (_ & _ & MQ).
  assert (PQ : In p (Qset (g_q g) (length box))) by (apply MQ; auto). pose proof PQ as PM. rewrite <- I6 in PM. apply in_map_iff in PM as ((p' & c & nums) & E & S). cbn [fst] in E. subst p'. exists c, nums. split; auto.
  rewrite Forall_forall in I7. specialize (I7 _ S). destruct I7 as (_ & J1 & J2). cbn [fst snd] in J1, J2. split; auto.
  assert (V : map (fun i => nth i (g_Ys g) 0) nums = map f (product (grids p box))).
  { destruct (Q_bounds (g_q g) (length box) D I1) as [QB _]. rewrite Forall_forall in QB. rewrite <- (coords_nodes (g_q g - length box + 1)) by auto. rewrite <- J1, !map_map, I8. apply map_ext_in. intros i I. rewrite Forall_forall in J2.
    rewrite (nth_indep (map _ (g_nodes g)) 0 (f (coords (lvl box (g_q g - length box + 1)) []))) by (rewrite map_length; auto). rewrite (map_nth (fun t => f (coords (lvl box (g_q g - length box + 1)) t))). auto. }
  rewrite V. split.
  - f_equal. f_equal. apply map_ext. intros eb. symmetry. apply cheb_points_nodes.
  - intros x LX. destruct (Q_bounds (g_q g) (length box) D I1) as [QB _]. rewrite Forall_forall in QB. specialize (QB p PQ).
    assert (FB : Forall (fun e => (1 <= e < length (g_levels g))%nat) p) by (eapply Forall_impl; [|exact QB]; cbv beta; intros; lia).
    rewrite (full_grid_ok _ box), (full_grid_new_ok _ box) by auto. auto.
Qed.

(** C44: adaptive sparse-grid interpolation always ends with a grid; its interpolant is defined at every point,
    equals the function at every sparse-grid node, and reproduces exactly every function that is a sum of
    products of polynomials whose levels add up to at most the final depth, in particular constants. *)
Lemma sparse_exact_main :
  forall f box, box <> [] -> Forall (fun ab => fst ab < snd ab) box -> forall par maxq,
  exists g, sg_make f box par maxq = Ok g /\ (length box <= g_q g)%nat /\
    (forall x, length x = length box -> exists v, sg_value g x = Ok v) /\
    (forall p x, on_grid p box x -> (list_sum p <= g_q g)%nat -> sg_value g x = Ok (f x)) /\
    (sparse_poly (g_q g) (length box) f -> forall x, length x = length box -> sg_value g x = Ok (f x)).
Proof.
  intros f box NB BX par maxq. assert (D : (1 <= length box)%nat) by (destruct box; [tauto|simpl; lia]). destruct (make_ok f box par maxq D BX) as (g & A & INV & Q).
  exists g. splits; auto; try lia.
  - intros x LX. eexists. eapply inv_value; eauto.
  - intros p x G S. rewrite (inv_value f box g x D BX INV) by (apply on_grid_len in G; tauto). f_equal. apply (sparse_node _ box f x p); auto; lia.
  - intros SP x LX. rewrite (inv_value f box g x D BX INV LX). f_equal. apply sparse_exact_poly; auto; lia.
Qed.
