(** Main statements about interpolation. *)
From Coq Require Import Reals Lra Lia List Bool Arith Sorted Permutation.
From Verif Require Import Base Conv Interp InterpSpec PolyFacts InterpFacts ChebFacts ChebFacts2 ChebFacts3.
Import List ListNotations.
Open Scope R_scope.

(** C36: for distinct nodes there is exactly one interpolating polynomial, and the Lagrange loop, the compiled
    barycentric loop and the numpy formula all return its value at every point. *)
Lemma interp_exact_main :
  forall Xs Ys, NoDup Xs -> Xs <> [] -> length Ys = length Xs ->
  exists P, interpolates Xs Ys P /\ (forall P', interpolates Xs Ys P' -> forall x, P' x = P x) /\
    forall x, lagrange_at Xs Ys x = P x /\ bary_at Xs Ys (bary_weights Xs) x = Ok (P x) /\ np_at Xs Ys (bary_weights Xs) x = Ok (P x).
Proof.
  intros Xs Ys ND NE LY. exists (lag Xs Ys). splits.
  - split; [apply lag_poly|]. intros i I. apply lag_node; auto.
  - intros P' H x. apply through_eq; auto.
  - intros x. pose proof (bary_weights_prop Xs) as PW. splits; [apply lagrange_lag; auto|apply bary_is_lag; auto|]. rewrite np_same; auto; [apply bary_is_lag; auto|apply PW].
Qed.

(** C36: whatever the weights are, the value at a node is the stored value, and the two implementations agree
    at every point. *)
Lemma interp_nodes_main :
  forall Xs Ys Ws, NoDup Xs -> length Ys = length Xs -> length Ws = length Xs ->
  (forall j, (j < length Xs)%nat -> bary_at Xs Ys Ws (nth j Xs 0) = Ok (nth j Ys 0)) /\
  (forall x, np_at Xs Ys Ws x = bary_at Xs Ys Ws x).
Proof. intros Xs Ys Ws ND LY LW. split; [intros; apply bary_node; auto|intros; apply np_same; auto]. Qed.

(** C36: the closed-form weights of the four Chebyshev families are right: with them the barycentric formula
    returns the interpolating polynomial of the family's nodes. *)
Lemma cheb_weights_exact_main :
  forall n a b Ys, (2 <= n)%nat -> a < b ->
  exists X, cheb_nodes n a b = Ok X /\
  (length Ys = n -> exists P, interpolates X Ys P /\ forall x, bary_at X Ys (cheb_weights n) x = Ok (P x)) /\
  (length Ys = (n - 1)%nat -> exists P, interpolates (tl X) Ys P /\ forall x, bary_at (tl X) Ys (nol_weights (n - 1)) x = Ok (P x)) /\
  (length Ys = (n - 1)%nat -> exists P, interpolates (removelast X) Ys P /\ forall x, bary_at (removelast X) Ys (nor_weights (n - 1)) x = Ok (P x)) /\
  (length Ys = n -> exists P, interpolates (cheb_nodes1 n a b) Ys P /\ forall x, bary_at (cheb_nodes1 n a b) Ys (cheb1_weights n) x = Ok (P x)).
Proof.
  intros n a b Ys N AB. exists (nodes2 n a b). split; [apply cheb_nodes_eq; auto|].
  assert (K : forall Xs Ws, NoDup Xs -> (0 < length Xs)%nat -> prop_weights Xs Ws -> length Ys = length Xs -> exists P, interpolates Xs Ys P /\ forall x, bary_at Xs Ys Ws x = Ok (P x)).
  { intros Xs Ws ND NE PW L. exists (lag Xs Ys). split; [split; [apply lag_poly|intros i I; apply lag_node; auto]|]. intros x. apply bary_is_lag; auto. apply not_nil_len; auto. }
  assert (ND := nodes2_nodup n a b N AB). assert (LE := nodes2_length n a b). splits; intros L.
  - apply K; rewrite ?LE; auto; [lia|apply nodes2_weights; auto].
  - apply K; rewrite ?tl_length, ?LE; auto; try lia.
    + destruct (nodes2 n a b); auto. inversion ND; auto.
    + rewrite nodes2_tl by auto. apply prop_affine; [lra|]. apply std_nol. lia.
  - apply K; rewrite ?rl_length, ?LE; auto; try lia.
    + rewrite nodes2_snoc in * by auto. rewrite removelast_snoc. apply NoDup_remove_1 in ND. rewrite app_nil_r in ND. auto.
    + rewrite nodes2_rl by auto. apply prop_affine; [lra|]. apply std_nor. lia.
  - assert (L1 : length (cheb_nodes1 n a b) = n) by (unfold cheb_nodes1; rewrite map_length, seq_length; auto). apply K; rewrite ?L1; auto; try lia.
    + apply (sorted_nodup Rlt); [intros; lra|]. apply nodes1_increasing; auto.
    + rewrite nodes1_std. apply prop_affine; [lra|]. apply std1_weights. lia.
Qed.

(** C37: Chebyshev nodes are the projections of equally spaced points of a half circle, in increasing order
    from a to b; with 2n-1 nodes the even ones are the n nodes and the odd ones the incremental nodes, and
    interleaving the two lists (and the values on them) gives the refined list. *)
Lemma cheb_nested_main :
  forall n a b (f : R -> R), (2 <= n)%nat -> a < b ->
  exists X X', cheb_nodes n a b = Ok X /\ cheb_nodes (2 * n - 1) a b = Ok X' /\ length X = n /\ length X' = (2 * n - 1)%nat /\
  (forall k, (k < n)%nat -> nth k X 0 = circle_point a b (INR k * PI / INR (n - 1))) /\
  increasing X /\ nth 0 X 0 = a /\ nth (n - 1) X 0 = b /\
  (forall k, (k < n)%nat -> nth (2 * k) X' 0 = nth k X 0) /\
  (let I := incremental_cheb_nodes (2 * n - 1) a b in
   length I = (n - 1)%nat /\ (forall k, (k < n - 1)%nat -> nth (2 * k + 1) X' 0 = nth k I 0) /\
   combine_fast X (map f X) I (map f I) = Ok (X', map f X')).
Proof.
  intros n a b f N AB. exists (nodes2 n a b), (nodes2 (2 * n - 1) a b).
  assert (E : forall n k, (k < n)%nat -> nth k (nodes2 n a b) 0 = cheb_raw n a b k) by (intros m k K; unfold nodes2; rewrite nth_map_seq by auto; auto).
  splits.
  - apply cheb_nodes_eq; auto.
  - apply cheb_nodes_eq; lia.
  - apply nodes2_length.
  - apply nodes2_length.
  - intros k K. rewrite E by auto. unfold cheb_raw, circle_point. f_equal; [field|]. f_equal. field.
  - apply nodes2_increasing; auto.
  - rewrite E by lia. apply raw_first; auto.
  - rewrite E by lia. apply raw_last; auto.
  - intros k K. rewrite !E by lia. symmetry. apply raw_double; auto.
  - cbv zeta. splits; [apply inc_length; auto| |].
  2: { apply combine_fast_ok; [rewrite nodes2_length, inc_length; lia|apply nest2; lia]. }
    intros k K. rewrite E by lia. rewrite inc_eq by auto. rewrite nth_map_seq by auto. auto.
Qed.

(** C37: nodes of the first kind: increasing, and merging n nodes with the incremental ones in sorted order
    gives the 3n nodes, values carried along. *)
Lemma cheb1_nested_main :
  forall n a b (f : R -> R), (1 <= n)%nat -> a < b ->
  increasing (cheb_nodes1 n a b) /\ length (cheb_nodes1 n a b) = n /\
  (forall k, (k < n)%nat -> nth k (cheb_nodes1 n a b) 0 = circle_point a b ((2 * INR k + 1) * PI / (2 * INR n)) /\
                            nth (3 * k + 1) (cheb_nodes1 (3 * n) a b) 0 = nth k (cheb_nodes1 n a b) 0) /\
  (let X := cheb_nodes1 n a b in let I := incremental_cheb_nodes1 (3 * n) a b in let X' := cheb_nodes1 (3 * n) a b in
   combine_sorted X (map f X) I (map f I) = Ok (X', map f X')).
Proof.
  intros n a b f N AB. splits.
  - apply nodes1_increasing; auto.
  - unfold cheb_nodes1. rewrite map_length, seq_length. auto.
  - intros k K. unfold cheb_nodes1. rewrite !nth_map_seq by lia. cbn [plus]. split; [|symmetry; apply raw1_triple; lia].
    unfold cheb1_raw, circle_point. rewrite plus_INR, !mult_INR. replace (INR 2) with 2 by (simpl; ring). simpl (INR 1). f_equal; [field|]. f_equal. field.
  - apply nest1; auto.
Qed.

(** C37: adaptive interpolation with each of the four families, for every function, every tolerance setting
    and every bound maxn.  It returns after finitely many refinements; the final interpolator is the polynomial
    through the function's values at the family's nodes of the final size, so it is the function itself when
    that is a polynomial of low degree; and the reported error is a deviation actually measured between the
    function and the polynomial of the last stage (or, if maxn stopped the loop, of the stage before). *)
Lemma adaptive_exact_main :
  forall a b (f : R -> R) p maxn, a < b ->
  (forall fam n0 nodes,
     (fam = fam_cheb a b /\ n0 = 3%nat /\ nodes = (fun n => map (fun k => circle_point a b (INR k * PI / INR (n - 1))) (seq 0 n))) \/
     (fam = fam_nol a b /\ n0 = 3%nat /\ nodes = (fun n => map (fun k => circle_point a b (INR k * PI / INR (n - 1))) (seq 1 (n - 1)))) \/
     (fam = fam_nor a b /\ n0 = 3%nat /\ nodes = (fun n => map (fun k => circle_point a b (INR k * PI / INR (n - 1))) (seq 0 (n - 1)))) \/
     (fam = fam_cheb1 a b /\ n0 = 2%nat /\ nodes = (fun n => map (fun k => circle_point a b (INR (2 * k + 1) * PI / INR (2 * n))) (seq 0 n))) ->
   (n0 <= maxn)%nat ->
   exists n P e, let X := nodes n in
     adaptive fam f p maxn n0 = Ok (n, X, map f X, e) /\ (n0 <= n)%nat /\ (n = n0 \/ exists n', (n0 <= n' <= maxn)%nat /\ n = grow fam n') /\
     interpolates X (map f X) P /\ (forall x, adaptive_fun fam (n, X, map f X, e) x = Ok (P x)) /\
     (poly_lt (length X) f -> forall x, P x = f x) /\
     (exists m Pm x, (m = n \/ (maxn < n)%nat /\ n = grow fam m) /\ interpolates (nodes m) (map f (nodes m)) Pm /\ In x (get_inc fam (grow fam m)) /\ e = Rabs (Pm x - f x) /\
        forall y, In y (get_inc fam (grow fam m)) -> Rabs (Pm y - f y) <= e)).
Proof.
  intros a b f p maxn AB fam n0 nodes HF M.
  assert (CP : forall n k, cheb_raw n a b k = circle_point a b (INR k * PI / INR (n - 1))) by (intros n k; unfold cheb_raw, circle_point; f_equal; [field|]; f_equal; field).
  assert (CP1 : forall n k, cheb1_raw n a b k = circle_point a b (INR (2 * k + 1) * PI / INR (2 * n))) by (intros n k; unfold cheb1_raw, circle_point; f_equal; [field|]; f_equal; field).
  assert (G : good_fam fam n0 nodes).
  { destruct HF as [(-> & -> & ->)|[(-> & -> & ->)|[(-> & -> & ->)|(-> & -> & ->)]]].
    - pose proof (fam_cheb_good a b AB) as G. replace (fun n => map (fun k => circle_point a b (INR k * PI / INR (n - 1))) (seq 0 n)) with (fun n => nodes2 n a b); auto.
      apply FunctionalExtensionality.functional_extensionality. intros n. apply map_ext. auto.
    - pose proof (fam_nol_good a b AB) as G. replace (fun n => map (fun k => circle_point a b (INR k * PI / INR (n - 1))) (seq 1 (n - 1))) with (fun n => tl (nodes2 n a b)); auto.
      apply FunctionalExtensionality.functional_extensionality. intros n. unfold nodes2. rewrite <- (map_ext _ _ (CP n)). destruct n; auto. simpl. rewrite Nat.sub_0_r. reflexivity.
    - pose proof (fam_nor_good a b AB) as G. replace (fun n => map (fun k => circle_point a b (INR k * PI / INR (n - 1))) (seq 0 (n - 1))) with (fun n => removelast (nodes2 n a b)); auto.
      apply FunctionalExtensionality.functional_extensionality. intros n. unfold nodes2. rewrite <- (map_ext _ _ (CP n)). destruct n; auto. rewrite (seq_snoc 0 (S n)) by lia. rewrite map_app. apply removelast_snoc.
    - pose proof (fam_cheb1_good a b AB) as G. replace (fun n => map (fun k => circle_point a b (INR (2 * k + 1) * PI / INR (2 * n))) (seq 0 n)) with (fun n => cheb_nodes1 n a b); auto.
      apply FunctionalExtensionality.functional_extensionality. intros n. apply map_ext. auto. }
  destruct (adaptive_ok fam n0 nodes f p maxn G M) as (k & e & H1 & H2 & H3 & H4 & H5). set (n := Nat.iter k (grow fam) n0) in *.
  assert (LI : forall m, (n0 <= m)%nat -> interpolates (nodes m) (map f (nodes m)) (lag (nodes m) (map f (nodes m)))).
  { intros m Hm. split; [apply lag_poly|]. intros i I. apply lag_node; auto. apply (gf_nodup _ _ _ G); auto. }
  exists n, (lag (nodes n) (map f (nodes n))), e. cbv zeta in *. splits; auto.
  - destruct k as [|k]; [left; reflexivity|right]. exists (Nat.iter k (grow fam) n0). split; [split|reflexivity].
    + clear - G. induction k; [apply Nat.le_refl|]. simpl. pose proof (gf_grow _ _ _ G _ IHk). lia.
    + apply H3. lia.
  - intros PL x. symmetry. apply (through_eq (nodes n) (map f (nodes n)) f); [apply (gf_nodup _ _ _ G); auto|]. split; auto. intros i I. rewrite (nth_indep (map f (nodes n)) 0 (f 0)) by (rewrite map_length; auto). rewrite map_nth. auto.
  - destruct H4 as [(B & y & Y & E)|(MX & m & M1 & M2 & B & y & Y & E)].
    + exists n, (lag (nodes n) (map f (nodes n))), y. splits; auto.
    + exists m, (lag (nodes m) (map f (nodes m))), y. splits; auto.
Qed.

(** C37: with a node bound below the starting size the error variable is never assigned. *)
Lemma adaptive_small_bound_main :
  forall a b (f : R -> R) p maxn, a < b ->
  ((maxn < 3)%nat -> adaptive (fam_cheb a b) f p maxn 3 = Err EName /\ adaptive (fam_nol a b) f p maxn 3 = Err EName /\ adaptive (fam_nor a b) f p maxn 3 = Err EName) /\
  ((maxn < 2)%nat -> adaptive (fam_cheb1 a b) f p maxn 2 = Err EName).
Proof.
  intros a b f p maxn AB. unfold adaptive. split; intros M.
  - cbn [fam_cheb fam_nol fam_nor get_nodes]. rewrite cheb_nodes_eq by lia. cbn [rbind rmap adapt]. replace (3 <=? maxn)%nat with false by (symmetry; apply Nat.leb_gt; auto). auto.
  - cbn [fam_cheb1 get_nodes rbind adapt]. replace (2 <=? maxn)%nat with false by (symmetry; apply Nat.leb_gt; auto). auto.
Qed.

(** C37, refuted for the nodes in log space: their ends are written at the wrong places, so with four or more
    nodes the list is not increasing: the second entry exceeds the last but one. *)
Lemma cheb_log_order_refuted_main :
  forall n a b, (4 <= n)%nat -> 0 < a -> a < b ->
  let X := cheb_nodes_log n a b in nth 0 X 0 = a /\ nth (n - 1) X 0 = b /\ nth (n - 2) X 0 < nth 1 X 0 /\ ~ increasing X.
Proof.
  intros n a b N A AB X. set (raw := map (cheb_log_raw n a b) (seq 0 n)). assert (LR : length raw = n) by (unfold raw; rewrite map_length, seq_length; auto).
  assert (E : forall k, (k < n)%nat -> nth k X 0 = if Nat.eqb k (n - 1) then b else if Nat.eqb k 0 then a else cheb_log_raw n a b k).
  { intros k K. unfold X, cheb_nodes_log, upd_last. fold raw. rewrite upd_length, LR. rewrite !upd_nth by (rewrite ?upd_length; lia). unfold raw. rewrite nth_map_seq by auto. cbn [plus]. destruct (Nat.eqb k (n - 1)), (Nat.eqb k 0); auto. }
  assert (LT : nth (n - 2) X 0 < nth 1 X 0).
  { rewrite !E by lia. destruct (Nat.eqb_spec (n - 2) (n - 1)), (Nat.eqb_spec (n - 2) 0), (Nat.eqb_spec 1 (n - 1)); try lia. cbn [Nat.eqb]. unfold cheb_log_raw.
    apply Rmult_lt_compat_r; [apply sqrt_lt_R0; nra|]. apply exp_increasing. assert (0 < ln (b / a)).
    { rewrite <- ln_1. apply ln_increasing; [lra|]. apply (Rmult_lt_reg_r a); auto. unfold Rdiv. rewrite Rmult_assoc, Rinv_l by lra. lra. }
    assert (cos (INR (n - 2) * PI / INR (n - 1)) < cos (INR 1 * PI / INR (n - 1))) by (apply cos_decreasing_1; try (apply std2_angle; lia); apply std2_angle_lt; lia). nra. }
  splits; auto.
  - rewrite E by lia. destruct (Nat.eqb_spec 0 (n - 1)); auto. lia.
  - rewrite E by lia. rewrite Nat.eqb_refl. auto.
  - intros S. assert (NTH : forall l i j, StronglySorted Rlt l -> (i < j)%nat -> (j < length l)%nat -> nth i l 0 < nth j l 0).
    { clear. induction l as [|x l IH]; intros i j SS IJ J; [simpl in J; lia|]. inversion SS; subst. destruct i, j; try lia; simpl in *.
      - rewrite Forall_forall in H2. apply H2. apply nth_In. lia.
      - apply IH; auto; lia. }
    assert (LX : length X = n) by (unfold X, cheb_nodes_log, upd_last; rewrite !upd_length; auto). pose proof (NTH X 1%nat (n - 2)%nat S ltac:(lia) ltac:(lia)). lra.
Qed.
