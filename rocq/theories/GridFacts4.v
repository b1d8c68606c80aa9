(** Proofs: nodes of sparse grids and the adaptive loop. *)
From Coq Require Import Reals Lra Lia ZArith List Bool Arith FinFun.
From Verif Require Import Base Conv Comb Interp InterpSpec PolyFacts InterpFacts ChebFacts ChebFacts2 ChebFacts3 Grid GridSpec GridFacts GridFacts2 GridFacts3.
Import List ListNotations.
Open Scope R_scope.

(** ** Levels *)
Lemma level_size_ge e : (11 <= level_size e)%nat.
Proof. unfold level_size. pose proof (Nat.pow_nonzero 2 (e - 1)). lia. Qed.
Lemma level_grow e : (1 <= e)%nat -> (level_size e * 2 - 1 = level_size (S e))%nat.
Proof. intros E. unfold level_size. replace (S e - 1)%nat with (S (e - 1)) by lia. rewrite Nat.pow_succ_r'. lia. Qed.
Lemma cheb_points_nodes n a b : cheb_points n a b = nodes2 n a b.
Proof. unfold cheb_points, nodes2. apply map_ext. intros k. unfold circle_point, cheb_raw. f_equal; [field|]. f_equal. field. Qed.
Definition lvl (box : list (R * R)) (e : nat) : level :=
  Level (level_size e) (cheb_weights (level_size e)) (map (fun ab => nodes2 (level_size e) (fst ab) (snd ab)) box).
Lemma new_level_ok box e : new_level box (level_size e) = Ok (lvl box e).
Proof.
  unfold new_level. rewrite (map_res_ok _ (fun ab => nodes2 (level_size e) (fst ab) (snd ab))); [reflexivity|]. intros ab _. apply cheb_nodes_eq. pose proof (level_size_ge e). lia.
Qed.
Definition levels_ok (box : list (R * R)) (levels : list level) : Prop :=
  (1 <= length levels)%nat /\ forall e, (1 <= e < length levels)%nat -> nth e levels no_level = lvl box e.
Lemma levels_snoc box levels : levels_ok box levels -> levels_ok box (levels ++ [lvl box (length levels)]).
Proof.
  intros [L H]. split; [rewrite app_length; simpl; lia|]. intros e E. rewrite app_length in E. simpl in E. destruct (Nat.eq_dec e (length levels)) as [->|N].
  - rewrite app_nth2, Nat.sub_diag by lia. reflexivity.
  - rewrite app_nth1 by lia. apply H. lia.
Qed.
Lemma add_levels_ok box k : forall levels, levels_ok box levels -> exists levels', add_levels box k (level_size (length levels)) levels = Ok (level_size (length levels'), levels') /\ levels_ok box levels' /\ length levels' = (length levels + k)%nat.
Proof.
  induction k; intros levels H; cbn [add_levels].
  - exists levels. split; [|split]; auto; lia.
  - rewrite new_level_ok. cbn [rbind]. pose proof (level_size_ge (length levels)). destruct (Nat.eqb_spec (level_size (length levels)) 1); [lia|].
    destruct (IHk (levels ++ [lvl box (length levels)]) (levels_snoc _ _ H)) as (l' & A & B & C). exists l'. rewrite app_length in A, C. simpl in A, C. replace (length levels + 1)%nat with (S (length levels)) in A by lia.
    rewrite level_grow by apply H. split; [|split]; auto. lia.
Qed.

(** ** Nested points *)
Lemma raw_level e M a b k : (1 <= e <= M)%nat -> cheb_raw (level_size M) a b (k * 2 ^ (M - e)) = cheb_raw (level_size e) a b k.
Proof.
  intros H. replace M with (e + (M - e))%nat at 1 by lia. generalize (M - e)%nat. induction n.
  - rewrite Nat.add_0_r. simpl. rewrite Nat.mul_1_r. auto.
  - rewrite <- IHn. rewrite Nat.add_succ_r. rewrite <- level_grow by lia. pose proof (level_size_ge (e + n)). rewrite Nat.mul_comm with (n := level_size (e + n)). rewrite (raw_double (level_size (e + n))) by lia. f_equal. rewrite Nat.pow_succ_r'. lia.
Qed.
Lemma range_level e M : (1 <= e <= M)%nat -> range_step (level_size M) (2 ^ (M - e)) = map (fun k => k * 2 ^ (M - e))%nat (seq 0 (level_size e)).
Proof.
  intros H. unfold range_step. f_equal. f_equal. unfold level_size. pose proof (Nat.pow_nonzero 2 (M - e)). set (s := (2 ^ (M - e))%nat) in *.
  replace (2 ^ (M - 1))%nat with (2 ^ (e - 1) * s)%nat by (unfold s; rewrite <- Nat.pow_add_r; f_equal; lia).
  replace (10 * (2 ^ (e - 1) * s) + 1 + (s - 1))%nat with ((10 * 2 ^ (e - 1) + 1) * s)%nat by nia. apply Nat.div_mul. lia.
Qed.
Lemma level_mul e M k : (1 <= e <= M)%nat -> (k < level_size e)%nat -> (k * 2 ^ (M - e) < level_size M)%nat.
Proof.
  intros H K. unfold level_size in *. pose proof (Nat.pow_nonzero 2 (M - e)). set (s := (2 ^ (M - e))%nat) in *.
  replace (2 ^ (M - 1))%nat with (2 ^ (e - 1) * s)%nat by (unfold s; rewrite <- Nat.pow_add_r; f_equal; lia). nia.
Qed.
Definition snodes (M : nat) (p : list nat) : list (list nat) := product (map (fun e => map (fun k => k * 2 ^ (M - e))%nat (seq 0 (level_size e))) p).
Lemma sub_nodes_eq box levels M p : levels_ok box levels -> (1 <= M < length levels)%nat -> Forall (fun e => (1 <= e <= M)%nat) p -> sub_nodes levels M p = snodes M p.
Proof.
  intros [_ H] HM P. unfold sub_nodes, snodes. rewrite H by auto. cbn [lv_n lvl]. f_equal. apply map_ext_in. intros e E. rewrite Forall_forall in P. apply range_level. auto.
Qed.
Definition grids (p : list nat) (box : list (R * R)) : list (list R) := map (fun q => nodes2 (level_size (fst q)) (fst (snd q)) (snd (snd q))) (combine p box).
Lemma coords_nodes M p box : length p = length box -> Forall (fun e => (1 <= e <= M)%nat) p -> map (coords (lvl box M)) (snodes M p) = product (grids p box).
Proof.
  revert box. induction p as [|e p IH]; intros [|ab box] L F; simpl in L; try lia; [reflexivity|]. inversion F; subst.
  unfold snodes, grids. cbn [map combine product fst snd]. fold (snodes M p) (grids p box). rewrite <- IH by (auto; lia). unfold nodes2. rewrite map_flat_map.
  rewrite !flat_map_concat_map, !map_map. f_equal. apply map_ext_in. intros k K. apply in_seq in K. rewrite !map_map. apply map_ext. intros t. unfold coords. cbn [lvl lv_x map combine fst snd]. f_equal.
  unfold nodes2. rewrite nth_map_seq by (apply level_mul; auto; lia). apply raw_level. auto.
Qed.
Lemma snodes_entries M p t : Forall (fun e => (1 <= e <= M)%nat) p -> In t (snodes M p) -> Forall (fun i => (i < level_size M)%nat) t.
Proof.
  intros F T. apply product_In in T. revert F T. revert t. induction p as [|e p IH]; intros t F T; inversion T; subst; constructor; inversion F; subst.
  - apply in_map_iff in H2 as (k & <- & K). apply in_seq in K. apply level_mul; auto; lia.
  - apply IH; auto.
Qed.
Lemma coords_double box M t : (1 <= M)%nat -> Forall (fun i => (i < level_size M)%nat) t -> coords (lvl box (S M)) (map (fun i => 2 * i)%nat t) = coords (lvl box M) t.
Proof.
  intros HM F. unfold coords, lvl. cbn [lv_x]. revert box. induction F as [|i t I F IH]; intros [|ab box]; auto. cbn [map combine fst snd]. f_equal; [|apply IH].
  unfold nodes2. rewrite !nth_map_seq.
  - cbn [plus]. rewrite <- (raw_level M (S M)) by lia. f_equal. replace (S M - M)%nat with 1%nat by lia. simpl. lia.
  - auto.
  - rewrite <- level_grow by auto. lia.
Qed.

(** ** Node bookkeeping *)
Lemma tuple_eqb_true s t : tuple_eqb s t = true <-> s = t.
Proof. unfold tuple_eqb. destruct (list_eq_dec Nat.eq_dec s t); split; auto; discriminate. Qed.
Lemma find_index_some t l i : find_index t l = Some i -> (i < length l)%nat /\ nth i l [] = t.
Proof.
  revert i. induction l as [|u l IH]; intros i; cbn [find_index]; [discriminate|]. destruct (tuple_eqb t u) eqn:E.
  - intros H. injection H as <-. apply tuple_eqb_true in E. subst. simpl. split; auto. lia.
  - destruct (find_index t l) as [j|]; [|discriminate]. intros H. injection H as <-. destruct (IH j eq_refl). simpl. split; auto. lia.
Qed.
Lemma find_index_none t l : find_index t l = None <-> ~ In t l.
Proof.
  induction l as [|u l IH]; cbn [find_index]; [simpl; tauto|]. destruct (tuple_eqb t u) eqn:E.
  - apply tuple_eqb_true in E. subst. simpl. split; [discriminate|tauto].
  - assert (t <> u) by (intros ->; assert (tuple_eqb u u = true) by (apply tuple_eqb_true; auto); congruence). destruct (find_index t l); simpl; split; try discriminate; try tauto.
    + intros H1. exfalso. assert (In t l) by (destruct (in_dec (list_eq_dec Nat.eq_dec) t l); auto; apply IH in n0; discriminate). auto.
    + intros _ [?|?]; [congruence|]. apply IH; auto.
Qed.
Lemma add_nodes_ok l : forall nodes inds, NoDup nodes -> exists ext idx,
  fold_left add_node l (nodes, inds) = (nodes ++ ext, inds ++ idx) /\ NoDup (nodes ++ ext) /\
  (forall t, In t (nodes ++ ext) <-> In t nodes \/ In t l) /\ map (fun i => nth i (nodes ++ ext) []) idx = l /\ Forall (fun i => (i < length (nodes ++ ext))%nat) idx.
Proof.
  induction l as [|t l IH]; intros nodes inds ND.
  - exists [], []. rewrite !app_nil_r. cbn [fold_left map]. splits; auto. intros t. simpl. tauto.
  - cbn [fold_left]. unfold add_node at 2. cbn [fst snd]. destruct (find_index t nodes) as [i|] eqn:FI.
    + apply find_index_some in FI as [I1 I2]. destruct (IH nodes (inds ++ [i]) ND) as (ext & idx & A & B & C & D & E). exists ext, (i :: idx). rewrite A, <- app_assoc. splits; auto.
      * intros u. rewrite C. simpl. split; [tauto|]. intros [?|[<-|?]]; auto. left. rewrite <- I2. apply nth_In. auto.
      * cbn [map]. rewrite D, app_nth1, I2 by auto. auto.
      * constructor; auto. rewrite app_length. lia.
    + apply find_index_none in FI. assert (ND' : NoDup (nodes ++ [t])). { apply NoDup_app2; auto; [repeat constructor; auto|]. intros x X [<-|[]]. auto. }
      destruct (IH (nodes ++ [t]) (inds ++ [length nodes]) ND') as (ext & idx & A & B & C & D & E). exists (t :: ext), (length nodes :: idx). rewrite A. rewrite <- app_assoc in *. cbn [app] in *. splits; auto.
      * rewrite <- app_assoc. reflexivity.
      * intros u. rewrite C, in_app_iff. simpl. tauto.
      * cbn [map]. rewrite D. f_equal. rewrite app_nth2, Nat.sub_diag by lia. reflexivity.
      * constructor; auto. rewrite app_length. simpl. lia.
Qed.
Definition sub_ok (q d M : nat) (nodes : list (list nat)) (s : subgrid) : Prop :=
  fst (snd s) = sub_coeff q d (fst s) /\ map (fun i => nth i nodes []) (snd (snd s)) = snodes M (fst s) /\ Forall (fun i => (i < length nodes)%nat) (snd (snd s)).
Lemma sub_ok_ext q d M nodes ext s : sub_ok q d M nodes s -> sub_ok q d M (nodes ++ ext) s.
Proof.
  intros (A & B & C). unfold sub_ok. splits; auto.
  - rewrite <- B. apply map_ext_in. intros i I. rewrite Forall_forall in C. apply app_nth1. auto.
  - eapply Forall_impl; [|exact C]. cbv beta. intros. rewrite app_length. lia.
Qed.
Lemma node_fold_ok box levels q d ps : levels_ok box levels -> (1 <= q - d + 1 < length levels)%nat -> Forall (Forall (fun e => (1 <= e <= q - d + 1)%nat)) ps ->
  forall nodes subs, NoDup nodes -> Forall (sub_ok q d (q - d + 1) nodes) subs ->
  exists ext subs', fold_left (node_step levels q d) ps (nodes, subs) = (nodes ++ ext, subs ++ subs') /\ NoDup (nodes ++ ext) /\
    (forall t, In t (nodes ++ ext) <-> In t nodes \/ exists p, In p ps /\ In t (snodes (q - d + 1) p)) /\
    map fst subs' = ps /\ Forall (sub_ok q d (q - d + 1) (nodes ++ ext)) (subs ++ subs').
Proof.
  intros LO LM F. induction F as [|p ps Fp F IH]; intros nodes subs ND SO.
  - exists [], []. rewrite !app_nil_r. splits; auto. intros t. split; auto. intros [?|(p & [] & _)]; auto.
  - cbn [fold_left]. unfold node_step at 2. cbn [fst snd]. rewrite (sub_nodes_eq box) by auto.
    destruct (add_nodes_ok (snodes (q - d + 1) p) nodes [] ND) as (e1 & idx & A & B & C & D & E). rewrite A. cbn [fst snd app].
    destruct (IH (nodes ++ e1) (subs ++ [(p, (sub_coeff q d p, idx))]) B) as (e2 & s2 & A2 & B2 & C2 & D2 & E2).
    { apply Forall_app. split; [eapply Forall_impl; [|exact SO]; intros; apply sub_ok_ext; auto|]. constructor; [|constructor]. unfold sub_ok. cbn [fst snd]. auto. }
    exists (e1 ++ e2), ((p, (sub_coeff q d p, idx)) :: s2). rewrite A2. rewrite <- !app_assoc in *. cbn [app] in *. splits; auto.
    + intros t. rewrite C2, C. split.
      * intros [[?|?]|(p' & P1 & P2)]; auto; [right; exists p; simpl; auto|right; exists p'; simpl; auto].
      * intros [?|(p' & [<-|P1] & P2)]; auto. right. exists p'. auto.
    + cbn [map fst]. rewrite D2. auto.
Qed.
Definition Qset (q d : nat) : list (list nat) := flat_map (gen_partitions d) (seq (q - d + 1) d).
Lemma comp_bound p q : Forall (fun x => (1 <= x)%nat) p -> (list_sum p <= q)%nat -> Forall (fun e => (1 <= e <= q - length p + 1)%nat) p.
Proof.
  intros F S. assert (G : forall p, Forall (fun x => (1 <= x)%nat) p -> (length p <= list_sum p)%nat).
  { clear. induction 1; simpl; auto. unfold list_sum in *. simpl. lia. }
  apply Forall_forall. intros e E. rewrite Forall_forall in F. split; auto. apply in_split in E as (l1 & l2 & ->). rewrite app_length. simpl. rewrite list_sum_app in S. change (list_sum (e :: l2)) with (e + list_sum l2)%nat in S.
  assert (Forall (fun x => (1 <= x)%nat) l1 /\ Forall (fun x => (1 <= x)%nat) l2) as [F1 F2]. { split; apply Forall_forall; intros; apply F; apply in_app_iff; simpl; auto. }
  apply G in F1. apply G in F2. lia.
Qed.
Lemma Q_bounds q d : (1 <= d)%nat -> (d <= q)%nat -> Forall (Forall (fun e => (1 <= e <= q - d + 1)%nat)) (Qset q d) /\ Forall (fun p => length p = d) (Qset q d).
Proof.
  intros D Q. destruct (gen_Q_ok q d D Q) as (_ & _ & H). split; apply Forall_forall; intros p P; apply H in P as (A & B & C); auto. subst d. apply comp_bound; auto. lia.
Qed.
Lemma sg_nodes_ok box levels q d : (1 <= d)%nat -> (d <= q)%nat -> levels_ok box levels -> (q - d + 1 < length levels)%nat ->
  exists nodes sub, sg_nodes levels q d = Ok (nodes, sub) /\ NoDup nodes /\ (forall t, In t nodes <-> exists p, In p (Qset q d) /\ In t (snodes (q - d + 1) p)) /\
    map fst sub = Qset q d /\ Forall (sub_ok q d (q - d + 1) nodes) sub.
Proof.
  intros D Q LO LM. unfold sg_nodes. destruct (gen_Q_ok q d D Q) as (-> & _). cbn [rmap]. fold (Qset q d). destruct (Q_bounds q d D Q) as [F _].
  destruct (node_fold_ok box levels q d (Qset q d) LO ltac:(lia) F [] [] (NoDup_nil _) (Forall_nil _)) as (ext & sub & A & B & C & E & G). rewrite A. exists ext, sub. splits; auto.
  intros t. specialize (C t). simpl in C. rewrite C. split; [intros [[]|?]; auto|auto].
Qed.

(** ** Evaluation *)
Lemma axes_rows levels box x p : levels_ok box levels -> Forall (fun e => (1 <= e < length levels)%nat) p -> length p = length box -> length x = length box ->
  map (axis_row levels x) (axes p) =
  map (fun q : (list R * list R) * R => bary_row (fst (fst q)) (snd (fst q)) (snd q)) (combine (combine (grids p box) (map (fun e => cheb_weights (level_size e)) p)) x).
Proof.
  intros [_ LO] F LP LX. unfold axes.
  assert (G : forall bx px p0 b0 x0, length b0 = length p0 -> length x0 = length p0 -> length bx = px -> (forall e, In e p0 -> (1 <= e < length levels)%nat) -> box = bx ++ b0 -> forall xx, length xx = px -> x = xx ++ x0 ->
    map (axis_row levels x) (combine (seq px (length p0)) p0) = map (fun q : (list R * list R) * R => bary_row (fst (fst q)) (snd (fst q)) (snd q)) (combine (combine (grids p0 b0) (map (fun e => cheb_weights (level_size e)) p0)) x0)).
  { intros bx px p0. revert bx px. induction p0 as [|e p0 IH]; intros bx px [|ab b0] [|y x0] LB L0 LBX FE EB xx LXX EX; simpl in LB, L0; try lia; auto.
    cbn [length seq combine map grids fst snd]. f_equal.
    - unfold axis_row. cbn [fst snd]. rewrite LO by (apply FE; simpl; auto). unfold lvl. cbn [lv_x lv_w]. f_equal.
      + rewrite EB, map_app, app_nth2 by (rewrite map_length; lia). rewrite map_length, LBX, Nat.sub_diag. reflexivity.
      + rewrite EX, app_nth2 by lia. rewrite LXX, Nat.sub_diag. reflexivity.
    - apply (IH (bx ++ [ab]) (S px) b0 x0) with (xx := xx ++ [y]); auto; try lia.
      + rewrite app_length. simpl. lia.
      + intros. apply FE. simpl. auto.
      + rewrite <- app_assoc. auto.
      + rewrite app_length. simpl. lia.
      + rewrite <- app_assoc. auto. }
  apply (G [] 0%nat p box x) with (xx := []); auto; try congruence. rewrite Forall_forall in F. auto.
Qed.
Lemma grids_length p box : length p = length box -> length (grids p box) = length box.
Proof. intros. unfold grids. rewrite map_length, combine_length. lia. Qed.
Lemma grids_weights p box : length p = length box -> Forall (fun ab => fst ab < snd ab) box ->
  Forall2 (fun X W => NoDup X /\ X <> [] /\ prop_weights X W) (grids p box) (map (fun e => cheb_weights (level_size e)) p).
Proof.
  revert box. induction p as [|e p IH]; intros [|ab box] L F; simpl in L; try lia; [constructor|]. inversion F; subst. unfold grids. cbn [combine map fst snd]. pose proof (level_size_ge e).
  constructor; [|apply IH; auto]. splits; [apply nodes2_nodup; auto; lia| |apply nodes2_weights; auto; lia]. apply not_nil_len. rewrite nodes2_length. lia.
Qed.
Lemma full_grid_new_ok levels box x p f : levels_ok box levels -> Forall (fun ab => fst ab < snd ab) box -> Forall (fun e => (1 <= e < length levels)%nat) p -> length p = length box -> length x = length box ->
  full_grid_new levels p (map f (product (grids p box))) x = Ok (tlag (grids p box) f x).
Proof.
  intros LO BX F LP LX. unfold full_grid_new. rewrite map_rev, (axes_rows levels box) by auto.
  destruct (nsum_tlag (grids p box) (map (fun e => cheb_weights (level_size e)) p) x f) as (N1 & N2 & N3); [rewrite map_length, grids_length; auto|rewrite grids_length; auto|apply grids_weights; auto|].
  set (rows := map _ (combine _ x)) in *. cbv zeta in N3. rewrite <- N3. rewrite <- product_pick, map_map. rewrite <- (map_map (@length R) (seq 0)). rewrite <- N2. rewrite map_map. rewrite contract_all_ok by auto. reflexivity.
Qed.
Lemma full_grid_ok levels box x p f : levels_ok box levels -> Forall (fun ab => fst ab < snd ab) box -> box <> [] -> Forall (fun e => (1 <= e < length levels)%nat) p -> length p = length box -> length x = length box ->
  full_grid levels p (map f (product (grids p box))) x = Ok (tlag (grids p box) f x).
Proof.
  intros LO BX NB F LP LX. unfold full_grid. rewrite (axes_rows levels box) by auto.
  destruct (nsum_tlag (grids p box) (map (fun e => cheb_weights (level_size e)) p) x f) as (N1 & N2 & N3); [rewrite map_length, grids_length; auto|rewrite grids_length; auto|apply grids_weights; auto|].
  set (rows := map _ (combine _ x)) in *. cbv zeta in N3. rewrite <- N3. rewrite <- product_pick, map_map. rewrite <- (map_map (@length R) (seq 0)). rewrite <- N2.
  assert (LR : length rows = length box) by (rewrite <- (map_length (@length R) rows), N2, map_length, grids_length; auto).
  assert (R2 : Forall (fun m => (2 <= m)%nat) (map (@length R) rows)).
  { rewrite N2. apply Forall_forall. intros m Hm. apply in_map_iff in Hm as (X & <- & HX). unfold grids in HX. apply in_map_iff in HX as (q & <- & _). rewrite nodes2_length. pose proof (level_size_ge (fst q)). lia. }
  assert (BIG : forall ms, Forall (fun m => (2 <= m)%nat) ms -> (length ms < prod_nat ms)%nat) by (induction 1; unfold prod_nat in *; simpl; nia).
  specialize (BIG _ R2). rewrite map_length in BIG. rewrite c_dense_ok.
  - cbn [rbind]. destruct (nsum_tensor rows (fun t => f (pick (grids p box) t)) N1) as [E NZ]. destruct (reqP (fold_left (fun d row => d * sum_list row) rows 1) 0); [tauto|]. rewrite E. auto.
  - intros Z. rewrite Z in LR. simpl in LR. destruct box; [tauto|discriminate].
  - rewrite Forall_map in R2. eapply Forall_impl; [|exact R2]. cbv beta. intros; lia.
  - lia.
Qed.
Lemma interp_at_ok levels box q nodes sub f x : levels_ok box levels -> Forall (fun ab => fst ab < snd ab) box -> length x = length box -> (1 <= length box)%nat -> (length box <= q)%nat ->
  (q - length box + 1 < length levels)%nat -> map fst sub = Qset q (length box) -> Forall (sub_ok q (length box) (q - length box + 1) nodes) sub ->
  interp_at levels sub (map (fun t => f (coords (lvl box (q - length box + 1)) t)) nodes) x = Ok (sumR (map (fun p => sub_coeff q (length box) p * tlag (grids p box) f x) (Qset q (length box)))).
Proof.
  intros LO BX LX D Q LM MS SO. set (d := length box) in *. set (M := (q - d + 1)%nat) in *. destruct (Q_bounds q d D Q) as [QB QL]. rewrite <- MS in *. clear MS.
  assert (G : forall acc, fold_left (fun acc (s : subgrid) => rbind acc (fun y => rbind (full_grid_new levels (fst s) (map (fun i => nth i (map (fun t => f (coords (lvl box M) t)) nodes) 0) (snd (snd s))) x)
                              (fun yi => Ok (y + fst (snd s) * yi)))) sub (Ok acc) = Ok (acc + sumR (map (fun p => sub_coeff q d p * tlag (grids p box) f x) (map fst sub)))).
  { induction SO as [|s sub (A & B & C) SO IH]; intros acc; [simpl; rewrite Rplus_0_r; auto|]. cbn [map] in QB, QL. inversion QB; inversion QL; subst. cbn [fold_left rbind].
    replace (map (fun i => nth i (map (fun t => f (coords (lvl box M) t)) nodes) 0) (snd (snd s))) with (map f (product (grids (fst s) box))).
    2:{ rewrite <- (coords_nodes M) by auto. rewrite <- B, !map_map. apply map_ext_in. intros i I. rewrite Forall_forall in C. rewrite (nth_indep (map (fun t => f (coords (lvl box M) t)) nodes) 0 (f (coords (lvl box M) []))) by (rewrite map_length; auto).
        rewrite (map_nth (fun t => f (coords (lvl box M) t))). auto. }
    rewrite full_grid_new_ok; auto.
    - cbn [rbind]. rewrite IH by auto. cbn [map]. rewrite sumR_cons, A. f_equal. ring.
    - eapply Forall_impl; [|exact H1]. cbv beta. intros. lia. }
  unfold interp_at. rewrite G. f_equal. ring.
Qed.
