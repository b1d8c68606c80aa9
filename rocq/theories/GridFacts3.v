(** Proofs: contraction along the axes is tensor-product interpolation. *)
From Coq Require Import Reals Lra Lia ZArith List Bool Arith FinFun.
From Verif Require Import Base Comb Interp InterpSpec PolyFacts InterpFacts Grid GridSpec GridFacts GridFacts2.
Import List ListNotations.
Open Scope R_scope.

(** ** One axis *)
Lemma row_basis Xs Ws x : NoDup Xs -> Xs <> [] -> prop_weights Xs Ws ->
  length (bary_row Xs Ws x) = length Xs /\ exists k, k <> 0 /\ forall i, (i < length Xs)%nat -> nth i (bary_row Xs Ws x) 0 = k * basis Xs i x.
Proof.
  intros ND NE (LW & c & C & HW). unfold bary_row. destruct (existsb (fun xi => req (x - xi) 0) Xs) eqn:EX.
  - apply existsb_exists in EX as (y & Y & E). apply req_true in E. assert (y = x) by lra. subst y. split; [rewrite map_length; auto|].
    exists 1. split; [lra|]. intros i I. apply (In_nth _ _ 0) in Y as (j & J & Y). rewrite (nth_indep _ 0 ((fun xi => if req (x - xi) 0 then 1 else 0) 0)) by (rewrite map_length; auto).
    rewrite (map_nth (fun xi => if req (x - xi) 0 then 1 else 0)). rewrite <- Y. destruct (reqP (nth j Xs 0 - nth i Xs 0) 0) as [Z|Z].
    + assert (i = j) by (apply (NoDup_nth Xs 0); auto; lra). subst. rewrite basis_self; auto. ring.
    + assert (i <> j) by (intros ->; apply Z; ring). rewrite basis_other; auto. ring.
  - assert (NI : ~ In x Xs). { intros I. assert (existsb (fun xi => req (x - xi) 0) Xs = true) by (apply existsb_exists; exists x; split; auto; apply req_true; ring). congruence. }
    split; [rewrite map_length, combine_length; lia|]. set (N := nodal Xs x). assert (HN : N <> 0) by (intros Z; apply nodal_zero in Z; tauto).
    exists (c / N). split; [apply Rmult_integral_contrapositive_currified; auto using Rinv_neq_0_compat|]. intros i I.
    rewrite (nth_indep _ 0 ((fun p : R * R => snd p / (x - fst p)) (0, 0))) by (rewrite map_length, combine_length; lia).
    rewrite (map_nth (fun p : R * R => snd p / (x - fst p))). rewrite combine_nth by auto. cbn [fst snd]. rewrite HW by auto. unfold basis, N. rewrite (nodal_others i Xs x I).
    assert (x - nth i Xs 0 <> 0). { intros Z. apply NI. replace x with (nth i Xs 0) by lra. apply nth_In; auto. }
    assert (nodal (others i Xs) x <> 0). { intros Z. apply HN. unfold N. rewrite (nodal_others i Xs x I), Z. ring. }
    assert (nodal (others i Xs) (nth i Xs 0) <> 0). { intros Z. apply nodal_zero in Z. eapply others_notin; eauto. }
    field. auto.
Qed.
Lemma sum_nth l : sumR l = sumR (map (fun i => nth i l 0) (seq 0 (length l))).
Proof. rewrite <- list_as_map. auto. Qed.
Lemma dot_nth l m : length m = length l -> dot l m = sumR (map (fun i => nth i l 0 * nth i m 0) (seq 0 (length l))).
Proof.
  intros L. unfold dot. rewrite sum_list_eq. revert m L. induction l as [|x l IH]; intros [|y m] L; simpl in L; try lia; auto.
  cbn [mul_lists length]. rewrite sumR_cons, sum_first, IH by lia. auto.
Qed.
(** normalised row: weighted sums are interpolated values *)
Lemma row_sum Xs Ws x : NoDup Xs -> Xs <> [] -> prop_weights Xs Ws -> sum_list (bary_row Xs Ws x) <> 0 /\
  forall g : nat -> R, sumR (map (fun i => nth i (bary_row Xs Ws x) 0 * g i) (seq 0 (length Xs))) / sum_list (bary_row Xs Ws x) = sumR (map (fun i => basis Xs i x * g i) (seq 0 (length Xs))).
Proof.
  intros ND NE PW. destruct (row_basis Xs Ws x ND NE PW) as (L & k & K & H).
  assert (E : sum_list (bary_row Xs Ws x) = k). { rewrite sum_list_eq, sum_nth, L. rewrite (sumR_ext _ (fun i => k * basis Xs i x)). - rewrite sumR_scal, basis_sum by auto. ring. - intros i I. apply in_seq in I. apply H. lia. }
  rewrite E. split; auto. intros g. rewrite (sumR_ext _ (fun i => k * (basis Xs i x * g i))).
  - rewrite sumR_scal. field. auto.
  - intros i I. apply in_seq in I. rewrite H by lia. ring.
Qed.

(** ** All axes *)
Fixpoint nsum (rows : list (list R)) (F : list nat -> R) : R :=
  match rows with
  | [] => F []
  | r :: rs => sumR (map (fun i => nth i r 0 * nsum rs (fun t => F (i :: t))) (seq 0 (length r))) / sum_list r
  end.
Lemma nsum_ext rows : forall F G, (forall t, F t = G t) -> nsum rows F = nsum rows G.
Proof. induction rows; intros F G E; simpl; auto. f_equal. apply sumR_ext. intros i _. f_equal. apply IHrows. auto. Qed.
Lemma nsum_snoc rs r : forall F, nsum (rs ++ [r]) F = nsum rs (fun t => sumR (map (fun i => nth i r 0 * F (t ++ [i])) (seq 0 (length r))) / sum_list r).
Proof. induction rs as [|r' rs IH]; intros F; auto. cbn [app nsum]. f_equal. apply sumR_ext. intros i _. f_equal. rewrite IH. auto. Qed.
Lemma nsum_tensor rows F : Forall (fun r => sum_list r <> 0) rows -> nsum rows F = tensor_sum rows F / fold_left (fun d row => d * sum_list row) rows 1 /\ fold_left (fun d row => d * sum_list row) rows 1 <> 0.
Proof.
  assert (FL : forall rows c, fold_left (fun d row => d * sum_list row) rows c = c * fold_left (fun d row => d * sum_list row) rows 1).
  { clear. induction rows as [|r rs IH]; intros c; simpl; [ring|]. rewrite IH, (IH (1 * sum_list r)). ring. }
  intros H. revert F. induction H as [|r rs NZ H IH]; intros F; cbn [nsum tensor_sum fold_left].
  - split; [field|lra].
  - rewrite FL. set (P := fold_left (fun d row => d * sum_list row) rs 1) in *. destruct (IH (fun _ => 0)) as [_ HP]. split; [|apply Rmult_integral_contrapositive_currified; lra].
    rewrite (sumR_ext _ (fun i => / P * (nth i r 0 * tensor_sum rs (fun t => F (i :: t))))).
    + rewrite sumR_scal. field. auto.
    + intros i _. destruct (IH (fun t => F (i :: t))) as [-> _]. field. auto.
Qed.
Lemma chunks_flat {A} (g : A -> list R) m ts : (forall t, In t ts -> length (g t) = m) -> chunks (length ts) m (flat_map g ts) = map g ts.
Proof.
  induction ts as [|t ts IH]; intros H; auto. cbn [length chunks flat_map map]. assert (L : length (g t) = m) by (apply H; simpl; auto).
  rewrite firstn_app, skipn_app, L, Nat.sub_diag. rewrite <- L at 1. rewrite firstn_all. rewrite <- L at 2. rewrite skipn_all. cbn [firstn skipn app]. rewrite app_nil_r. f_equal. apply IH. intros. apply H. simpl. auto.
Qed.
Lemma map_flat_map {A B C} (h : B -> C) (f : A -> list B) l : map h (flat_map f l) = flat_map (fun x => map h (f x)) l.
Proof. induction l; auto. cbn [flat_map]. rewrite map_app, IHl. auto. Qed.
Lemma flat_const_length {A B} (g : A -> list B) m ts : (forall t, In t ts -> length (g t) = m) -> length (flat_map g ts) = (length ts * m)%nat.
Proof. induction ts; intros H; auto. cbn [flat_map length]. rewrite app_length, IHts by (intros; apply H; simpl; auto). rewrite H by (simpl; auto). lia. Qed.
Lemma contract_all_ok rows : forall F, Forall (fun r => sum_list r <> 0) rows ->
  contract_all (rev rows) (map F (product (map (fun r => seq 0 (length r)) rows))) = Ok [nsum rows F].
Proof.
  induction rows as [|r rs IH] using rev_ind; intros F H; [reflexivity|]. apply Forall_app in H as [H1 H2]. inversion H2; subst.
  rewrite rev_app_distr, map_app. cbn [rev app map contract_all]. rewrite product_snoc, map_flat_map. unfold contract at 1.
  replace (req (sum_list r) 0) with false by (symmetry; apply req_false; auto).
  set (ts := product (map (fun r => seq 0 (length r)) rs)). set (g := fun x => map F (map (fun y => x ++ [y]) (seq 0 (length r)))).
  assert (LG : forall t, In t ts -> length (g t) = length r) by (intros; unfold g; rewrite !map_length, seq_length; auto).
  assert (LR : length r <> O). { intros Z. apply length_zero_iff_nil in Z. subst. apply H3. reflexivity. }
  rewrite (flat_const_length g (length r)) by auto. rewrite Nat.div_mul by auto. rewrite chunks_flat by auto. cbn [rbind]. rewrite map_map.
  rewrite nsum_snoc. rewrite <- IH by auto. fold ts. f_equal. apply map_ext. intros t. f_equal. unfold g. rewrite dot_nth by (rewrite !map_length, seq_length; auto). rewrite !map_length, seq_length.
  apply sumR_ext. intros i I. apply in_seq in I. rewrite map_map, nth_map_seq by lia. cbn [plus]. ring.
Qed.

(** ** Tensor-product interpolation *)
Fixpoint tlag (grids : list (list R)) (f : list R -> R) (x : list R) : R :=
  match grids, x with
  | X :: gs, y :: ys => sumR (map (fun i => basis X i y * tlag gs (fun r => f (nth i X 0 :: r)) ys) (seq 0 (length X)))
  | _, _ => f []
  end.
Fixpoint pick (grids : list (list R)) (t : list nat) : list R :=
  match grids, t with X :: gs, i :: t' => nth i X 0 :: pick gs t' | _, _ => [] end.
Lemma tlag_ext grids : forall f g x, (forall r, length r = length grids -> f r = g r) -> length x = length grids -> tlag grids f x = tlag grids g x.
Proof.
  induction grids as [|X gs IH]; intros f g [|y ys] E L; simpl in L; try lia; [simpl; auto|]. cbn [tlag]. apply sumR_ext. intros i _. f_equal. apply IH; auto. intros r R. apply E. simpl. auto.
Qed.
Lemma tlag_lin grids {A} (l : list A) (f : A -> list R -> R) x : length x = length grids -> tlag grids (fun r => sumR (map (fun a => f a r) l)) x = sumR (map (fun a => tlag grids (f a) x) l).
Proof.
  revert f x. induction grids as [|X gs IH]; intros f [|y ys] L; simpl in L; try lia; [reflexivity|]. cbn [tlag].
  rewrite (sumR_ext _ (fun i => sumR (map (fun a => basis X i y * tlag gs (fun r => f a (nth i X 0 :: r)) ys) l))).
  - apply sumR_swap.
  - intros i _. rewrite sumR_scal. f_equal. apply (IH (fun a r => f a (nth i X 0 :: r))). lia.
Qed.
Lemma tlag_scal grids c f x : length x = length grids -> tlag grids (fun r => c * f r) x = c * tlag grids f x.
Proof.
  revert f x. induction grids as [|X gs IH]; intros f [|y ys] L; simpl in L; try lia; [reflexivity|]. cbn [tlag]. rewrite <- sumR_scal. apply sumR_ext. intros i _. rewrite (IH (fun r => f (nth i X 0 :: r))) by lia. ring.
Qed.
Lemma tlag_node X gs f y ys : NoDup X -> In y X -> tlag (X :: gs) f (y :: ys) = tlag gs (fun r => f (y :: r)) ys.
Proof.
  intros ND Y. apply (In_nth _ _ 0) in Y as (j & J & <-). cbn [tlag]. rewrite (sum_single _ (length X) j J).
  - rewrite basis_self by auto. ring.
  - intros i I N. rewrite basis_other by auto. ring.
Qed.
Lemma basis_exact X P y : NoDup X -> poly_lt (length X) P -> sumR (map (fun i => basis X i y * P (nth i X 0)) (seq 0 (length X))) = P y.
Proof.
  intros ND PL. rewrite (through_eq X (map P X) P y ND).
  - unfold lag. apply sumR_ext. intros i I. apply in_seq in I. rewrite (nth_indep (map P X) 0 (P 0)) by (rewrite map_length; lia). rewrite map_nth. ring.
  - split; auto. intros i I. rewrite (nth_indep (map P X) 0 (P 0)) by (rewrite map_length; lia). rewrite map_nth. auto.
Qed.
Lemma tlag_poly X gs P g y ys : NoDup X -> poly_lt (length X) P -> length ys = length gs ->
  tlag (X :: gs) (fun x => match x with y :: ys => P y * g ys | [] => 0 end) (y :: ys) = P y * tlag gs g ys.
Proof.
  intros ND PL L. cbn [tlag]. rewrite <- (basis_exact X P y ND PL). rewrite Rmult_comm, <- sumR_scal. apply sumR_ext. intros i _. rewrite tlag_scal by auto. ring.
Qed.
Lemma nsum_tlag grids Wss x f : length Wss = length grids -> length x = length grids ->
  Forall2 (fun X W => NoDup X /\ X <> [] /\ prop_weights X W) grids Wss ->
  let rows := map (fun q : (list R * list R) * R => bary_row (fst (fst q)) (snd (fst q)) (snd q)) (combine (combine grids Wss) x) in
  Forall (fun r => sum_list r <> 0) rows /\ map (@length R) rows = map (@length R) grids /\ nsum rows (fun t => f (pick grids t)) = tlag grids f x.
Proof.
  intros LW LX H. revert x f LX. induction H as [|X W gs Ws (ND & NE & PW) H IH]; intros [|y ys] f LX; simpl in LX; try lia; [cbn; auto|].
  cbn [combine map fst snd]. destruct (IH ltac:(simpl in LW; lia) ys f ltac:(lia)) as (F1 & F2 & _). destruct (row_sum X W y ND NE PW) as [NZ RS]. destruct (row_basis X W y ND NE PW) as [LR _].
  splits; [constructor; auto|congruence|]. cbn [nsum]. rewrite LR. rewrite RS. cbn [tlag]. apply sumR_ext. intros i _. f_equal.
  destruct (IH ltac:(simpl in LW; lia) ys (fun r => f (nth i X 0 :: r)) ltac:(lia)) as (_ & _ & E). rewrite <- E. apply nsum_ext. intros t. reflexivity.
Qed.
Lemma product_pick grids : map (pick grids) (product (map (fun X => seq 0 (length X)) grids)) = product grids.
Proof.
  induction grids as [|X gs IH]; [reflexivity|]. cbn [map product]. rewrite map_flat_map. rewrite <- IH.
  rewrite (flat_map_concat_map _ X). rewrite (list_as_map X 0) at 2. rewrite map_map. rewrite flat_map_concat_map. f_equal. apply map_ext. intros i. rewrite !map_map. apply map_ext. intros t. reflexivity.
Qed.
