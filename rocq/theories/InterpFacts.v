(** Barycentric interpolation computes the interpolating polynomial. *)
From Coq Require Import Reals Lra Lia List Bool Arith.
From Verif Require Import Base Conv Interp InterpSpec PolyFacts.
Import List ListNotations.
Open Scope R_scope.

(** the weights are a common multiple of the exact ones *)
Definition prop_weights (Xs Ws : list R) : Prop :=
  length Ws = length Xs /\ exists c, c <> 0 /\ forall i, (i < length Xs)%nat -> nth i Ws 0 = c / nodal (others i Xs) (nth i Xs 0).

Lemma bary_weights_prop Xs : prop_weights Xs (bary_weights Xs).
Proof.
  unfold prop_weights, bary_weights. split; [rewrite map_length, seq_length; auto|]. exists 1. split; [lra|]. intros i I.
  rewrite nth_map_seq by auto. simpl. rewrite over_others_eq, fold_div. auto.
Qed.
(** what the loop does *)
Lemma bary_loop_off l x num den : (forall t, In t l -> x <> fst (fst t)) ->
  bary_loop l x num den = inr (num + sumR (map (fun t : R * R * R => snd t / (x - fst (fst t)) * snd (fst t)) l), den + sumR (map (fun t : R * R * R => snd t / (x - fst (fst t))) l)).
Proof.
  revert num den. induction l as [|((nx & y) & w) l IH]; intros num den H; cbn [bary_loop map]; unfold sumR in *; cbn [fold_right].
  - rewrite !Rplus_0_r. auto.
  - destruct (reqP x nx) as [E|E]; [exfalso; apply (H (nx, y, w)); simpl; auto|]. rewrite IH by (intros t T; apply H; simpl; auto). cbn [fst snd]. f_equal. f_equal; ring.
Qed.
Lemma bary_loop_on l x num den j : (j < length l)%nat -> fst (fst (nth j l (0, 0, 0))) = x -> (forall i, (i < j)%nat -> fst (fst (nth i l (0, 0, 0))) <> x) ->
  bary_loop l x num den = inl (snd (fst (nth j l (0, 0, 0)))).
Proof.
  revert num den j. induction l as [|((nx & y) & w) l IH]; intros num den j J E F; [simpl in J; lia|]. cbn [bary_loop]. destruct j.
  - simpl in E. subst. replace (req x x) with true by (symmetry; apply req_true; auto). auto.
  - destruct (reqP x nx) as [E'|E']; [exfalso; apply (F 0%nat); [lia|simpl; auto]|]. cbn [nth]. apply IH; auto.
    + simpl in J. lia.
    + intros i I. apply (F (S i)). lia.
Qed.
Lemma combine_len3 (Xs Ys Ws : list R) : length Ys = length Xs -> length Ws = length Xs -> length (combine (combine Xs Ys) Ws) = length Xs.
Proof. intros. rewrite !combine_length. lia. Qed.
Lemma nth3 (Xs Ys Ws : list R) i : length Ys = length Xs -> length Ws = length Xs -> nth i (combine (combine Xs Ys) Ws) (0, 0, 0) = (nth i Xs 0, nth i Ys 0, nth i Ws 0).
Proof. intros. rewrite combine_nth by (rewrite combine_length; lia). rewrite combine_nth by lia. auto. Qed.
Lemma list_as_map {A} (l : list A) d : l = map (fun i => nth i l d) (seq 0 (length l)).
Proof.
  induction l as [|x l IH]; simpl; auto. f_equal. rewrite IH at 1. rewrite <- seq_shift, map_map. reflexivity.
Qed.
(** any weights: stored values at the nodes *)
Lemma bary_node Xs Ys Ws j : NoDup Xs -> length Ys = length Xs -> length Ws = length Xs -> (j < length Xs)%nat ->
  bary_at Xs Ys Ws (nth j Xs 0) = Ok (nth j Ys 0).
Proof.
  intros ND LY LW J. unfold bary_at. rewrite (bary_loop_on _ _ _ _ j).
  - rewrite nth3 by auto. auto.
  - rewrite combine_len3; auto.
  - rewrite nth3; auto.
  - intros i I. rewrite nth3 by auto. simpl. intros E. apply (NoDup_nth Xs 0) in E; auto; lia.
Qed.
Lemma bary_off Xs Ys Ws x : NoDup Xs -> Xs <> [] -> length Ys = length Xs -> prop_weights Xs Ws -> ~ In x Xs ->
  bary_at Xs Ys Ws x = Ok (lag Xs Ys x).
Proof.
  intros ND NE LY (LW & c & C & HW) NI. unfold bary_at. rewrite bary_loop_off.
  2:{ intros t T E. apply (In_nth _ _ (0, 0, 0)) in T as (i & I & T). rewrite combine_len3 in I by auto. rewrite nth3 in T by auto. subst t. simpl in E. apply NI. rewrite E. apply nth_In; auto. }
  rewrite (list_as_map (combine (combine Xs Ys) Ws) (0, 0, 0)), !map_map, combine_len3 by auto. rewrite !Rplus_0_l.
  set (N := nodal Xs x). assert (HN : N <> 0) by (intros Z; apply nodal_zero in Z; tauto).
  assert (K : forall i, (i < length Xs)%nat -> nth i Ws 0 / (x - nth i Xs 0) = c / N * basis Xs i x).
  { intros i I. rewrite HW by auto. unfold basis, N. rewrite (nodal_others i Xs x I).
    assert (x - nth i Xs 0 <> 0). { intros Z. apply NI. replace x with (nth i Xs 0) by lra. apply nth_In; auto. }
    assert (nodal (others i Xs) x <> 0). { intros Z. apply HN. unfold N. rewrite (nodal_others i Xs x I), Z. ring. }
    assert (nodal (others i Xs) (nth i Xs 0) <> 0). { intros Z. apply nodal_zero in Z. eapply others_notin; eauto. }
    field. auto. }
  replace (sumR (map (fun i => snd (nth i (combine (combine Xs Ys) Ws) (0, 0, 0)) / (x - fst (fst (nth i (combine (combine Xs Ys) Ws) (0, 0, 0)))) * snd (fst (nth i (combine (combine Xs Ys) Ws) (0, 0, 0)))) (seq 0 (length Xs)))) with (c / N * lag Xs Ys x).
  2:{ unfold lag. rewrite <- sumR_scal. f_equal. apply map_ext_in. intros i Hi. apply in_seq in Hi. rewrite nth3 by auto. cbn [fst snd]. rewrite K by lia. ring. }
  replace (sumR (map (fun i => snd (nth i (combine (combine Xs Ys) Ws) (0, 0, 0)) / (x - fst (fst (nth i (combine (combine Xs Ys) Ws) (0, 0, 0))))) (seq 0 (length Xs)))) with (c / N * 1).
  2:{ rewrite <- (basis_sum Xs x ND NE), <- sumR_scal. f_equal. apply map_ext_in. intros i Hi. apply in_seq in Hi. rewrite nth3 by auto. cbn [fst snd]. rewrite K by lia. ring. }
  assert (CN : c / N <> 0) by (apply Rmult_integral_contrapositive_currified; auto using Rinv_neq_0_compat).
  replace (req (c / N * 1) 0) with false by (symmetry; apply req_false; lra). cbn [negb]. f_equal. field. auto.
Qed.
Lemma bary_is_lag Xs Ys Ws x : NoDup Xs -> Xs <> [] -> length Ys = length Xs -> prop_weights Xs Ws -> bary_at Xs Ys Ws x = Ok (lag Xs Ys x).
Proof.
  intros ND NE LY PW. destruct (in_dec Req_EM_T x Xs) as [I|I]; [|apply bary_off; auto].
  apply (In_nth _ _ 0) in I as (j & J & <-). rewrite bary_node, lag_node; auto. apply PW.
Qed.
(** the numpy version computes the same *)
Lemma sum_list_eq l : sum_list l = sumR l.
Proof. unfold sum_list. rewrite (fold_sum (fun x => x)). rewrite map_id. ring. Qed.
Lemma np_same Xs Ys Ws x : NoDup Xs -> length Ys = length Xs -> length Ws = length Xs -> np_at Xs Ys Ws x = bary_at Xs Ys Ws x.
Proof.
  intros ND LY LW. destruct (in_dec Req_EM_T x Xs) as [I|I].
  - apply (In_nth _ _ 0) in I as (j & J & <-). rewrite bary_node by auto. unfold np_at.
    set (F := filter (fun p : R * R => req (nth j Xs 0 - fst p) 0) (combine Xs Ys)).
    assert (IN : In (nth j Xs 0, nth j Ys 0) F).
    { apply filter_In. split; [|simpl; apply req_true; ring]. rewrite <- combine_nth by auto. apply nth_In. rewrite combine_length. lia. }
    assert (AL : forall p, In p F -> snd p = nth j Ys 0).
    { intros p Hp. apply filter_In in Hp as (Hp & E). apply req_true in E. apply (In_nth _ _ (0, 0)) in Hp as (i & I & <-). rewrite combine_nth in * by auto. simpl in *.
      rewrite combine_length in I. f_equal. apply (NoDup_nth Xs 0); auto; try lia. lra. }
    destruct (rev F) as [|p r] eqn:R.
    + apply in_rev in IN. rewrite R in IN. destruct IN.
    + f_equal. apply AL. apply in_rev. rewrite R. simpl; auto.
  - assert (ND0 : forall xn, In xn Xs -> req (x - xn) 0 = false). { intros xn H. apply req_false. intros Z. apply I. replace x with xn by lra. auto. }
    unfold np_at, bary_at. rewrite bary_loop_off.
    2:{ intros t T E. apply (In_nth _ _ (0, 0, 0)) in T as (i & K & T). rewrite combine_len3 in K by auto. rewrite nth3 in T by auto. subst t. simpl in E. apply I. rewrite E. apply nth_In; auto. }
    assert (ED : np_diff x Xs = map (fun xn => x - xn) Xs). { unfold np_diff. apply map_ext_in. intros xn H. rewrite ND0; auto. }
    rewrite ED. replace (filter (fun p : R * R => req (x - fst p) 0) (combine Xs Ys)) with (@nil (R * R)).
    2:{ symmetry. destruct (filter (fun p : R * R => req (x - fst p) 0) (combine Xs Ys)) as [|p r] eqn:EF; auto. assert (HP : In p (p :: r)) by (simpl; auto). rewrite <- EF in HP. apply filter_In in HP as (HP & E).
        destruct p as (u & v). apply in_combine_l in HP. simpl in E. rewrite ND0 in E; auto. discriminate. }
    cbn [rev]. rewrite !sum_list_eq, !Rplus_0_l.
    assert (S1 : div_lists Ws (map (fun xn => x - xn) Xs) = map (fun t : R * R * R => snd t / (x - fst (fst t))) (combine (combine Xs Ys) Ws)).
    { clear - LY LW. revert Ys Ws LY LW. induction Xs; intros [|y Ys] [|w Ws] LY LW; try discriminate; auto. simpl in *. unfold div_lists in *. simpl. f_equal. apply IHXs; lia. }
    assert (S2 : mul_lists (div_lists Ws (map (fun xn => x - xn) Xs)) Ys = map (fun t : R * R * R => snd t / (x - fst (fst t)) * snd (fst t)) (combine (combine Xs Ys) Ws)).
    { clear - LY LW. revert Ys Ws LY LW. induction Xs; intros [|y Ys] [|w Ws] LY LW; try discriminate; auto. simpl in *. unfold div_lists in *. simpl. f_equal. apply IHXs; lia. }
    rewrite S2, S1. destruct (req (sumR _) 0); cbn [negb]; auto. unfold nearest. rewrite map_map. reflexivity.
Qed.
