(** Main statements about multivariate functions and products of factors. *)
From Coq Require Import Reals Lra Lia List Bool Arith Sorted Permutation.
From Verif Require Import Base ND NDSpec NDFacts NDFacts2 NDFacts3.
Import List ListNotations.
Open Scope R_scope.

(** C46: calling with arrays evaluates every point separately, as the function inside the box and zero outside. *)
Lemma nd_array_pointwise_main :
  forall F cols n, cols <> [] -> length (nd_a F) = length cols -> length (nd_b F) = length cols -> Forall (fun c => length c = n) cols ->
  length (nd_vector F cols) = n /\
  forall k, (k < n)%nat -> let X := map (fun c => nth k c 0) cols in
    (all_in X (nd_a F) (nd_b F) -> nth k (nd_vector F cols) 0 = if nd_abs F then Rabs (nd_f F X) else nd_f F X) /\
    (~ all_in X (nd_a F) (nd_b F) -> nth k (nd_vector F cols) 0 = 0).
Proof.
  intros F cols n NE A B W. rewrite (nd_vector_points F cols n) by auto. unfold points. rewrite map_map. split; [rewrite map_length, seq_length; auto|]. intros k K. cbv zeta. set (X := map (fun c => nth k c 0) cols).
  rewrite (nth_map_in _ _ _ 0 O) by (rewrite seq_length; auto). rewrite seq_nth by auto. cbn [plus]. fold X. unfold nd_point. assert (LX : length X = length cols) by (unfold X; rewrite map_length; auto).
  pose proof (inside_iff X (nd_a F) (nd_b F) ltac:(congruence) ltac:(congruence)) as E. split; intros H.
  - apply E in H. rewrite H. auto.
  - destruct (inside X (nd_a F) (nd_b F)); [tauto|]. apply post0.
Qed.

(** C46: the value for scalar arguments agrees with the array value at the same point exactly when all or none
    of the coordinates are inside the box, or the function vanishes there. *)
Lemma nd_scalar_array_main :
  forall F X, X <> [] -> length (nd_a F) = length X -> length (nd_b F) = length X ->
  nd_vector F (map (fun x => [x]) X) = [nd_scalar F X] <-> all_in X (nd_a F) (nd_b F) \/ none_in X (nd_a F) (nd_b F) \/ nd_f F X = 0.
Proof.
  intros F X NE A B. rewrite nd_single by auto. rewrite <- nd_agree by auto. split; [intros E; injection E; auto|intros ->; auto].
Qed.

(** C46 refuted as agreement: for the uniform density on the unit square the point (1/2, 7) has density 1 when
    given as scalars and 0 when given as arrays. *)
Lemma nd_scalar_array_refuted_main :
  exists F X, length X = 2%nat /\ length (nd_a F) = 2%nat /\ length (nd_b F) = 2%nat /\ nd_scalar F X = 1 /\ nd_vector F (map (fun x => [x]) X) = [0].
Proof.
  exists (NDF [0; 1]%nat [0; 0] [1; 1] false (fun _ => 1)), [1 / 2; 7]. splits; auto.
  - rewrite nd_scalar_eq by (auto; discriminate). unfold post. cbn [nd_abs nd_a nd_b nd_f]. replace (mask_or _ _ _ _) with true; auto. symmetry. apply not_false_iff_true. intros H. apply mask_or_iff in H; auto. apply (H O); simpl; [lia|lra].
  - rewrite nd_single by (auto; discriminate). f_equal. unfold nd_point. cbn [nd_a nd_b nd_f]. replace (inside _ _ _) with false; [apply post0|]. symmetry. apply not_true_iff_false. intros H. apply inside_iff in H; auto. specialize (H 1%nat). simpl in H. specialize (H ltac:(lia)). lra.
Qed.

Lemma density_val : forall fs env, prod_val fs env = density fs env.
Proof. induction fs as [|g fs IH]; intros env; [reflexivity|]. rewrite prod_val_cons, IH. reflexivity. Qed.
Lemma occurs_iff : forall w fs, In w (prod_vars fs) <-> occurs w fs.
Proof. intros. apply prod_vars_In. Qed.

(** C47: collapsing constants leaves the density unchanged, keeps the other factors in order and leaves at most
    one constant, different from one. *)
Lemma optimize_same_main :
  forall fs, (forall env, density (optimize fs) env = density fs env) /\
  exists k, optimize fs = filter (fun g => match g with FDens _ => true | _ => false end) fs ++ k /\ (k = [] \/ exists c, c <> 1 /\ k = [FConst c]).
Proof.
  intros fs. split; [intros; rewrite <- !density_val; apply optimize_val|]. unfold optimize. destruct (reqP (fold_left (fun c g => match g with FConst k => c * k | _ => c end) fs 1) 1) as [E|E].
  - exists []. rewrite app_nil_r. auto.
  - eexists. split; [reflexivity|]. right. eauto.
Qed.

(** C47: eliminating one variable that occurs in a product succeeds, and the result is the integral of the whole
    product over the range of that variable; no other variable disappears and the eliminated one does. *)
Lemma eliminate_one_main :
  forall integ lo hi fs v, homogeneous integ -> Forall (wf_f lo hi) fs -> occurs v fs ->
  exists fs', prod_elim integ lo hi fs [v] = Ok fs' /\ Forall (wf_f lo hi) fs' /\
    (forall env, density fs' env = integ (fun x => density fs (upd env v x)) (lo v) (hi v)) /\
    (forall w, occurs w fs' <-> occurs w fs /\ w <> v).
Proof.
  intros integ lo hi fs v H W V. apply occurs_iff in V. destruct (prod_elim_n_ok integ lo hi H 1 fs [v]) as (fs' & l & A1 & A2 & A3 & _ & A5 & A6); auto; [repeat constructor|intros w [<-|[]]; auto|].
  exists fs'. split; [exact A1|]. split; auto. apply Permutation_sym, Permutation_length_1_inv in A2. subst l. split.
  - intros env. rewrite <- density_val, A5. cbn [integ_all]. unfold integ1. apply H. intros. apply density_val.
  - intros w. rewrite <- !occurs_iff, A6. simpl. intuition.
Qed.

(** C47: the same for any set of variables given in the order of their names, when the variables of every factor
    are in that order too: the result is the iterated integral in some order, and in any order when integrals
    may be exchanged. *)
Lemma eliminate_many_main :
  forall integ lo hi fs vs, homogeneous integ -> Forall (wf_f lo hi) fs -> Forall srt fs -> StronglySorted lt vs -> (forall v, In v vs -> occurs v fs) ->
  exists fs' l, prod_elim integ lo hi fs vs = Ok fs' /\ Permutation l vs /\ Forall (wf_f lo hi) fs' /\ Forall srt fs' /\
    (forall env, density fs' env = integ_all integ lo hi l (density fs) env) /\
    (fubini integ -> forall l', Permutation l' vs -> forall env, density fs' env = integ_all integ lo hi l' (density fs) env) /\
    (forall w, occurs w fs' <-> occurs w fs /\ ~ In w vs).
Proof.
  intros integ lo hi fs vs H W S SV V. destruct (prod_elim_n_ok integ lo hi H (length vs) fs vs) as (fs' & l & A1 & A2 & A3 & A4 & A5 & A6); auto; [intros w Hw; apply occurs_iff; auto|].
  assert (E : forall env, density fs' env = integ_all integ lo hi l (density fs) env) by (intros env; rewrite <- density_val, A5; apply (IA_ext integ lo hi H); intros; apply density_val).
  exists fs', l. parts; auto.
  - intros FU l' P env. rewrite E. apply IA_perm; auto.
    + rewrite A2. symmetry. auto.
    + eapply Permutation_NoDup; [symmetry; exact A2|]. apply sorted_nodup. auto.
    + intros e e' Ee. rewrite <- !density_val. apply prod_val_ext. auto.
  - intros w. rewrite <- !occurs_iff. auto.
Qed.

Lemma optimize_dens : forall F, optimize [FDens F] = [FDens F].
Proof. intros F. unfold optimize. cbn [fold_left filter]. rewrite (proj2 (req_true 1 1)) by auto. auto. Qed.

(** C47 fails for variables given in another order: from a density of four variables, eliminating the first, the
    third and the second eliminates the fourth instead of the third. *)
Lemma eliminate_order_refuted_main :
  forall integ, exists lo hi fs vs fs', Forall (wf_f lo hi) fs /\ Forall srt fs /\ NoDup vs /\ (forall v, In v vs -> occurs v fs) /\
    prod_elim integ lo hi fs vs = Ok fs' /\ exists v w, In v vs /\ occurs v fs' /\ ~ In w vs /\ occurs w fs /\ ~ occurs w fs'.
Proof.
  intros integ. set (F := NDF [0; 1; 2; 3]%nat [0; 0; 0; 0] [1; 1; 1; 1] false (fun _ => 1)).
  exists (fun _ => 0), (fun _ => 1), [FDens F], [0; 2; 1]%nat. eexists. split; [|split; [|split; [|split; [|split; [unfold prod_elim; cbn -[optimize]; rewrite optimize_dens; cbn -[optimize]; rewrite optimize_dens; reflexivity|]]]]].
  - repeat constructor; simpl; auto; try discriminate; intuition discriminate.
  - repeat constructor.
  - repeat constructor; simpl; intuition discriminate.
  - intros v V. exists (FDens F). split; simpl; auto. simpl in V. intuition.
  - exists 2%nat, 3%nat. split; [simpl; auto|]. split; [|split; [simpl; intuition discriminate|split]].
    + eexists. split; [left; reflexivity|]. simpl. auto.
    + exists (FDens F). simpl. auto 6.
    + intros (g & [<-|[]] & Hw). simpl in Hw. intuition discriminate.
Qed.

(** C47: conditioning a product on a value of one variable within its range divides the product at that value by
    its integral over the remaining variables, whenever that integral is not zero; the result integrates to one. *)
Lemma condition_one_main :
  forall integ lo hi fs v x, homogeneous integ -> Forall (wf_f lo hi) fs -> Forall srt fs -> occurs v fs -> lo v <= x <= hi v ->
  exists fs' l Z, prod_cond integ lo hi fs [v] [x] = Ok fs' /\
    (forall w, In w l <-> occurs w fs /\ w <> v) /\ NoDup l /\
    (forall env, integ_all integ lo hi l (fun e => density fs (upd e v x)) env = Z) /\
    (Z <> 0 -> forall env, density fs' env = density fs (upd env v x) / Z /\ integ_all integ lo hi l (density fs') env = 1) /\
    (forall w, occurs w fs' <-> occurs w fs /\ w <> v).
Proof.
  intros integ lo hi fs v x H W S V X. apply occurs_iff in V. destruct (prod_cond_ok integ lo hi H fs v x W S V X) as (fs' & l & Z & A1 & A2 & _ & _ & A5 & A6 & A7).
  exists fs', l, Z. parts; auto.
  - intros w. rewrite <- occurs_iff. transitivity (In w (filter (fun w => negb (Nat.eqb w v)) (prod_vars fs))); [split; apply Permutation_in; auto; symmetry; auto|]. rewrite filter_In, negb_true_iff, Nat.eqb_neq. tauto.
  - eapply Permutation_NoDup; [symmetry; exact A2|]. apply NoDup_filter. apply sorted_nodup, prod_vars_sorted.
  - intros env. rewrite <- (A5 env). apply (IA_ext integ lo hi H). intros. symmetry. apply density_val.
  - intros NZ env. destruct (A6 NZ env) as [B1 B2]. split.
    + rewrite <- !density_val. auto.
    + rewrite <- B2. apply (IA_ext integ lo hi H). intros. symmetry. apply density_val.
  - intros w. rewrite <- !occurs_iff. auto.
Qed.

(** C47 fails for conditioning on two variables of the same factor, which always raises. *)
Lemma condition_two_refuted_main :
  forall integ lo hi F v w x y, nd_vars F = [v; w] -> v <> w -> prod_cond integ lo hi [FDens F] [v; w] [x; y] = Err EValue.
Proof.
  intros integ lo hi F v w x y E N. unfold prod_cond. assert (Hv : In v (prod_vars [FDens F]) /\ In w (prod_vars [FDens F])) by (rewrite !prod_vars_In; split; exists (FDens F); cbn [f_vars]; rewrite E; simpl; auto).
  destruct Hv as [Hv Hw]. cbn [forallb]. replace (existsb (Nat.eqb v) _) with true by (symmetry; apply existsb_exists; exists v; split; auto; apply Nat.eqb_refl). replace (existsb (Nat.eqb w) _) with true by (symmetry; apply existsb_exists; exists w; split; auto; apply Nat.eqb_refl).
  cbn [andb negb]. assert (V1 : has_var v (FDens F) = true) by (apply has_var_iff; cbn [f_vars]; rewrite E; simpl; auto). assert (V2 : has_var w (FDens F) = true) by (apply has_var_iff; cbn [f_vars]; rewrite E; simpl; auto).
  cbn [filter existsb]. rewrite V1. cbn [orb map_fac combine filter fst]. rewrite V1, V2. reflexivity.
Qed.
