(** Proofs: elimination of variables from functions and products. *)
From Coq Require Import Reals Lra Lia List Bool Arith Sorted Permutation.
From Verif Require Import Base ND NDSpec NDFacts.
Import List ListNotations.
Open Scope R_scope.

Ltac parts := repeat match goal with |- _ /\ _ => split end.

(** ** Lists *)
Lemma position_some v vars i : position v vars = Some i -> (i < length vars)%nat /\ nth i vars O = v.
Proof.
  revert i. induction vars as [|w vs IH]; intros i; [discriminate|]. cbn [position]. destruct (Nat.eqb_spec v w); [intros E; injection E as <-; subst; simpl; split; auto; lia|].
  destruct (position v vs); [|discriminate]. intros E. injection E as <-. destruct (IH n0 eq_refl). simpl. split; [lia|auto].
Qed.
Lemma position_none v vars : position v vars = None <-> ~ In v vars.
Proof.
  induction vars as [|w vs IH]; [simpl; tauto|]. cbn [position In]. destruct (Nat.eqb_spec v w); [split; [discriminate|intros H; exfalso; apply H; auto]|].
  destruct (position v vs); cbn [option_map]; split; try discriminate; auto.
  - intros H. exfalso. apply H. right. destruct (in_dec Nat.eq_dec v vs); auto. apply IH in n1. discriminate.
  - intros _ [H|H]; [auto|]. apply IH in H; auto.
Qed.
Lemma position_in v vars : In v vars -> exists i, position v vars = Some i.
Proof. intros H. destruct (position v vars) eqn:E; eauto. apply position_none in E. tauto. Qed.
Lemma drop_nth {A} i (l : list A) d : (i < length l)%nat -> Permutation (nth i l d :: drop_at i l) l.
Proof.
  revert i. induction l as [|x l IH]; intros i I; simpl in I; [lia|]. destruct i; auto. cbn [nth drop_at]. rewrite perm_swap. apply perm_skip. apply IH. lia.
Qed.
Lemma drop_len {A} i (l : list A) : (i < length l)%nat -> length (drop_at i l) = (length l - 1)%nat.
Proof. revert i. induction l as [|x l IH]; intros [|i] I; simpl in *; try lia. rewrite IH by lia. lia. Qed.
Lemma drop_in {A} i (l : list A) x : In x (drop_at i l) -> In x l.
Proof. revert i. induction l as [|y l IH]; intros [|i] I; simpl in *; auto. destruct I; auto. right. eauto. Qed.
Lemma drop_lt {A} i j (l : list A) d : (j < i)%nat -> nth j (drop_at i l) d = nth j l d.
Proof. revert i j. induction l as [|y l IH]; intros [|i] [|j] I; simpl in *; auto; try lia. apply IH. lia. Qed.
Lemma drop_nodup i (l : list nat) : NoDup l -> NoDup (drop_at i l).
Proof. revert i. induction l as [|y l IH]; intros [|i] N; simpl; auto; inversion N; subst; auto. constructor; auto. intros H. apply drop_in in H. tauto. Qed.
Lemma drop_sorted i (l : list nat) : StronglySorted lt l -> StronglySorted lt (drop_at i l).
Proof. revert i. induction l as [|y l IH]; intros [|i] N; simpl; auto; inversion N; subst; auto. constructor; auto. rewrite Forall_forall in *. intros z Z. apply H2. eapply drop_in; eauto. Qed.
Lemma drop_in_iff i (l : list nat) v : NoDup l -> position v l = Some i -> forall w, In w (drop_at i l) <-> In w l /\ w <> v.
Proof.
  intros N P w. destruct (position_some _ _ _ P) as [A B]. pose proof (drop_nth i l O A) as Q. rewrite B in Q. assert (N2 : NoDup (v :: drop_at i l)) by (eapply Permutation_NoDup; [symmetry; exact Q|auto]). inversion N2; subst.
  split.
  - intros W. split; [eapply drop_in; eauto|]. intros ->. tauto.
  - intros [W1 W2]. apply (Permutation_in w (Permutation_sym Q)) in W1. destruct W1; auto. congruence.
Qed.
Lemma sorted_nodup l : StronglySorted lt l -> NoDup l.
Proof. induction 1; constructor; auto. intros H1. rewrite Forall_forall in H0. specialize (H0 _ H1). lia. Qed.
Lemma map_upd_out env v x l : ~ In v l -> map (upd env v x) l = map env l.
Proof. intros H. apply map_ext_in. intros w W. unfold upd. destruct (Nat.eqb_spec w v); auto. subst. tauto. Qed.
Lemma map_upd_in env v x l i : NoDup l -> position v l = Some i -> map (upd env v x) l = insert_at i x (map env (drop_at i l)).
Proof.
  revert i. induction l as [|w l IH]; intros i N P; [discriminate|]. inversion N; subst. cbn [position] in P. destruct (Nat.eqb_spec v w).
  - injection P as <-. subst. cbn [map drop_at insert_at]. rewrite map_upd_out by auto. f_equal. unfold upd. rewrite Nat.eqb_refl. auto.
  - destruct (position v l) as [j|] eqn:E; [|discriminate]. injection P as <-. cbn [map drop_at insert_at]. f_equal; [|apply IH; auto]. unfold upd. destruct (Nat.eqb_spec w v); congruence.
Qed.
Lemma env_of_in vars (env : nat -> R) v : In v vars -> env_of vars (map env vars) v = env v.
Proof. induction vars as [|w vs IH]; intros H; [destruct H|]. cbn [map env_of]. destruct (Nat.eqb_spec v w); [subst; auto|]. destruct H; [congruence|auto]. Qed.
Lemma nth_map_in {A} (f : nat -> A) l i d d' : (i < length l)%nat -> nth i (map f l) d = f (nth i l d').
Proof. intros. rewrite (nth_indep _ d (f d')) by (rewrite map_length; auto). apply map_nth. Qed.

(** ** Variables of a product *)
Lemma insert_var_In v l w : In w (insert_var v l) <-> w = v \/ In w l.
Proof.
  induction l as [|u l IH]; cbn [insert_var]; [simpl; intuition|]. destruct (Nat.ltb_spec v u); [simpl; intuition|]. destruct (Nat.eqb_spec v u); [subst; simpl; intuition|]. cbn [In]. rewrite IH. intuition.
Qed.
Lemma insert_var_sorted v l : StronglySorted lt l -> StronglySorted lt (insert_var v l).
Proof.
  induction 1 as [|u l H IH F]; cbn [insert_var]; [repeat constructor|]. destruct (Nat.ltb_spec v u).
  - constructor; [constructor; auto|]. constructor; auto. eapply Forall_impl; [|exact F]. intros. simpl in *. lia.
  - destruct (Nat.eqb_spec v u); [constructor; auto|]. constructor; auto. rewrite Forall_forall in *. intros w W. apply insert_var_In in W as [->|W]; [lia|auto].
Qed.
Lemma fold_insert_In l acc w : In w (fold_left (fun l v => insert_var v l) l acc) <-> In w l \/ In w acc.
Proof. revert acc. induction l as [|v l IH]; intros acc; cbn [fold_left]; [simpl; tauto|]. rewrite IH, insert_var_In. simpl. intuition. Qed.
Lemma fold_insert_sorted l acc : StronglySorted lt acc -> StronglySorted lt (fold_left (fun l v => insert_var v l) l acc).
Proof. revert acc. induction l as [|v l IH]; intros acc S; cbn [fold_left]; auto. apply IH. apply insert_var_sorted. auto. Qed.
Lemma prod_vars_In fs w : In w (prod_vars fs) <-> exists g, In g fs /\ In w (f_vars g).
Proof. unfold prod_vars. rewrite fold_insert_In, in_flat_map. simpl. firstorder. Qed.
Lemma prod_vars_sorted fs : StronglySorted lt (prod_vars fs).
Proof. apply fold_insert_sorted. constructor. Qed.
Lemma has_var_iff v g : has_var v g = true <-> In v (f_vars g).
Proof. unfold has_var. rewrite existsb_exists. split; [intros (w & W & E); apply Nat.eqb_eq in E; subst; auto|intros; exists v; split; auto; apply Nat.eqb_refl]. Qed.
Lemma has_var_false v g : has_var v g = false <-> ~ In v (f_vars g).
Proof. rewrite <- has_var_iff. destruct (has_var v g); intuition congruence. Qed.

(** ** Values of products *)
Lemma prod_fold fs env y : fold_left (fun y g => y * f_val g env) fs y = y * prod_val fs env.
Proof. unfold prod_val. revert y. induction fs as [|g fs IH]; intros y; cbn [fold_left]; [ring|]. rewrite IH, (IH (1 * _)). ring. Qed.
Lemma prod_val_nil env : prod_val [] env = 1. Proof. reflexivity. Qed.
Lemma prod_val_cons g fs env : prod_val (g :: fs) env = f_val g env * prod_val fs env.
Proof. unfold prod_val at 1. cbn [fold_left]. rewrite prod_fold. ring. Qed.
Lemma prod_val_app fs fs' env : prod_val (fs ++ fs') env = prod_val fs env * prod_val fs' env.
Proof. induction fs as [|g fs IH]; cbn [app]; [rewrite prod_val_nil; ring|]. rewrite !prod_val_cons, IH. ring. Qed.
Lemma prod_val_part (p : factor -> bool) fs env : prod_val fs env = prod_val (filter (fun g => negb (p g)) fs) env * prod_val (filter p fs) env.
Proof. induction fs as [|g fs IH]; cbn [filter]; [rewrite prod_val_nil; ring|]. rewrite prod_val_cons, IH. destruct (p g); cbn [negb]; rewrite prod_val_cons; ring. Qed.
Lemma f_val_ext g env env' : (forall v, In v (f_vars g) -> env v = env' v) -> f_val g env = f_val g env'.
Proof. destruct g; auto. intros H. cbn [f_val]. f_equal. apply map_ext_in. auto. Qed.
Lemma prod_val_ext fs env env' : (forall v, In v (prod_vars fs) -> env v = env' v) -> prod_val fs env = prod_val fs env'.
Proof.
  induction fs as [|g fs IH]; intros H; auto. rewrite !prod_val_cons. f_equal; [apply f_val_ext|apply IH]; intros v V; apply H; apply prod_vars_In; [exists g; simpl; auto|].
  apply prod_vars_In in V as (g' & G & V). exists g'. simpl. auto.
Qed.
Lemma opt_const fs c env : fold_left (fun c g => match g with FConst k => c * k | _ => c end) fs c * prod_val (filter (fun g => match g with FDens _ => true | _ => false end) fs) env = c * prod_val fs env.
Proof. revert c. induction fs as [|g fs IH]; intros c; cbn [fold_left filter]; [auto|]. destruct g; rewrite ?prod_val_cons; [|rewrite IH; cbn [f_val]; ring|rewrite IH; cbn [f_val]; ring]. rewrite <- !Rmult_assoc, (Rmult_comm _ (f_val _ _)), (Rmult_comm c), !Rmult_assoc. f_equal. apply IH. Qed.
Lemma optimize_val fs env : prod_val (optimize fs) env = prod_val fs env.
Proof.
  unfold optimize. pose proof (opt_const fs 1 env) as H. rewrite Rmult_1_l in H. rewrite <- H. destruct (reqP (fold_left (fun c g => match g with FConst k => c * k | _ => c end) fs 1) 1) as [E|E].
  - rewrite E. ring.
  - rewrite prod_val_app, prod_val_cons, prod_val_nil. cbn [f_val]. ring.
Qed.
Lemma optimize_In g fs : In g (optimize fs) -> (exists F, g = FDens F /\ In g fs) \/ exists c, g = FConst c.
Proof.
  unfold optimize. set (c := fold_left _ _ _). intros H. assert (In g (filter (fun g => match g with FDens _ => true | _ => false end) fs) \/ g = FConst c) as [H1|H1].
  { destruct (req c 1); auto. apply in_app_iff in H as [H|[H|[]]]; auto. }
  - apply filter_In in H1 as [H1 H2]. destruct g; try discriminate. left. eauto.
  - right. eauto.
Qed.
Lemma In_optimize F fs : In (FDens F) fs -> In (FDens F) (optimize fs).
Proof. intros H. unfold optimize. assert (In (FDens F) (filter (fun g => match g with FDens _ => true | _ => false end) fs)) by (apply filter_In; auto). destruct (req _ _); auto. apply in_app_iff. auto. Qed.
Lemma optimize_vars fs w : In w (prod_vars (optimize fs)) <-> In w (prod_vars fs).
Proof.
  rewrite !prod_vars_In. split; intros (g & G & W).
  - apply optimize_In in G as [(F & -> & G)|(c & ->)]; [eauto|destruct W].
  - destruct g; try (destruct W). exists (FDens F). split; auto. apply In_optimize. auto.
Qed.
Lemma optimize_forall (P : factor -> Prop) fs : (forall c, P (FConst c)) -> Forall P fs -> Forall P (optimize fs).
Proof. intros HC F. apply Forall_forall. intros g G. rewrite Forall_forall in F. apply optimize_In in G as [(F0 & -> & G)|(c & ->)]; auto. Qed.

Section Elim.
Variable integ : (R -> R) -> R -> R -> R.
Variable lo hi : nat -> R.
Hypothesis HI : homogeneous integ.
Notation I1 := (integ1 integ lo hi).
Notation IA := (integ_all integ lo hi).

Notation wf_nd := (NDSpec.wf_nd lo hi).
Notation wf_f := (NDSpec.wf_f lo hi).

Lemma integ_ext f g a b : (forall x, f x = g x) -> integ f a b = integ g a b. Proof. apply HI. Qed.
Lemma integ_scal c f a b : integ (fun x => c * f x) a b = c * integ f a b. Proof. apply HI. Qed.
Lemma integ_zero f a b : (forall x, f x = 0) -> integ f a b = 0.
Proof. intros H. rewrite (integ_ext f (fun x => 0 * f x)) by (intros; rewrite H; ring). rewrite integ_scal. ring. Qed.
Lemma I1_ext v g g' env : (forall e, g e = g' e) -> I1 v g env = I1 v g' env. Proof. intros H. apply integ_ext. intros. apply H. Qed.
Lemma IA_ext vs : forall g g', (forall e, g e = g' e) -> forall env, IA vs g env = IA vs g' env.
Proof. induction vs as [|v vs IH]; intros g g' H env; cbn [integ_all]; auto. apply IH. intros. apply I1_ext. auto. Qed.
Lemma IA_scal vs c : forall g env, IA vs (fun e => c * g e) env = c * IA vs g env.
Proof. induction vs as [|v vs IH]; intros g env; cbn [integ_all]; auto. rewrite <- IH. apply IA_ext. intros e. apply integ_scal. Qed.

Lemma inside_map env l : inside (map env l) (map lo l) (map hi l) = forallb (fun v => in_rng (env v) (lo v) (hi v)) l.
Proof. induction l; cbn [map inside forallb]; auto. f_equal. auto. Qed.
Lemma point_out F env v : wf_nd F -> In v (nd_vars F) -> in_rng (env v) (lo v) (hi v) = false -> nd_point F (map env (nd_vars F)) = 0.
Proof.
  intros (_ & _ & A & B) V E. unfold nd_point. rewrite A, B, inside_map. replace (forallb _ _) with false; [apply post0|]. symmetry. apply not_true_iff_false. intros H. rewrite forallb_forall in H. rewrite (H v V) in E. discriminate.
Qed.
Lemma nth_lo F i v : wf_nd F -> position v (nd_vars F) = Some i -> nth i (nd_a F) 0 = lo v /\ nth i (nd_b F) 0 = hi v.
Proof. intros (_ & _ & A & B) P. destruct (position_some _ _ _ P) as [I E]. rewrite A, B, !(nth_map_in _ _ _ 0 O) by auto. rewrite E. auto. Qed.
Lemma marginal_val F v i (h : R -> R -> R) env : wf_nd F -> position v (nd_vars F) = Some i ->
  f_val (FDens (interpolated lo hi (drop_at i (nd_vars F)) (fun X => integ (fun x => nd_point F (insert_at i x X)) (lo v) (hi v)))) env = I1 v (f_val (FDens F)) env.
Proof.
  intros W P. pose proof W as (N & _ & _). cbn [f_val interpolated nd_vars]. unfold nd_point at 1, interpolated, post. cbn [nd_a nd_b nd_abs nd_f]. rewrite inside_map. unfold integ1. destruct (forallb _ _) eqn:E.
  - apply integ_ext. intros x. cbn [f_val]. rewrite (map_upd_in env v x _ i) by auto. auto.
  - symmetry. apply integ_zero. intros x. assert (exists w, In w (drop_at i (nd_vars F)) /\ in_rng (env w) (lo w) (hi w) = false) as (w & W1 & W2).
    { apply not_true_iff_false in E. destruct (existsb (fun w => negb (in_rng (env w) (lo w) (hi w))) (drop_at i (nd_vars F))) eqn:X.
      - apply existsb_exists in X as (w & W1 & W2). exists w. split; auto. destruct (in_rng _ _ _); auto.
      - exfalso. apply E. apply forallb_forall. intros w W1. apply not_false_iff_true. intros W2. apply not_true_iff_false in X. apply X. apply existsb_exists. exists w. rewrite W2. auto. }
    apply (drop_in_iff i (nd_vars F) v N P) in W1 as [W1 W3]. cbn [f_val]. apply (point_out F _ w); auto. unfold upd. destruct (Nat.eqb_spec w v); [congruence|auto].
Qed.
Lemma drop_nil i (l : list nat) : (i < length l)%nat -> length l <> 1%nat -> drop_at i l <> [].
Proof. intros I L E. pose proof (drop_len i l I) as D. rewrite E in D. simpl in D. lia. Qed.
Lemma const_val F v env : wf_nd F -> nd_vars F = [v] -> integ (fun x => nd_point F [x]) (lo v) (hi v) = I1 v (f_val (FDens F)) env.
Proof. intros W E. apply integ_ext. intros x. cbn [f_val]. rewrite E. cbn [map]. unfold upd. rewrite Nat.eqb_refl. auto. Qed.

(** ** One function, positions from the last to the first *)
Lemma elim_rev_ok : forall ridx F, wf_nd F -> StronglySorted (fun i j => j < i)%nat ridx -> Forall (fun i => (i < length (nd_vars F))%nat) ridx ->
  exists g, nd_elim_rev integ lo hi F ridx = Ok g /\ wf_f g /\ (srt (FDens F) -> srt g) /\
    (forall env, f_val g env = IA (map (fun i => nth i (nd_vars F) O) ridx) (f_val (FDens F)) env) /\
    (forall w, In w (f_vars g) <-> In w (nd_vars F) /\ ~ In w (map (fun i => nth i (nd_vars F) O) ridx)).
Proof.
  induction ridx as [|i rest IH]; intros F W S L; cbn [nd_elim_rev forallb].
  - exists (FDens F). cbn [negb]. parts; auto. intros w. simpl. tauto.
  - inversion S; inversion L; subst. rewrite (proj2 (Nat.ltb_lt i (length (nd_vars F)))) by auto. replace (forallb _ rest) with true by (symmetry; apply forallb_forall; intros j J; apply Nat.ltb_lt; rewrite Forall_forall in H6; auto). cbn [andb negb].
    set (v := nth i (nd_vars F) O). pose proof W as (N & NE & _ & _). assert (P : position v (nd_vars F) = Some i).
    { destruct (position_in v (nd_vars F)) as (j & J); [apply nth_In; auto|]. destruct (position_some _ _ _ J) as [J1 J2]. rewrite J. f_equal. apply (proj1 (NoDup_nth (nd_vars F) O) N); auto. }
    destruct (nth_lo F i v W P) as [-> ->]. destruct (Nat.eqb_spec (length (nd_vars F)) 1) as [L1|L1].
    + assert (EV : nd_vars F = [v]) by (destruct (nd_vars F) as [|u [|]]; simpl in L1; try lia; f_equal; subst v; destruct i; simpl in *; auto; lia). assert (rest = []) as -> by (destruct rest as [|j rest]; auto; inversion H2; subst; lia).
      exists (FConst (integ (fun x => nd_point F [x]) (lo v) (hi v))). split; [auto|]. split; [exact I|]. split; [constructor|]. split.
      * intros env. cbn [map integ_all f_val]. apply const_val; auto.
      * intros w. cbn [f_vars map]. fold v. rewrite EV. simpl. intuition.
    + set (m := interpolated lo hi (drop_at i (nd_vars F)) _). assert (VM : nd_vars m = drop_at i (nd_vars F)) by reflexivity.
      assert (WM : wf_nd m) by (unfold NDSpec.wf_nd; rewrite VM; parts; auto; [apply drop_nodup; auto|apply drop_nil; auto]).
      assert (VAL : forall env, f_val (FDens m) env = I1 v (f_val (FDens F)) env) by (intros env; apply (marginal_val F v i (fun _ _ => 0) env W P)).
      assert (SM : srt (FDens F) -> srt (FDens m)) by (intros X; unfold srt; cbn [f_vars]; rewrite VM; apply drop_sorted; auto).
      assert (NM : forall j, In j rest -> nth j (drop_at i (nd_vars F)) O = nth j (nd_vars F) O) by (intros j J; apply drop_lt; rewrite Forall_forall in H2; auto).
      assert (IM : forall w, In w (nd_vars m) <-> In w (nd_vars F) /\ w <> v) by (intros w; rewrite VM; apply drop_in_iff; auto).
      assert (MM : map (fun j => nth j (nd_vars m) O) rest = map (fun j => nth j (nd_vars F) O) rest) by (rewrite VM; apply map_ext_in; auto).
      destruct rest as [|j rest].
      * exists (FDens m). parts; auto. intros w. cbn [f_vars map]. fold v. rewrite IM. simpl. intuition.
      * destruct (IH m WM H1) as (g & G1 & G2 & G3 & G4 & G5).
        { rewrite Forall_forall in *. intros k K. rewrite VM, drop_len by auto. specialize (H2 k K). lia. }
        exists g. rewrite G1. parts; auto.
        -- intros env. rewrite G4, MM. exact (IA_ext _ _ _ VAL env).
        -- intros w. rewrite G5, MM, IM. cbn [map]. fold v. simpl. intuition.
Qed.
Lemma positions_ok vs vars : incl vs vars -> exists idx, positions vs vars = Ok idx /\ map (fun i => nth i vars O) idx = vs /\ Forall (fun i => (i < length vars)%nat) idx.
Proof.
  induction vs as [|v vs IH]; intros I; cbn [positions]; [exists []; auto|]. destruct (position_in v vars) as (i & P); [apply I; simpl; auto|]. rewrite P. destruct IH as (idx & -> & B & C); [intros w Ww; apply I; simpl; auto|]. cbn [rbind].
  destruct (position_some _ _ _ P). exists (i :: idx). parts; auto. cbn [map]. congruence.
Qed.
Lemma sorted_nth l : StronglySorted lt l -> forall i j, (j < length l)%nat -> (nth i l O < nth j l O)%nat -> (i < length l)%nat -> (i < j)%nat.
Proof.
  induction 1 as [|x l H IH F]; intros i j J L I; simpl in *; [lia|]. destruct i as [|i], j as [|j]; try lia. rewrite Forall_forall in F. assert (In (nth i l O) l) by (apply nth_In; lia). specialize (F _ H0). lia. apply IH in L; lia.
Qed.
Lemma idx_sorted vars idx : StronglySorted lt vars -> Forall (fun i => (i < length vars)%nat) idx -> StronglySorted lt (map (fun i => nth i vars O) idx) -> StronglySorted lt idx.
Proof.
  intros SV L. induction L; cbn [map]; intros S; constructor; inversion S; subst; auto. rewrite Forall_forall in *. intros j J. apply (sorted_nth vars SV); auto. apply H3. apply in_map_iff. eauto.
Qed.
Lemma rev_sorted idx : StronglySorted lt idx -> StronglySorted (fun i j => j < i)%nat (rev idx).
Proof.
  assert (A : forall l x, StronglySorted (fun i j => j < i)%nat l -> Forall (fun i => x < i)%nat l -> StronglySorted (fun i j => j < i)%nat (l ++ [x])).
  { induction 1; intros G; simpl; [repeat constructor|]. inversion G; subst. constructor; auto. apply Forall_app. split; auto. }
  induction 1; cbn [rev]; [constructor|]. apply A; auto. rewrite Forall_forall in *. intros y Y. apply H0. apply in_rev. auto.
Qed.
Lemma nd_elim_ok F vs : wf_nd F -> StronglySorted lt vs -> incl vs (nd_vars F) -> (srt (FDens F) \/ (length vs <= 1)%nat) ->
  exists g, nd_elim integ lo hi F vs = Ok g /\ wf_f g /\ (srt (FDens F) -> srt g) /\ (forall env, f_val g env = IA (rev vs) (f_val (FDens F)) env) /\
    (forall w, In w (f_vars g) <-> In w (nd_vars F) /\ ~ In w vs).
Proof.
  intros W SV IN SS. unfold nd_elim. destruct (positions_ok vs (nd_vars F) IN) as (idx & -> & B & C). cbn [rbind].
  assert (SI : StronglySorted lt idx).
  { destruct SS as [SS|SS]; [apply (idx_sorted (nd_vars F)); auto; rewrite B; auto|]. assert (LI : length idx = length vs) by (rewrite <- B, map_length; auto). destruct idx as [|i [|j idx]]; simpl in LI; try lia; repeat constructor. }
  destruct (elim_rev_ok (rev idx) F W) as (g & G1 & G2 & G3 & G4 & G5); [apply rev_sorted; auto|apply Forall_rev; auto|].
  exists g. parts; auto.
  - intros env. rewrite G4, map_rev, B. auto.
  - intros w. rewrite G5, map_rev, B, <- in_rev. tauto.
Qed.

(** ** Products *)
Lemma limits_lo fs v : Forall wf_f fs -> Forall (fun x => x = lo v) (limits nd_a fs v) /\ Forall (fun x => x = hi v) (limits nd_b fs v).
Proof.
  intros W. unfold limits. split; apply Forall_forall; intros x X; apply in_flat_map in X as (g & G & X); destruct g; try destruct X; rewrite Forall_forall in W; specialize (W _ G);
    (destruct (position v (nd_vars F)) as [i|] eqn:P; [|destruct X]); destruct (nth_lo F i v W P); destruct X as [X|[]]; congruence.
Qed.
Lemma limits_ne sel fs v : In v (prod_vars fs) -> limits sel fs v <> [].
Proof.
  intros V E. apply prod_vars_In in V as (g & G & V). destruct g; try destruct V. destruct (position_in v (nd_vars F) V) as (i & P). assert (X : In (nth i (sel F) 0) (limits sel fs v)) by (unfold limits; apply in_flat_map; exists (FDens F); rewrite P; simpl; auto). rewrite E in X. destruct X.
Qed.
Lemma lim_const l c : l <> [] -> Forall (fun x => x = c) l -> lim_max l = c /\ lim_min l = c.
Proof.
  intros NE F. destruct l as [|x l]; [tauto|]. inversion F; subst. unfold lim_max, lim_min. clear NE F. induction H2; cbn [fold_left]; auto. subst. rewrite Rmax_left, Rmin_left by lra. auto.
Qed.
Lemma as_nd_wf fs : Forall wf_f fs -> prod_vars fs <> [] -> wf_nd (as_ndfun fs).
Proof.
  intros W NE. unfold NDSpec.wf_nd, as_ndfun. cbn [nd_vars nd_a nd_b]. parts; auto.
  - apply sorted_nodup. apply prod_vars_sorted.
  - apply map_ext_in. intros v V. apply lim_const; [apply limits_ne; auto|apply limits_lo; auto].
  - apply map_ext_in. intros v V. apply lim_const; [apply limits_ne; auto|apply limits_lo; auto].
Qed.
Lemma as_nd_val fs env : Forall wf_f fs -> prod_vars fs <> [] -> f_val (FDens (as_ndfun fs)) env = prod_val fs env.
Proof.
  intros W NE. pose proof (as_nd_wf fs W NE) as WA. cbn [f_val]. unfold nd_point, post. cbn [as_ndfun nd_abs nd_f nd_vars]. destruct (inside _ _ _) eqn:E.
  - rewrite optimize_val. apply prod_val_ext. intros v V. apply env_of_in. auto.
  - destruct WA as (_ & _ & A & B). cbn [as_ndfun nd_vars] in A, B. rewrite A, B, inside_map in E. apply not_true_iff_false in E.
    assert (exists w, In w (prod_vars fs) /\ in_rng (env w) (lo w) (hi w) = false) as (w & W1 & W2).
    { destruct (existsb (fun w => negb (in_rng (env w) (lo w) (hi w))) (prod_vars fs)) eqn:X.
      - apply existsb_exists in X as (w & W1 & W2). exists w. split; auto. destruct (in_rng _ _ _); auto.
      - exfalso. apply E. apply forallb_forall. intros w W1. apply not_false_iff_true. intros W2. apply not_true_iff_false in X. apply X. apply existsb_exists. exists w. rewrite W2. auto. }
    symmetry. apply prod_vars_In in W1 as (g & G & W1). destruct g; try destruct W1. apply in_split in G as (l1 & l2 & ->). rewrite prod_val_app, prod_val_cons. rewrite Forall_app in W. destruct W as [_ W]. inversion W; subst.
    cbn [f_val]. rewrite (point_out F env w) by auto. ring.
Qed.
Lemma argmin_lt l : l <> [] -> (argmin l < length l)%nat.
Proof.
  assert (G : forall l best m i, (best < i)%nat -> (argmin_from best m i l < i + length l)%nat).
  { induction l0 as [|x l0 IH]; intros best m i B; cbn [argmin_from length]; [lia|]. destruct (Nat.ltb x m); [specialize (IH i x (S i))|specialize (IH best m (S i))]; lia. }
  destruct l as [|x l]; [tauto|]. intros _. unfold argmin. specialize (G l O x 1%nat). cbn [length]. lia.
Qed.
(** the factors that are combined and integrated over v *)
Definition elim_part (v : nat) (fs : list factor) : res (list factor) :=
  match filter (has_var v) fs with
  | [] => Ok []
  | [g] => rbind (fac_elim integ lo hi g [v]) (fun g' => Ok [g'])
  | _ => rbind (nd_elim integ lo hi (as_ndfun (filter (has_var v) fs)) [v]) (fun g' => Ok [g'])
  end.
Lemma one_sorted (v : nat) : StronglySorted lt [v]. Proof. repeat constructor. Qed.
Lemma kept_const v fs env x : prod_val (filter (fun g => negb (has_var v g)) fs) (upd env v x) = prod_val (filter (fun g => negb (has_var v g)) fs) env.
Proof.
  apply prod_val_ext. intros w V. apply prod_vars_In in V as (g & G & V). apply filter_In in G as [_ G]. apply negb_true_iff, has_var_false in G. unfold upd. destruct (Nat.eqb_spec w v); auto. congruence.
Qed.
Lemma part_val v fs el' env : (forall env, prod_val el' env = I1 v (prod_val (filter (has_var v) fs)) env) ->
  prod_val (filter (fun g => negb (has_var v g)) fs ++ el') env = I1 v (prod_val fs) env.
Proof.
  intros H. rewrite prod_val_app, H. unfold integ1. rewrite <- integ_scal. apply integ_ext. intros x. rewrite (prod_val_part (has_var v) fs (upd env v x)), kept_const. auto.
Qed.
Lemma filter_el_vars v fs : Forall wf_f fs -> In v (prod_vars fs) -> In v (prod_vars (filter (has_var v) fs)).
Proof. intros W V. apply prod_vars_In in V as (g & G & V). apply prod_vars_In. exists g. split; auto. apply filter_In. split; auto. apply has_var_iff. auto. Qed.
Lemma Forall_filter {A} (P : A -> Prop) f l : Forall P l -> Forall P (filter f l).
Proof. intros H. apply Forall_forall. intros x X. apply filter_In in X as [X _]. rewrite Forall_forall in H. auto. Qed.
Lemma elim_part_ok v fs : Forall wf_f fs -> In v (prod_vars fs) ->
  exists ef, elim_part v fs = Ok ef /\ Forall wf_f (filter (fun g => negb (has_var v g)) fs ++ ef) /\ (Forall srt fs -> Forall srt (filter (fun g => negb (has_var v g)) fs ++ ef)) /\
    (forall env, prod_val (filter (fun g => negb (has_var v g)) fs ++ ef) env = I1 v (prod_val fs) env) /\
    (forall w, In w (prod_vars (filter (fun g => negb (has_var v g)) fs ++ ef)) <-> In w (prod_vars fs) /\ w <> v).
Proof.
  intros W V. pose proof (filter_el_vars v fs W V) as VE. assert (WE : Forall wf_f (filter (has_var v) fs)) by (apply Forall_filter; auto). assert (HV : Forall (fun g => In v (f_vars g)) (filter (has_var v) fs)) by (apply Forall_forall; intros g G; apply filter_In in G as [_ G]; apply has_var_iff; auto).
  assert (MAIN : forall F' , wf_nd F' -> In v (nd_vars F') -> (forall env, f_val (FDens F') env = prod_val (filter (has_var v) fs) env) -> (forall w, In w (nd_vars F') <-> In w (prod_vars (filter (has_var v) fs))) ->
    (Forall srt fs -> srt (FDens F')) ->
    exists ef, rbind (nd_elim integ lo hi F' [v]) (fun g' => Ok [g']) = Ok ef /\ Forall wf_f (filter (fun g => negb (has_var v g)) fs ++ ef) /\ (Forall srt fs -> Forall srt (filter (fun g => negb (has_var v g)) fs ++ ef)) /\
    (forall env, prod_val (filter (fun g => negb (has_var v g)) fs ++ ef) env = I1 v (prod_val fs) env) /\
    (forall w, In w (prod_vars (filter (fun g => negb (has_var v g)) fs ++ ef)) <-> In w (prod_vars fs) /\ w <> v)).
  { intros F' WF VF EV IV SF. destruct (nd_elim_ok F' [v] WF (one_sorted v)) as (g & G1 & G2 & G3 & G4 & G5); [intros w [<-|[]]; auto|right; simpl; lia|].
    exists [g]. rewrite G1. split; [auto|]. split; [apply Forall_app; split; [apply Forall_filter; auto|auto]|]. split; [intros S; apply Forall_app; split; [apply Forall_filter; auto|constructor; auto]|]. split.
    - intros env. apply part_val. intros e. rewrite prod_val_cons, prod_val_nil, Rmult_1_r, G4. cbn [rev app integ_all]. apply I1_ext. auto.
    - intros w. rewrite !prod_vars_In. split.
      + intros (h & H & Hw). apply in_app_iff in H as [H|[<-|[]]].
        * apply filter_In in H as [H1 H2]. split; [eauto|]. intros ->. apply negb_true_iff, has_var_false in H2. auto.
        * apply G5 in Hw as [H1 H2]. apply IV, prod_vars_In in H1 as (h & Hh & Hw). apply filter_In in Hh as [Hh _]. split; [eauto|]. simpl in H2. intuition.
      + intros [(h & H & Hw) NV]. destruct (has_var v h) eqn:E.
        * exists g. split; [apply in_app_iff; simpl; auto|]. apply G5. split; [|simpl; intuition]. apply IV. apply prod_vars_In. exists h. split; auto. apply filter_In. auto.
        * exists h. split; auto. apply in_app_iff. left. apply filter_In. rewrite E. auto. }
  unfold elim_part. destruct (filter (has_var v) fs) as [|g [|g2 el]] eqn:EL.
  - exfalso. apply prod_vars_In in VE as (g & [] & _).
  - inversion WE; inversion HV; subst. destruct g; cbn [f_vars] in *; try tauto. cbn [fac_elim]. apply MAIN; auto.
    + intros env. rewrite prod_val_cons, prod_val_nil. ring.
    + intros w. rewrite prod_vars_In. split; [intros Hw; exists (FDens F); simpl; auto|intros (h & [<-|[]] & Hw); auto].
    + intros S. rewrite Forall_forall in S. apply S. assert (In (FDens F) (filter (has_var v) fs)) by (rewrite EL; simpl; auto). apply filter_In in H. tauto.
  - apply MAIN.
    + apply as_nd_wf; auto. intros Z. rewrite Z in VE. destruct VE.
    + auto.
    + intros env. apply as_nd_val; auto. intros Z. rewrite Z in VE. destruct VE.
    + intros w. cbn [as_ndfun nd_vars]. tauto.
    + intros _. unfold srt. cbn [f_vars as_ndfun nd_vars]. apply prod_vars_sorted.
Qed.
Lemma opt_wf fs : Forall wf_f fs -> Forall wf_f (optimize fs).
Proof. apply optimize_forall. simpl. auto. Qed.
Lemma opt_srt fs : Forall srt fs -> Forall srt (optimize fs).
Proof. apply optimize_forall. intros. constructor. Qed.
Lemma prod_vars_nil_inv fs : (forall g, In g fs -> f_vars g = []) -> forall w, ~ In w (prod_vars fs).
Proof. intros H w Hw. apply prod_vars_In in Hw as (g & G & Hw). rewrite (H g G) in Hw. destruct Hw. Qed.
Lemma prod_elim_n_ok : forall n fs vs, (length vs <= n)%nat -> Forall wf_f fs -> StronglySorted lt vs -> incl vs (prod_vars fs) -> (Forall srt fs \/ (length vs <= 1)%nat) ->
  exists fs' l, prod_elim_n integ lo hi n fs vs = Ok fs' /\ Permutation l vs /\ Forall wf_f fs' /\ (Forall srt fs -> Forall srt fs') /\
    (forall env, prod_val fs' env = IA l (prod_val fs) env) /\ (forall w, In w (prod_vars fs') <-> In w (prod_vars fs) /\ ~ In w vs).
Proof.
  induction n as [|n IH]; intros fs vs LN W SV IN SS; (assert (FB : forallb (fun v => existsb (Nat.eqb v) (prod_vars fs)) vs = true) by (apply forallb_forall; intros v V; apply existsb_exists; exists v; split; [auto|apply Nat.eqb_refl])); cbn [prod_elim_n]; rewrite FB; cbn [negb].
  - destruct vs; [|simpl in LN; lia]. exists fs, []. parts; auto. intros w. simpl. tauto.
  - destruct vs as [|v0 vs0]; [exists fs, []; parts; auto; intros w; simpl; tauto|]. set (vs := v0 :: vs0) in *. set (best := argmin _). assert (BL : (best < length vs)%nat) by (unfold best; rewrite <- (map_length (fun v => length (filter (has_var v) fs)) vs); apply argmin_lt; discriminate).
    set (v1 := nth best vs O). fold (elim_part v1 fs). assert (V1 : In v1 (prod_vars fs)) by (apply IN; apply nth_In; auto).
    destruct (elim_part_ok v1 fs W V1) as (ef & E1 & E2 & E3 & E4 & E5). rewrite E1. cbn [rbind]. set (new := optimize _).
    assert (NV : forall env, prod_val new env = I1 v1 (prod_val fs) env) by (intros env; unfold new; rewrite optimize_val; auto).
    assert (NW : Forall wf_f new) by (apply opt_wf; auto). assert (NS : Forall srt fs -> Forall srt new) by (intros S; apply opt_srt; auto).
    assert (NVV : forall w, In w (prod_vars new) <-> In w (prod_vars fs) /\ w <> v1) by (intros w; unfold new; rewrite optimize_vars; auto).
    set (vs' := drop_at best vs). pose proof (drop_nth best vs O BL) as PM. fold v1 vs' in PM. assert (SV' : StronglySorted lt vs') by (apply drop_sorted; auto).
    assert (ND : NoDup (v1 :: vs')) by (eapply Permutation_NoDup; [symmetry; exact PM|apply sorted_nodup; auto]). inversion ND; subst.
    assert (IN' : incl vs' (prod_vars new)) by (intros w Hw; apply NVV; split; [apply IN; eapply drop_in; exact Hw|intros ->; tauto]).
    assert (LV : length vs' = (length vs - 1)%nat) by (apply drop_len; auto).
    assert (VSI : forall w, In w vs <-> w = v1 \/ In w vs') by (intros w; split; [intros Hw; apply (Permutation_in w (Permutation_sym PM)) in Hw; destruct Hw; auto|intros [->|Hw]; [apply nth_In; auto|eapply drop_in; exact Hw]]).
    destruct new as [|g [|g2 rest]] eqn:EN.
    + assert (vs' = []) as Z by (destruct vs' as [|w ?]; auto; destruct (IN' w ltac:(simpl; auto))). rewrite Z in *. exists [], [v1]. parts; auto.
      intros w. rewrite NVV, VSI. simpl. tauto.
    + inversion NW; subst. assert (FG : exists g', fac_elim integ lo hi g vs' = Ok g' /\ wf_f g' /\ (srt g -> srt g') /\ (forall env, f_val g' env = IA (rev vs') (f_val g) env) /\ (forall w, In w (f_vars g') <-> In w (f_vars g) /\ ~ In w vs')).
      { destruct g as [F|c|]; cbn [fac_elim].
        - apply nd_elim_ok; auto; [intros w Hw; apply IN', prod_vars_In in Hw as (h & [<-|[]] & Hw); auto|]. destruct SS as [SS|SS]; [left; specialize (NS SS); inversion NS; auto|right; lia].
        - assert (vs' = []) as -> by (destruct vs' as [|w ?]; auto; exfalso; specialize (IN' w ltac:(simpl; auto)); apply prod_vars_In in IN' as (h & [<-|[]] & []); auto). exists (FConst c). parts; auto. simpl. tauto.
        - assert (vs' = []) as -> by (destruct vs' as [|w ?]; auto; exfalso; specialize (IN' w ltac:(simpl; auto)); apply prod_vars_In in IN' as (h & [<-|[]] & []); auto). exists FOne. parts; auto. simpl. tauto. }
      destruct FG as (g' & F1 & F2 & F3 & F4 & F5). rewrite F1. cbn [rbind]. exists (optimize [g']), (v1 :: rev vs'). parts; auto.
      * rewrite <- PM. apply perm_skip. symmetry. apply Permutation_rev.
      * apply opt_wf. auto.
      * intros S. apply opt_srt. constructor; auto. specialize (NS S). inversion NS; auto.
      * intros env. rewrite optimize_val, prod_val_cons, prod_val_nil, Rmult_1_r, F4. cbn [integ_all]. apply IA_ext. intros e. rewrite <- NV, prod_val_cons, prod_val_nil. ring.
      * intros w. rewrite optimize_vars, VSI. assert (X : In w (prod_vars [g']) <-> In w (f_vars g')) by (rewrite prod_vars_In; split; [intros (h & [<-|[]] & Hw); auto|intros Hw; exists g'; simpl; auto]). rewrite X, F5.
        assert (Y : In w (prod_vars [g]) <-> In w (f_vars g)) by (rewrite prod_vars_In; split; [intros (h & [<-|[]] & Hw); auto|intros Hw; exists g; simpl; auto]). rewrite <- Y, NVV. tauto.
    + destruct vs' as [|w' vs''] eqn:EV.
      * exists (g :: g2 :: rest), [v1]. parts; auto. intros w. rewrite NVV, VSI. simpl. tauto.
      * destruct (IH (g :: g2 :: rest) (w' :: vs'')) as (fs' & l & A1 & A2 & A3 & A4 & A5 & A6); auto; try (rewrite LV in *; simpl in LN |- *; lia).
        { destruct SS as [SS|SS]; [left; auto|right; lia]. }
        rewrite A1. exists fs', (v1 :: l). parts; auto.
        -- rewrite <- PM. apply perm_skip. auto.
        -- intros env. rewrite A5. cbn [integ_all]. apply IA_ext. auto.
        -- intros w. rewrite A6, NVV, VSI. tauto.
Qed.
End Elim.
