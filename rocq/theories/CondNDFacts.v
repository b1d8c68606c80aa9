(** Proofs: conditional densities, part 1: variables, positions and integrals over the other variables. *)
From Coq Require Import Reals Lra Lia List Bool Arith Sorted Permutation.
From Verif Require Import Base ND NDSpec NDFacts NDFacts2 NDFacts3 CondND CondNDSpec.
Import List ListNotations.
Open Scope R_scope.

Definition inb (v : nat) (l : list nat) : bool := existsb (Nat.eqb v) l.
Lemma inb_iff v l : inb v l = true <-> In v l.
Proof. unfold inb. rewrite existsb_exists. split; [intros (w & W & E); apply Nat.eqb_eq in E; subst; auto|intros H; exists v; split; auto; apply Nat.eqb_refl]. Qed.
Lemma inb_false v l : inb v l = false <-> ~ In v l.
Proof. rewrite <- inb_iff. destruct (inb v l); intuition congruence. Qed.
Definition without (vs cv : list nat) : list nat := filter (fun v => negb (inb v cv)) vs.
Lemma without_In vs cv v : In v (without vs cv) <-> In v vs /\ ~ In v cv.
Proof. unfold without. rewrite filter_In, negb_true_iff, inb_false. tauto. Qed.
Lemma without_rest vs cv : NoDup vs -> rest_of vs cv (without vs cv).
Proof. intros N. split; [apply NoDup_filter; auto|apply without_In]. Qed.
Lemma rest_perm vs cv l l' : rest_of vs cv l -> rest_of vs cv l' -> Permutation l l'.
Proof. intros [A B] [C D]. apply NoDup_Permutation; auto. intros v. rewrite B, D. tauto. Qed.
Lemma rest_rev vs cv l : rest_of vs cv l -> rest_of vs cv (rev l).
Proof. intros [A B]. split; [apply NoDup_rev; auto|]. intros v. rewrite <- in_rev. auto. Qed.

Lemma sublist_in : forall vs cv, sublist cv vs -> incl cv vs.
Proof.
  induction vs as [|v vs IH]; intros [|c cv] H w W; simpl in W; simpl in H; try tauto. cbn [sublist] in H. destruct H as [[-> H]|H].
  - destruct W as [<-|W]; simpl; auto. right. apply (IH cv); auto.
  - right. apply (IH (c :: cv)); simpl; auto.
Qed.
Lemma sublist_nil_r : forall vs, sublist [] vs. Proof. destruct vs; simpl; auto. Qed.
Lemma sublist_eq : forall vs cv, NoDup vs -> sublist cv vs -> filter (fun v => inb v cv) vs = cv.
Proof.
  induction vs as [|v vs IH]; intros cv N H; [destruct cv; simpl in *; tauto|]. inversion N; subst. destruct cv as [|c cv].
  - clear. induction (v :: vs); auto.
  - cbn [sublist] in H. cbn [filter]. destruct H as [[-> H]|H].
    + rewrite (proj2 (inb_iff v (v :: cv))) by (simpl; auto). f_equal. transitivity (filter (fun w => inb w cv) vs); [|auto]. apply filter_ext_in. intros w W. unfold inb. cbn [existsb]. destruct (Nat.eqb_spec w v); [subst; tauto|auto].
    + replace (inb v (c :: cv)) with false; [auto|]. symmetry. apply inb_false. intros W. apply (sublist_in _ _ H) in W. tauto.
Qed.
Lemma sublist_nodup : forall vs cv, NoDup vs -> sublist cv vs -> NoDup cv.
Proof. intros vs cv N H. rewrite <- (sublist_eq vs cv) by auto. apply NoDup_filter. auto. Qed.
Lemma sublist_filter (p : nat -> bool) : forall vs cv, sublist cv vs -> (forall v, In v cv -> p v = true) -> sublist cv (filter p vs).
Proof.
  induction vs as [|v vs IH]; intros [|c cv] H P; try (apply sublist_nil_r); [simpl in H; tauto|]. cbn [sublist] in H. cbn [filter]. destruct H as [[-> H]|H].
  - rewrite P by (simpl; auto). cbn [sublist]. left. split; auto. apply IH; auto. intros w W. apply P. simpl. auto.
  - specialize (IH _ H P). destruct (p v); auto. cbn [sublist]. right. auto.
Qed.
Lemma filter_sublist (p : nat -> bool) : forall vs, sublist (filter p vs) vs.
Proof.
  induction vs as [|v vs IH]; [exact I|]. cbn [filter]. destruct (p v); cbn [sublist]; auto. destruct (filter p vs); [exact I|auto].
Qed.

(** ** Positions *)
Lemma positions_nodup vs vars idx : NoDup vars -> positions vs vars = Ok idx -> forall v, In v vars -> forall i, position v vars = Some i -> (In i idx <-> In v vs).
Proof.
  intros N. revert idx. induction vs as [|w vs IH]; intros idx E v V i P; cbn [positions] in E; [injection E as <-; simpl; tauto|].
  destruct (position w vars) as [j|] eqn:PJ; [|discriminate]. destruct (positions vs vars) as [l|]; [|discriminate]. cbn [rbind] in E. injection E as <-. cbn [In]. rewrite (IH l eq_refl v V i P). split; intros [H|H]; auto; left.
  - subst. apply position_some in PJ, P. destruct PJ, P. congruence.
  - subst. congruence.
Qed.
Lemma positions_lt vs vars idx : positions vs vars = Ok idx -> Forall (fun i => (i < length vars)%nat) idx /\ map (fun i => nth i vars O) idx = vs /\ length idx = length vs.
Proof.
  revert idx. induction vs as [|w vs IH]; intros idx E; cbn [positions] in E; [injection E as <-; auto|].
  destruct (position w vars) as [j|] eqn:PJ; [|discriminate]. destruct (positions vs vars) as [l|]; [|discriminate]. cbn [rbind] in E. injection E as <-. destruct (IH l eq_refl) as (A & B & C). apply position_some in PJ as [P Q]. parts; [constructor; auto|cbn [map]; rewrite Q, B; auto|simpl; auto].
Qed.
Lemma nth_position vars i : NoDup vars -> (i < length vars)%nat -> position (nth i vars O) vars = Some i.
Proof.
  revert i. induction vars as [|v vars IH]; intros i N L; simpl in L; [lia|]. inversion N; subst. destruct i; cbn [nth position]; [rewrite Nat.eqb_refl; auto|].
  destruct (Nat.eqb_spec (nth i vars O) v) as [E|E]; [exfalso; apply H1; rewrite <- E; apply nth_In; lia|]. rewrite IH by (auto; lia). auto.
Qed.
Lemma map_nth_seq (vars : list nat) : map (fun i => nth i vars O) (seq 0 (length vars)) = vars.
Proof. induction vars as [|v vars IH]; auto. cbn [length seq map nth]. f_equal. rewrite <- seq_shift, map_map. auto. Qed.
Lemma filter_map {A B} (f : A -> B) (p : B -> bool) l : filter p (map f l) = map f (filter (fun x => p (f x)) l).
Proof. induction l as [|x l IH]; auto. cbn [map filter]. rewrite IH. destruct (p (f x)); auto. Qed.
Lemma pos_filter vars vs idx : NoDup vars -> positions vs vars = Ok idx -> forall i, (i < length vars)%nat -> inb i idx = inb (nth i vars O) vs.
Proof.
  intros N E i L. apply eq_true_iff_eq. rewrite !inb_iff. apply (positions_nodup vs vars idx N E); [apply nth_In; auto|apply nth_position; auto].
Qed.
Lemma others_map vars vs idx : NoDup vars -> positions vs vars = Ok idx -> map (fun i => nth i vars O) (others (length vars) idx) = without vars vs.
Proof.
  intros N E. unfold others, without. transitivity (filter (fun v => negb (inb v vs)) (map (fun i => nth i vars O) (seq 0 (length vars)))); [|rewrite map_nth_seq; auto]. rewrite filter_map. f_equal. apply filter_ext_in. intros i I. apply in_seq in I. rewrite <- (pos_filter vars vs idx) by (auto; lia). auto.
Qed.
Lemma others_lt d idx : Forall (fun i => (i < d)%nat) (others d idx).
Proof. apply Forall_forall. intros i I. apply filter_In in I as [I _]. apply in_seq in I. lia. Qed.
Lemma seq_sorted n d : StronglySorted lt (seq n d).
Proof. revert n. induction d; intros n; cbn [seq]; constructor; auto. apply Forall_forall. intros i I. apply in_seq in I. lia. Qed.
Lemma filter_sorted (p : nat -> bool) l : StronglySorted lt l -> StronglySorted lt (filter p l).
Proof. induction 1; cbn [filter]; [constructor|]. destruct (p a); auto. constructor; auto. rewrite Forall_forall in *. intros x X. apply filter_In in X as [X _]. auto. Qed.
Lemma others_sorted d idx : StronglySorted (fun i j => j < i)%nat (rev (others d idx)).
Proof. apply rev_sorted. apply filter_sorted, seq_sorted. Qed.
Lemma sub_positions_sorted : forall vars cv idx, NoDup vars -> sublist cv vars -> positions cv vars = Ok idx -> StronglySorted lt idx.
Proof.
  intros vars cv idx N S E. assert (H : idx = filter (fun i => inb i idx) (seq 0 (length vars))); [|rewrite H; apply filter_sorted, seq_sorted].
  destruct (positions_lt cv vars idx E) as (A & B & C). rewrite (filter_ext_in _ (fun i => inb (nth i vars O) cv)) by (intros i I; apply in_seq in I; apply pos_filter; auto; lia).
  assert (M : map (fun i => nth i vars O) (filter (fun i => inb (nth i vars O) cv) (seq 0 (length vars))) = cv) by (rewrite <- (filter_map (fun i => nth i vars O) (fun v => inb v cv)), map_nth_seq; apply sublist_eq; auto).
  assert (INJ : forall l l', Forall (fun i => (i < length vars)%nat) l -> Forall (fun i => (i < length vars)%nat) l' -> map (fun i => nth i vars O) l = map (fun i => nth i vars O) l' -> l = l').
  { induction l as [|i l IH]; intros [|j l'] F F' Q; try discriminate; auto. inversion F; inversion F'; subst. cbn [map] in Q. injection Q as Q1 Q2. f_equal; [|apply IH; auto]. eapply NoDup_nth; eauto. }
  apply INJ; auto; [|congruence]. apply Forall_forall. intros i I. apply filter_In in I as [I _]. apply in_seq in I. lia.
Qed.

(** ** Remaining variables in order *)
Lemma drop_filter vars i : NoDup vars -> (i < length vars)%nat -> drop_at i vars = filter (fun v => negb (Nat.eqb v (nth i vars O))) vars.
Proof.
  revert i. induction vars as [|v vars IH]; intros i N L; simpl in L; [lia|]. inversion N; subst. destruct i as [|i]; cbn [drop_at nth filter].
  - rewrite Nat.eqb_refl. cbn [negb]. rewrite (filter_ext_in _ (fun _ => true)); [clear; induction vars; simpl; congruence|]. intros w W. destruct (Nat.eqb_spec w v); [subst; tauto|auto].
  - destruct (Nat.eqb_spec v (nth i vars O)) as [E|E]; [exfalso; apply H1; rewrite E; apply nth_In; lia|]. cbn [negb]. f_equal. apply IH; auto. lia.
Qed.
Lemma filter_filter {A} (p q : A -> bool) l : filter p (filter q l) = filter (fun x => q x && p x) l.
Proof. induction l as [|x l IH]; auto. cbn [filter]. destruct (q x); cbn [filter andb]; rewrite IH; auto. Qed.
Lemma elim_vars integ lo hi : forall ridx F g, NoDup (nd_vars F) -> StronglySorted (fun i j => j < i)%nat ridx -> Forall (fun i => (i < length (nd_vars F))%nat) ridx ->
  nd_elim_rev integ lo hi F ridx = Ok g -> f_vars g = without (nd_vars F) (map (fun i => nth i (nd_vars F) O) ridx).
Proof.
  induction ridx as [|i rest IH]; intros F g N S L; cbn [nd_elim_rev].
  - cbn [forallb negb]. intros E. injection E as <-. cbn [f_vars map]. unfold without. symmetry. clear. induction (nd_vars F) as [|v l IH]; [reflexivity|]. cbn [filter inb existsb negb] in *. f_equal. exact IH.
  - replace (forallb _ _) with true by (symmetry; apply forallb_forall; rewrite Forall_forall in L; intros j J; apply Nat.ltb_lt; auto). cbn [negb].
    inversion S; subst. inversion L; subst. destruct (Nat.eqb_spec (length (nd_vars F)) 1) as [D|D].
    + intros E. injection E as <-. cbn [f_vars]. destruct (nd_vars F) as [|v [|]] eqn:VE; simpl in D; try lia. simpl in H3. assert (i = O) by lia. subst. unfold without. cbn. rewrite Nat.eqb_refl. auto.
    + set (m := interpolated _ _ _ _). intros E. assert (M : nd_vars m = filter (fun v => negb (Nat.eqb v (nth i (nd_vars F) O))) (nd_vars F)) by (apply drop_filter; auto).
      assert (G : nd_elim_rev integ lo hi m rest = Ok g).
      { destruct rest; auto. }
      assert (NTH : map (fun j => nth j (nd_vars m) O) rest = map (fun j => nth j (nd_vars F) O) rest).
      { apply map_ext_in. intros j J. rewrite Forall_forall in H2. apply drop_lt. auto. }
      assert (LEN : length (nd_vars m) = (length (nd_vars F) - 1)%nat) by (apply drop_len; auto).
      rewrite (IH m g).
      * rewrite NTH, M. unfold without. rewrite filter_filter. apply filter_ext. intros v. cbn [map]. unfold inb. cbn [existsb]. rewrite negb_orb. auto.
      * apply drop_nodup; auto.
      * auto.
      * rewrite Forall_forall in *. intros j J. specialize (H2 j J). rewrite LEN. lia.
      * auto.
Qed.

(** ** Integrals over some variables *)
Section IA.
Variable integ : (R -> R) -> R -> R -> R.
Variable lo hi : nat -> R.
Hypothesis HI : homogeneous integ.
Notation I1 := (integ1 integ lo hi).
Notation IA := (integ_all integ lo hi).
Definition ext (g : (nat -> R) -> R) : Prop := forall e e', (forall u, e u = e' u) -> g e = g e'.
Definition dep (P : nat -> Prop) (g : (nat -> R) -> R) : Prop := forall e e', (forall u, P u -> e u = e' u) -> g e = g e'.

Lemma IA_ext_on vs : forall g g' env, (forall e, (forall v, ~ In v vs -> e v = env v) -> g e = g' e) -> IA vs g env = IA vs g' env.
Proof.
  induction vs as [|v vs IH]; intros g g' env H; cbn [integ_all]; [apply H; auto|]. apply IH. intros e E. apply HI. intros x. apply H. intros w W. unfold upd. destruct (Nat.eqb_spec w v); [subst; exfalso; apply W; simpl; auto|]. apply E. intros X. apply W. simpl. auto.
Qed.
Lemma I1_dep v P g : dep P g -> dep (fun u => P u /\ u <> v) (I1 v g).
Proof. intros D e e' E. apply HI. intros x. apply D. intros u U. unfold upd. destruct (Nat.eqb_spec u v); auto. Qed.
Lemma IA_dep vs : forall P g, dep P g -> dep (fun u => P u /\ ~ In u vs) (IA vs g).
Proof.
  induction vs as [|v vs IH]; intros P g D; cbn [integ_all].
  - intros e e' E. apply D. intros u U. apply E. simpl. tauto.
  - intros e e' E. apply (IH _ _ (I1_dep v P g D)). intros u [[U1 U2] U3]. apply E. simpl. intuition.
Qed.
Lemma IA_app vs vs' : forall g env, IA (vs ++ vs') g env = IA vs' (IA vs g) env.
Proof. induction vs as [|v vs IH]; intros g env; cbn [app integ_all]; auto. Qed.
Lemma f_val_dep g : dep (fun u => In u (f_vars g)) (f_val g).
Proof. intros e e' E. apply f_val_ext. auto. Qed.
Lemma dep_ext P g : dep P g -> ext g. Proof. intros D e e' E. apply D. auto. Qed.
Lemma joint_val F env : wf_nd lo hi F -> joint lo hi F env = f_val (FDens F) env.
Proof. intros (_ & _ & A & B). cbn [f_val]. unfold joint, nd_point. rewrite A, B, inside_map. unfold post, in_rng. destruct (forallb _ _); auto. destruct (nd_abs F); auto. symmetry. apply Rabs_R0. Qed.
End IA.
