(** Proofs: conditional densities, part 4: conditioning a conditional density. *)
From Coq Require Import Reals Lra Lia List Bool Arith Sorted Permutation.
From Verif Require Import Base ND NDSpec NDFacts NDFacts2 NDFacts3 CondND CondNDSpec CondNDFacts CondNDFacts2 CondNDFacts3.
Import List ListNotations.
Open Scope R_scope.

Section C4.
Variable integ : (R -> R) -> R -> R -> R.
Variable lo hi : nat -> R.
Hypothesis HI : homogeneous integ.
Notation IA := (integ_all integ lo hi).
Notation J := (joint lo hi).

Lemma set_upd vs X e v x : ~ In v vs -> forall u, upd (set_all e vs X) v x u = set_all (upd e v x) vs X u.
Proof.
  revert X. induction vs as [|w vs IH]; intros [|y X] H u; cbn [set_all]; auto. unfold upd at 1 3. simpl in H. destruct (Nat.eqb_spec u v) as [->|E].
  - destruct (Nat.eqb_spec v w); [subst; tauto|]. rewrite <- IH by tauto. unfold upd. rewrite Nat.eqb_refl. auto.
  - unfold upd at 1. destruct (Nat.eqb_spec u w); auto. rewrite <- IH by tauto. unfold upd. destruct (Nat.eqb_spec u v); [congruence|auto].
Qed.
Lemma set_ext vs X e e' : (forall u, e u = e' u) -> forall u, set_all e vs X u = set_all e' vs X u.
Proof. revert X. induction vs as [|w vs IH]; intros [|y X] H u; cbn [set_all]; auto. unfold upd. destruct (Nat.eqb u w); auto. Qed.
Lemma IA_set vs X : forall l g env, ext g -> (forall v, In v l -> ~ In v vs) -> IA l g (set_all env vs X) = IA l (fun e => g (set_all e vs X)) env.
Proof.
  induction l as [|v l IH]; intros g env E D; cbn [integ_all]; auto. rewrite IH.
  - apply (IA_ext integ lo hi HI). intros e. apply HI. intros x. apply E. apply set_upd. apply D. simpl. auto.
  - intros e e' Ee. apply HI. intros x. apply E. intros u. unfold upd. destruct (Nat.eqb u v); auto.
  - intros w W. apply D. simpl. auto.
Qed.
Lemma without_same vars vs cv : (forall v, In v vs <-> In v cv) -> without vars vs = without vars cv.
Proof. intros H. apply filter_ext. intros v. f_equal. apply eq_true_iff_eq. rewrite !inb_iff. auto. Qed.
Lemma new_cond_map vars vs cv idx cidx : NoDup vars -> positions vs vars = Ok idx -> positions cv vars = Ok cidx -> sublist cv vars ->
  map (fun i => nth i vars O) (filter (fun i => existsb (Nat.eqb i) cidx && negb (existsb (Nat.eqb i) idx)) (seq 0 (length vars))) = without cv vs.
Proof.
  intros N P Q S. rewrite (filter_ext_in _ (fun i => inb (nth i vars O) cv && negb (inb (nth i vars O) vs))).
  - rewrite <- (CondNDFacts.filter_map (fun i => nth i vars O) (fun v => inb v cv && negb (inb v vs))), map_nth_seq, <- filter_filter, sublist_eq by auto. auto.
  - intros i I. apply in_seq in I. fold (inb i cidx). fold (inb i idx). rewrite (pos_filter vars vs idx), (pos_filter vars cv cidx) by (auto; lia). auto.
Qed.

(** conditioning on all the condition variables and possibly more *)
Lemma cond_all_ok F cv C vs X : wf_nd lo hi F -> sublist cv (nd_vars F) -> cd_make integ lo hi F cv None = Ok C -> incl vs (nd_vars F) -> incl cv vs ->
  cd_condition integ lo hi C vs X = rmap inl (nd_cond integ lo hi F vs X).
Proof.
  intros W S M I CI. pose proof W as (N & _). destruct (make_ok integ lo hi HI F cv W S) as (C' & M' & CN & CP & _). rewrite M in M'. injection M' as <-. unfold cd_condition. rewrite CN. destruct (positions_ok vs (nd_vars F) I) as (idx & P & _). rewrite P. cbn [rbind].
  pose proof (new_cond_map _ vs cv idx _ N P CP S) as Q. destruct (filter _ _) as [|i l]; auto. exfalso. assert (H : In (nth i (nd_vars F) O) (without cv vs)) by (rewrite <- Q; simpl; auto). apply without_In in H as [H1 H2]. apply H2, CI, H1.
Qed.
Lemma cond_value_ok F cv C vs X : wf_nd lo hi F -> sublist cv (nd_vars F) -> cd_make integ lo hi F cv None = Ok C -> NoDup vs -> (forall v, In v vs <-> In v cv) -> length X = length vs -> (forall v x, In (v, x) (combine vs X) -> lo v <= x <= hi v) ->
  (exists v, In v (nd_vars F) /\ ~ In v cv) -> (exists env, IA (inner (nd_vars F) cv) (J F) (set_all env vs X) <> 0) ->
  exists G, cd_condition integ lo hi C vs X = Ok (inl (FDens G)) /\ wf_nd lo hi G /\ nd_vars G = without (nd_vars F) cv /\
    forall env, J G env = num (cd_point lo hi C (map (set_all env vs X) (nd_vars F))).
Proof.
  intros W S M NV EV L RG (w & W1 & W2) (env0 & NZ). assert (IN : incl vs (nd_vars F)) by (intros v V; apply (sublist_in _ _ S), EV; auto).
  destruct (nd_cond_ok integ lo hi HI F vs X W NV IN L RG) as (Z & Z1 & _ & Z3); [exists w; rewrite EV; auto|]. assert (IE : inner (nd_vars F) vs = inner (nd_vars F) cv) by (unfold inner; f_equal; apply without_same; auto).
  assert (ZE : forall env, IA (inner (nd_vars F) cv) (J F) (set_all env vs X) = Z).
  { intros env. rewrite IA_set.
    - rewrite <- IE. apply Z1.
    - intros e e' Ee. apply (joint_dep lo hi F W). auto.
    - intros v V. unfold inner in V. rewrite <- in_rev, without_In in V. rewrite EV. tauto. }
  rewrite ZE in NZ. destruct (Z3 NZ) as (G & G1 & G2 & G3 & G4). exists G. split; [|split; [auto|split; [rewrite G3; apply without_same; auto|]]].
  - rewrite (cond_all_ok F cv C vs X) by (auto; intros v V; apply EV; auto). rewrite G1. auto.
  - intros env. destruct (make_ok integ lo hi HI F cv W S) as (C' & M' & CN & CP & CV & CM). rewrite M in M'. injection M' as <-. rewrite G4. pose proof (num_ok lo hi C cv (set_all env vs X)) as H. rewrite CN, CM, ZE in H. rewrite H; auto.
Qed.
(** conditioning on other variables: some condition variable remains *)
Lemma cond_part_ok F cv C vs X : wf_nd lo hi F -> sublist cv (nd_vars F) -> cd_make integ lo hi F cv None = Ok C -> NoDup vs -> incl vs (nd_vars F) -> length X = length vs -> (forall v x, In (v, x) (combine vs X) -> lo v <= x <= hi v) ->
  (exists v, In v cv /\ ~ In v vs) -> (exists env, IA (inner (nd_vars F) vs) (fun e => J F (set_all e vs X)) env <> 0) ->
  exists C' Z, cd_condition integ lo hi C vs X = Ok (inr C') /\ cd_marg C' = cd_marg C /\ positions (without cv vs) (nd_vars (cd_nd C')) = Ok (cd_cond C') /\ wf_nd lo hi (cd_nd C') /\ nd_vars (cd_nd C') = without (nd_vars F) vs /\
    (forall env, IA (inner (nd_vars F) vs) (fun e => J F (set_all e vs X)) env = Z) /\ Z <> 0 /\ (forall env, J (cd_nd C') env = J F (set_all env vs X) / Z).
Proof.
  intros W S M NV IN L RG (w & W1 & W2) (env0 & NZ). pose proof W as (N & _). destruct (make_ok integ lo hi HI F cv W S) as (C0 & M' & CN & CP & CV & CM). rewrite M in M'. injection M' as <-.
  destruct (nd_cond_ok integ lo hi HI F vs X W NV IN L RG) as (Z & Z1 & _ & Z3); [exists w; split; auto; apply (sublist_in _ _ S); auto|]. rewrite Z1 in NZ. destruct (Z3 NZ) as (G & G1 & G2 & G3 & G4).
  unfold cd_condition. rewrite CN. destruct (positions_ok vs (nd_vars F) IN) as (idx & P & _). rewrite P. cbn [rbind]. pose proof (new_cond_map _ vs cv idx _ N P CP S) as Q.
  set (nc := filter _ (seq 0 (length (nd_vars F)))) in *. assert (NE : nc <> []) by (intros E; rewrite E in Q; cbn [map] in Q; assert (X1 : In w (without cv vs)) by (apply without_In; auto); rewrite <- Q in X1; destruct X1).
  assert (MT : forall (A : Type) (x y : A), match nc with [] => x | _ => y end = y) by (intros; clearbody nc; destruct nc; tauto). rewrite MT, Q, G1. cbn [rbind]. unfold cd_make.
  destruct (positions_ok (without cv vs) (nd_vars G)) as (k & K & _); [intros v V; apply without_In in V as [V1 V2]; rewrite G3; apply without_In; split; auto; apply (sublist_in _ _ S); auto|]. rewrite K. cbn [rbind rmap].
  eexists _, Z. split; [reflexivity|]. cbn [cd_nd cd_cond cd_marg]. parts; auto.
Qed.
End C4.
