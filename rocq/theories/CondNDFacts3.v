(** Proofs: conditional densities, part 3: fixing the values of variables. *)
From Coq Require Import Reals Lra Lia List Bool Arith Sorted Permutation.
From Verif Require Import Base ND NDSpec NDFacts NDFacts2 NDFacts3 CondND CondNDSpec CondNDFacts CondNDFacts2.
Import List ListNotations.
Open Scope R_scope.

Lemma lookup_out i idx X : ~ In i idx -> lookup i idx X = None.
Proof. revert X. induction idx as [|j idx IH]; intros [|x X] H; cbn [lookup]; auto. destruct (Nat.eqb_spec i j); [subst; exfalso; apply H; simpl; auto|]. apply IH. intros Y. apply H. simpl. auto. Qed.
Lemma lookup_map (f : nat -> R) i idx : In i idx -> lookup i idx (map f idx) = Some (f i).
Proof. induction idx as [|j idx IH]; intros H; [destruct H|]. cbn [map lookup]. destruct (Nat.eqb_spec i j); [subst; auto|]. apply IH. destruct H; [congruence|auto]. Qed.
Lemma set_all_out env vs X w : ~ In w vs -> set_all env vs X w = env w.
Proof. revert X. induction vs as [|v vs IH]; intros [|x X] H; cbn [set_all]; auto. unfold upd. destruct (Nat.eqb_spec w v); [subst; exfalso; apply H; simpl; auto|]. apply IH. intros Y. apply H. simpl. auto. Qed.
Lemma lookup_set (vars : list nat) : NoDup vars -> forall vs idx X env i, positions vs vars = Ok idx -> length X = length vs -> In i idx -> (i < length vars)%nat ->
  lookup i idx X = Some (set_all env vs X (nth i vars O)).
Proof.
  intros N. induction vs as [|v vs IH]; intros idx X env i P L I LT; cbn [positions] in P; [injection P as <-; destruct I|].
  destruct (position v vars) as [j|] eqn:PJ; [|discriminate]. destruct (positions vs vars) as [l|] eqn:PL; [|discriminate]. cbn [rbind] in P. injection P as <-. destruct X as [|x X]; [discriminate|]. cbn [lookup set_all]. unfold upd. apply position_some in PJ as [PJ1 PJ2].
  destruct (Nat.eqb_spec i j) as [->|IJ]; [rewrite PJ2, Nat.eqb_refl; auto|]. destruct (Nat.eqb_spec (nth i vars O) v) as [E|E].
  - exfalso. apply IJ. apply (proj1 (NoDup_nth vars O) N i j LT PJ1). congruence.
  - apply IH; auto. destruct I; [congruence|auto].
Qed.

Section Cond.
Variable integ : (R -> R) -> R -> R -> R.
Variable lo hi : nat -> R.
Hypothesis HI : homogeneous integ.
Notation IA := (integ_all integ lo hi).
Notation J := (joint lo hi).

Lemma cond_args_ok F vs idx X env : NoDup (nd_vars F) -> positions vs (nd_vars F) = Ok idx -> length X = length vs ->
  cond_args (length (nd_vars F)) idx X (others (length (nd_vars F)) idx) (map env (without (nd_vars F) vs)) = map (set_all env vs X) (nd_vars F).
Proof.
  intros N P L. unfold cond_args. transitivity (map (set_all env vs X) (map (fun i => nth i (nd_vars F) O) (seq 0 (length (nd_vars F))))); [|rewrite map_nth_seq; auto]. rewrite map_map. apply map_ext_in. intros i I. apply in_seq in I.
  rewrite <- (others_map (nd_vars F) vs idx N P), map_map. destruct (in_dec Nat.eq_dec i (others (length (nd_vars F)) idx)) as [O|O].
  - rewrite lookup_map by auto. symmetry. apply set_all_out. apply inb_false. rewrite <- (pos_filter (nd_vars F) vs idx N P) by lia. unfold others in O. apply filter_In in O as [_ O]. apply negb_true_iff in O. exact O.
  - rewrite lookup_out by auto. assert (II : In i idx). { apply inb_iff. destruct (inb i idx) eqn:E; auto. exfalso. apply O. apply filter_In. split; [apply in_seq; lia|]. apply negb_true_iff. exact E. }
    rewrite (lookup_set (nd_vars F) N vs idx X env i) by (auto; lia). auto.
Qed.
Lemma ranges_ok vars vs idx X : positions vs vars = Ok idx -> length X = length vs -> (in_ranges lo hi vars idx X = true <-> forall v x, In (v, x) (combine vs X) -> lo v <= x <= hi v).
Proof.
  revert idx X. induction vs as [|v vs IH]; intros idx X P L; cbn [positions] in P.
  - injection P as <-. destruct X; [|discriminate]. cbn. split; auto. intros _ v x [].
  - destruct (position v vars) as [j|] eqn:PJ; [|discriminate]. destruct (positions vs vars) as [l|] eqn:PL; [|discriminate]. cbn [rbind] in P. injection P as <-. destruct X as [|x X]; [discriminate|].
    unfold in_ranges. cbn [combine forallb fst snd]. apply position_some in PJ as [_ PJ]. rewrite PJ. rewrite !andb_true_iff, !rle_true. fold (in_ranges lo hi vars l X). rewrite (IH l X eq_refl) by (simpl in L; lia). split.
    + intros [A B] w y [E|I]; [injection E as <- <-; auto|auto].
    + intros H. split; [apply H; simpl; auto|]. intros w y I. apply H. simpl. auto.
Qed.
Lemma seq_all (l : list nat) : StronglySorted (fun i j => j < i)%nat (rev (seq 0 (length l))).
Proof. apply rev_sorted, seq_sorted. Qed.

Lemma elim_not_one : forall l u, nd_elim_rev integ lo hi u l <> Ok FOne.
Proof.
  induction l as [|i l IH]; intros u; cbn [nd_elim_rev]; [cbn; discriminate|].
  destruct (negb _); [discriminate|]. destruct (Nat.eqb _ 1); [discriminate|]. destruct l; [discriminate|apply IH].
Qed.

(** the value of a function of the remaining variables *)
Lemma interp_val vars (f : list R -> R) env : f_val (FDens (interpolated lo hi vars f)) env = if forallb (fun v => in_rng (env v) (lo v) (hi v)) vars then f (map env vars) else 0.
Proof. cbn [f_val interpolated nd_vars]. unfold nd_point. cbn [nd_a nd_b nd_f interpolated]. rewrite inside_map. unfold post. cbn [nd_abs interpolated]. auto. Qed.
Lemma set_within_out env vs X w : In w vs \/ True -> ~ In w vs -> in_rng (env w) (lo w) (hi w) = false -> ~ within lo hi [w] (set_all env vs X).
Proof. intros _ H E W. specialize (W w (or_introl eq_refl)). rewrite set_all_out in W by auto. apply in_rng_iff in W. congruence. Qed.

Lemma nd_cond_ok F vs X : wf_nd lo hi F -> NoDup vs -> incl vs (nd_vars F) -> length X = length vs -> (forall v x, In (v, x) (combine vs X) -> lo v <= x <= hi v) -> (exists v, In v (nd_vars F) /\ ~ In v vs) ->
  exists Z, (forall env, IA (inner (nd_vars F) vs) (fun e => J F (set_all e vs X)) env = Z) /\
    (Z = 0 -> nd_cond integ lo hi F vs X = Err EZeroDiv) /\
    (Z <> 0 -> exists G, nd_cond integ lo hi F vs X = Ok (FDens G) /\ wf_nd lo hi G /\ nd_vars G = without (nd_vars F) vs /\ forall env, J G env = J F (set_all env vs X) / Z).
Proof.
  intros W NV IN L RG (w & W1 & W2). pose proof W as (N & _). destruct (positions_ok vs (nd_vars F) IN) as (idx & P & PM & PL). destruct (positions_lt _ _ _ P) as (_ & _ & LI).
  unfold nd_cond. rewrite P. cbn [rbind]. rewrite (others_map (nd_vars F) vs idx N P). replace (Nat.ltb (length X) (length idx)) with false by (symmetry; apply Nat.ltb_ge; lia).
  rewrite (proj2 (ranges_ok _ vs idx X P L)) by auto. cbn [negb]. replace (Nat.eqb (length X) (length idx)) with true by (symmetry; apply Nat.eqb_eq; lia). cbn [negb].
  set (cvs := without (nd_vars F) vs). set (c_var := others (length (nd_vars F)) idx). assert (LC : length c_var = length cvs) by (unfold cvs; rewrite <- (others_map (nd_vars F) vs idx N P), map_length; auto).
  assert (CW : In w cvs) by (apply without_In; auto). assert (NC : NoDup cvs) by (apply NoDup_filter; auto).
  set (h := fun Xf => nd_point F (cond_args (length (nd_vars F)) idx X c_var Xf)). set (u := interpolated lo hi cvs h).
  assert (WU : forall f, wf_nd lo hi (interpolated lo hi cvs f)) by (intros f; unfold wf_nd, interpolated; cbn [nd_vars nd_a nd_b]; parts; auto; intros E; rewrite E in CW; destruct CW).
  assert (HV : forall f : R -> R, f 0 = 0 -> forall env, J (interpolated lo hi cvs (fun Xf => f (h Xf))) env = f (J F (set_all env vs X))).
  { intros f f0 env. rewrite joint_val by auto. rewrite interp_val. destruct (forallb _ cvs) eqn:E.
    - unfold h. unfold c_var, cvs. rewrite (cond_args_ok F vs idx X env N P L). f_equal. symmetry. apply (joint_val lo hi F (set_all env vs X) W).
    - rewrite joint_out; auto. intros H. apply bad_coord in E as (v & V1 & V2). apply without_In in V1 as [V1 V3]. specialize (H v V1). rewrite set_all_out in H by auto. apply in_rng_iff in H. congruence. }
  assert (LS : Forall (fun i => (i < length (nd_vars u))%nat) (rev (seq 0 (length c_var)))) by (apply Forall_rev, Forall_forall; intros i I; apply in_seq in I; cbn [u interpolated nd_vars]; lia).
  destruct (elim_rev_ok integ lo hi HI (rev (seq 0 (length c_var))) u (WU h) (seq_all c_var) LS) as (g & G1 & G2 & _ & G4 & G5).
  assert (M : map (fun i => nth i (nd_vars u) O) (rev (seq 0 (length c_var))) = inner (nd_vars F) vs) by (rewrite map_rev, LC; unfold inner; f_equal; apply map_nth_seq). rewrite M in G4, G5.
  assert (GN : exists c, g = FConst c). 
  { destruct g as [G|c|]; [|eauto|].
    - exfalso. destruct G2 as (_ & NE & _). destruct (nd_vars G) as [|v l] eqn:E; [tauto|]. assert (X1 : In v (f_vars (FDens G))) by (cbn [f_vars]; rewrite E; simpl; auto). apply G5 in X1 as [X1 X2]. apply X2. unfold inner. rewrite <- in_rev. auto.
    - exfalso. eapply elim_not_one; eauto. }
  destruct GN as (Z & ->). exists Z.
  assert (EZ : forall env, IA (inner (nd_vars F) vs) (fun e => J F (set_all e vs X)) env = Z).
  { intros env. change Z with (f_val (FConst Z) env). rewrite G4. apply (IA_ext integ lo hi HI). intros e. rewrite <- (joint_val lo hi u) by (apply WU). symmetry. apply (HV (fun y => y)). auto. }
  split; [exact EZ|]. assert (CNE : c_var <> []) by (intros E; rewrite E in LC; destruct cvs; [destruct CW|discriminate]).
  assert (MT : forall (A : Type) (x y : A), match c_var with [] => x | _ => y end = y) by (intros; clearbody c_var; destruct c_var; tauto). rewrite MT. fold h. fold u. rewrite G1. cbn [rbind]. split.
  - intros ->. rewrite (proj2 (req_true 0 0)) by auto. auto.
  - intros NZ. destruct (reqP Z 0); [tauto|]. eexists. split; [reflexivity|]. split; [apply WU|]. split; [auto|]. intros env. apply (HV (fun y => y / Z)). unfold Rdiv. ring.
Qed.
End Cond.
