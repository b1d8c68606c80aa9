(** Proofs: conditional densities, part 2: construction, elimination and conditioning. *)
From Coq Require Import Reals Lra Lia List Bool Arith Sorted Permutation.
From Verif Require Import Base ND NDSpec NDFacts NDFacts2 NDFacts3 CondND CondNDSpec CondNDFacts.
Import List ListNotations.
Open Scope R_scope.

Section Main.
Variable integ : (R -> R) -> R -> R -> R.
Variable lo hi : nat -> R.
Hypothesis HI : homogeneous integ.
Notation IA := (integ_all integ lo hi).
Notation J := (joint lo hi).
Notation make := (cd_make integ lo hi).
Notation val C env := (cd_point lo hi C (map env (nd_vars (cd_nd C)))).

Lemma joint_dep F : wf_nd lo hi F -> dep (fun u => In u (nd_vars F)) (J F).
Proof. intros W e e' E. rewrite !joint_val by auto. apply (f_val_dep (FDens F)). auto. Qed.
Lemma IA_joint F l env : wf_nd lo hi F -> IA l (f_val (FDens F)) env = IA l (J F) env.
Proof. intros W. apply (IA_ext integ lo hi HI). intros. symmetry. apply joint_val. auto. Qed.
Lemma all_inside env l : forallb (fun v => in_rng (env v) (lo v) (hi v)) l = true <-> within lo hi l env.
Proof. rewrite forallb_forall. split; intros H v V; specialize (H v V); apply in_rng_iff; auto. Qed.
Lemma within_dec env l : {within lo hi l env} + {~ within lo hi l env}.
Proof. destruct (forallb (fun v => in_rng (env v) (lo v) (hi v)) l) eqn:E; [left; apply all_inside; auto|right; rewrite <- all_inside; congruence]. Qed.
Lemma joint_out F env : ~ within lo hi (nd_vars F) env -> J F env = 0.
Proof. intros H. unfold joint. destruct (forallb _ _) eqn:E; auto. exfalso. apply H. apply all_inside. exact E. Qed.

(** the variables integrated by the constructor, in that order *)
Definition inner (vars cv : list nat) : list nat := rev (without vars cv).
Lemma inner_rest vars cv : NoDup vars -> rest_of vars cv (inner vars cv).
Proof. intros N. apply rest_rev, without_rest. auto. Qed.

Lemma make_ok F cv : wf_nd lo hi F -> sublist cv (nd_vars F) ->
  exists C, make F cv None = Ok C /\ cd_nd C = F /\ positions cv (nd_vars F) = Ok (cd_cond C) /\ f_vars (cd_marg C) = cv /\
    (forall env, f_val (cd_marg C) env = IA (inner (nd_vars F) cv) (J F) env).
Proof.
  intros W S. pose proof W as (N & _). destruct (positions_ok cv (nd_vars F) (sublist_in _ _ S)) as (idx & P & _). unfold cd_make. rewrite P. cbn [rbind].
  assert (L : Forall (fun i => (i < length (nd_vars F))%nat) (rev (others (length (nd_vars F)) idx))) by (apply Forall_rev, others_lt).
  destruct (elim_rev_ok integ lo hi HI (rev (others (length (nd_vars F)) idx)) F W (others_sorted _ _) L) as (g & G1 & G2 & _ & G4 & _). rewrite G1. cbn [rbind].
  exists (CD F idx g). cbn [cd_nd cd_cond cd_marg]. assert (M : map (fun i => nth i (nd_vars F) O) (rev (others (length (nd_vars F)) idx)) = inner (nd_vars F) cv) by (rewrite map_rev, (others_map (nd_vars F) cv idx) by auto; auto).
  parts; auto.
  - rewrite (elim_vars integ lo hi _ F g N (others_sorted _ _) L G1), M. unfold without. transitivity (filter (fun v => inb v cv) (nd_vars F)); [|apply sublist_eq; auto]. apply filter_ext_in. intros v V. apply eq_true_iff_eq. rewrite negb_true_iff, inb_false, inb_iff. unfold inner. rewrite <- in_rev, without_In. destruct (in_dec Nat.eq_dec v cv); tauto.
  - intros env. rewrite G4, M. apply IA_joint. auto.
Qed.

(** the value of a conditional density that has the right marginal *)
Lemma point_ok C cv env : wf_nd lo hi (cd_nd C) -> positions cv (nd_vars (cd_nd C)) = Ok (cd_cond C) -> f_vars (cd_marg C) = cv ->
  (within lo hi (nd_vars (cd_nd C)) env -> val C env = if req (f_val (cd_marg C) env) 0 then Err EZeroDiv else Ok (J (cd_nd C) env / f_val (cd_marg C) env)) /\
  (~ within lo hi (nd_vars (cd_nd C)) env -> val C env = Ok 0).
Proof.
  intros W P V. unfold cd_point. rewrite inside_map. destruct (forallb _ _) eqn:E.
  - apply all_inside in E. split; [intros _|tauto]. unfold cd_pdf. destruct (positions_lt _ _ _ P) as (A & B & D).
    assert (X : map (fun i => nth i (map env (nd_vars (cd_nd C))) 0) (cd_cond C) = map env cv).
    { rewrite <- B, map_map. apply map_ext_in. intros i I. rewrite Forall_forall in A. apply nth_map_in. auto. }
    rewrite X. unfold f_call. rewrite map_length, V, Nat.eqb_refl. cbn [rbind]. rewrite <- V.
    replace (match cd_marg C with FDens F => nd_point F (map env (f_vars (cd_marg C))) | FConst c => c | FOne => 1 end) with (f_val (cd_marg C) env) by (destruct (cd_marg C); auto).
    destruct (req _ _); auto. rewrite joint_val by auto. auto.
  - split; [intros H; apply all_inside in H; congruence|auto].
Qed.
Lemma num_ok C cv env : wf_nd lo hi (cd_nd C) -> positions cv (nd_vars (cd_nd C)) = Ok (cd_cond C) -> f_vars (cd_marg C) = cv -> f_val (cd_marg C) env <> 0 ->
  num (val C env) = J (cd_nd C) env / f_val (cd_marg C) env.
Proof.
  intros W P V Z. destruct (point_ok C cv env W P V) as [A B]. destruct (within_dec env (nd_vars (cd_nd C))) as [D|D].
  - rewrite A by auto. destruct (reqP (f_val (cd_marg C) env) 0); [tauto|]. auto.
  - rewrite B by auto. rewrite joint_out by auto. cbn [num]. unfold Rdiv. ring.
Qed.
Lemma inner_dep F cv : wf_nd lo hi F -> incl cv (nd_vars F) -> dep (fun u => In u cv) (fun env => IA (inner (nd_vars F) cv) (J F) env).
Proof.
  intros W I e e' E. apply (IA_dep integ lo hi HI (inner (nd_vars F) cv) _ _ (joint_dep F W)). intros u [U1 U2]. apply E. unfold inner in U2. rewrite <- in_rev, without_In in U2. destruct (in_dec Nat.eq_dec u cv); tauto.
Qed.
Lemma IA_rest F cv l l' : fubini integ -> wf_nd lo hi F -> rest_of (nd_vars F) cv l -> rest_of (nd_vars F) cv l' -> forall env, IA l (J F) env = IA l' (J F) env.
Proof. intros FU W A B env. apply IA_perm; auto; [eapply rest_perm; eauto|apply A|]. intros e e' E. apply (joint_dep F W). auto. Qed.

(** the mass over the other variables *)
Lemma mass_ok F cv C env : wf_nd lo hi F -> sublist cv (nd_vars F) -> make F cv None = Ok C -> IA (inner (nd_vars F) cv) (J F) env <> 0 ->
  IA (inner (nd_vars F) cv) (fun e => num (cd_point lo hi C (map e (nd_vars F)))) env = 1.
Proof.
  intros W S M Z. destruct (make_ok F cv W S) as (C' & M' & CN & CP & CV & CM). rewrite M in M'. injection M' as <-.
  rewrite (IA_ext_on integ lo hi HI _ _ (fun e => / IA (inner (nd_vars F) cv) (J F) env * J F e)).
  - rewrite (IA_scal integ lo hi HI). field. auto.
  - intros e E. rewrite <- CN at 1. assert (Q : f_val (cd_marg C) e = IA (inner (nd_vars F) cv) (J F) env).
    { rewrite CM. apply (inner_dep F cv W (sublist_in _ _ S)). intros u U. apply E. unfold inner. rewrite <- in_rev, without_In. tauto. }
    rewrite (num_ok C cv) by (rewrite ?CN, ?Q; auto). rewrite CN, Q. field. auto.
Qed.

(** ** eliminate *)
Lemma same_set_iff l l' : same_set l l' = true <-> forall i, In i l <-> In i l'.
Proof.
  unfold same_set. rewrite andb_true_iff, !forallb_forall. split.
  - intros [A B] i. split; intros I; apply inb_iff; unfold inb; auto.
  - intros H. split; intros i I; apply inb_iff, H; auto.
Qed.
Lemma pos_in vars vs idx v : NoDup vars -> positions vs vars = Ok idx -> In v vs -> exists i, In i idx /\ nth i vars O = v /\ (i < length vars)%nat.
Proof. intros N P V. destruct (positions_lt _ _ _ P) as (A & B & _). rewrite <- B in V. apply in_map_iff in V as (i & E & I). rewrite Forall_forall in A. eauto. Qed.
Lemma same_set_vars vars vs cv idx cidx : NoDup vars -> positions vs vars = Ok idx -> positions cv vars = Ok cidx ->
  same_set (others (length vars) idx) cidx = true <-> (forall v, In v vars -> ~ In v vs <-> In v cv).
Proof.
  intros N P Q. rewrite same_set_iff. unfold others. split.
  - intros H v V. destruct (In_nth _ _ O V) as (i & I & E). specialize (H i). rewrite filter_In, negb_true_iff, in_seq in H. pose proof (pos_filter vars vs idx N P i I) as A. pose proof (pos_filter vars cv cidx N Q i I) as B. fold (inb i idx) in H. rewrite A, E, inb_false, <- (inb_iff i cidx), B, E, inb_iff in H. rewrite <- H. split; [intros; split; auto; lia|tauto].
  - intros H i. rewrite filter_In, negb_true_iff, in_seq. fold (inb i idx). destruct (lt_dec i (length vars)) as [I|I].
    + rewrite (pos_filter vars vs idx N P i I), inb_false, <- (inb_iff i cidx), (pos_filter vars cv cidx N Q i I), inb_iff, (H (nth i vars O) (nth_In _ _ I)). split; [tauto|intros; split; auto; lia].
    + split; [intros [? _]; lia|]. intros X. destruct (positions_lt _ _ _ Q) as (A & _). rewrite Forall_forall in A. specialize (A _ X). lia.
Qed.
Lemma meets_vars vars vs cv idx cidx : NoDup vars -> positions vs vars = Ok idx -> positions cv vars = Ok cidx ->
  existsb (fun i => existsb (Nat.eqb i) cidx) idx = true <-> exists v, In v vs /\ In v cv.
Proof.
  intros N P Q. rewrite existsb_exists. split.
  - intros (i & I & E). fold (inb i cidx) in E. destruct (positions_lt _ _ _ P) as (A & B & _). rewrite Forall_forall in A. exists (nth i vars O). rewrite (pos_filter vars cv cidx N Q i (A i I)) in E. apply inb_iff in E. split; auto. rewrite <- B. apply in_map_iff. eauto.
  - intros (v & V1 & V2). destruct (pos_in vars vs idx v N P V1) as (i & I & E & L). exists i. split; auto. fold (inb i cidx). rewrite (pos_filter vars cv cidx N Q i L), E. apply inb_iff. auto.
Qed.

Lemma elim_all_ok F cv C vs : wf_nd lo hi F -> sublist cv (nd_vars F) -> make F cv None = Ok C -> incl vs (nd_vars F) -> (forall v, In v (nd_vars F) -> ~ In v vs <-> In v cv) ->
  cd_elim integ lo hi C vs = Ok (inl FOne).
Proof.
  intros W S M I H. pose proof W as (N & _). destruct (make_ok F cv W S) as (C' & M' & CN & CP & _). rewrite M in M'. injection M' as <-. unfold cd_elim. rewrite CN. destruct (positions_ok vs (nd_vars F) I) as (idx & P & _). rewrite P. cbn [rbind].
  rewrite (proj2 (same_set_vars _ vs cv idx _ N P CP)) by auto. auto.
Qed.
Lemma elim_cond_ok F cv C vs : wf_nd lo hi F -> sublist cv (nd_vars F) -> make F cv None = Ok C -> incl vs (nd_vars F) -> (exists v, In v vs /\ In v cv) ->
  cd_elim integ lo hi C vs = Err ERuntime.
Proof.
  intros W S M I (v & V1 & V2). pose proof W as (N & _). destruct (make_ok F cv W S) as (C' & M' & CN & CP & _). rewrite M in M'. injection M' as <-. unfold cd_elim. rewrite CN. destruct (positions_ok vs (nd_vars F) I) as (idx & P & _). rewrite P. cbn [rbind].
  destruct (same_set _ _) eqn:E; [apply (same_set_vars _ vs cv idx _ N P CP) with (v := v) in E; [tauto|auto]|]. rewrite (proj2 (meets_vars _ vs cv idx _ N P CP)) by eauto. auto.
Qed.
Lemma elim_some_ok F cv C vs : wf_nd lo hi F -> sublist cv (nd_vars F) -> make F cv None = Ok C -> sublist vs (nd_vars F) -> (forall v, In v vs -> ~ In v cv) -> (exists v, In v (nd_vars F) /\ ~ In v vs /\ ~ In v cv) ->
  exists C', cd_elim integ lo hi C vs = Ok (inr C') /\ nd_vars (cd_nd C') = without (nd_vars F) vs /\
    (fubini integ -> forall env, IA (inner (nd_vars F) cv) (J F) env <> 0 ->
       val C' env = Ok (IA vs (fun e => num (cd_point lo hi C (map e (nd_vars F)))) env)).
Proof.
  intros W S M SV DJ (w & W1 & W2 & W3). pose proof W as (N & _). destruct (make_ok F cv W S) as (C' & M' & CN & CP & CV & CM). rewrite M in M'. injection M' as <-. unfold cd_elim. rewrite CN. destruct (positions_ok vs (nd_vars F) (sublist_in _ _ SV)) as (idx & P & PM & PL). rewrite P. cbn [rbind].
  destruct (same_set _ _) eqn:E; [apply (same_set_vars _ vs cv idx _ N P CP) with (v := w) in E; [tauto|auto]|]. clear E.
  destruct (existsb _ idx) eqn:E; [apply (meets_vars _ vs cv idx _ N P CP) in E as (v & V1 & V2); exfalso; eapply DJ; eauto|]. clear E.
  assert (SI : StronglySorted (fun i j => j < i)%nat (rev idx)) by (apply rev_sorted; eapply sub_positions_sorted; eauto). assert (LI : Forall (fun i => (i < length (nd_vars F))%nat) (rev idx)) by (apply Forall_rev; auto).
  destruct (elim_rev_ok integ lo hi HI (rev idx) F W SI LI) as (g & G1 & G2 & _ & G4 & G5). rewrite G1. cbn [rbind]. pose proof (elim_vars integ lo hi _ F g N SI LI G1) as GV. rewrite map_rev, PM in G4, GV.
  assert (GV' : f_vars g = without (nd_vars F) vs) by (rewrite GV; apply filter_ext; intros v; f_equal; apply eq_true_iff_eq; rewrite !inb_iff, <- in_rev; tauto). clear GV.
  destruct g as [G|c|]; cbn [f_vars] in GV'; try (exfalso; assert (X : In w (without (nd_vars F) vs)) by (apply without_In; auto); rewrite <- GV' in X; destruct X).
  assert (CC : map (fun i => nth i (nd_vars F) O) (cd_cond C) = cv) by apply (positions_lt _ _ _ CP). rewrite CC.
  assert (SG : sublist cv (nd_vars G)) by (rewrite GV'; apply sublist_filter; auto; intros v V; rewrite negb_true_iff, inb_false; intros X; eapply DJ; eauto).
  destruct (make_ok G cv G2 SG) as (D & D1 & D2 & D3 & D4 & D5). rewrite D1. cbn [rmap]. exists D. split; auto. rewrite D2. split; auto. intros FU env Z.
  assert (JG : forall e, J G e = IA (rev vs) (J F) e) by (intros e; rewrite joint_val by auto; rewrite G4; apply IA_joint; auto).
  assert (NV : NoDup vs) by (eapply sublist_nodup; eauto).
  assert (ZZ : forall e, IA (inner (nd_vars G) cv) (J G) e = IA (inner (nd_vars F) cv) (J F) e).
  { intros e. rewrite (IA_ext integ lo hi HI _ _ (IA (rev vs) (J F)) JG). rewrite <- IA_app. apply (IA_rest F cv); auto; [|apply inner_rest; auto]. split.
    - assert (NG : NoDup (inner (nd_vars G) cv)) by (apply (inner_rest (nd_vars G) cv); apply G2). assert (DI : forall v, In v (rev vs) -> ~ In v (inner (nd_vars G) cv)) by (intros v V X; apply (inner_rest (nd_vars G) cv (proj1 G2)) in X as [X _]; rewrite GV', without_In in X; rewrite <- in_rev in V; tauto). assert (NR : NoDup (rev vs)) by (apply NoDup_rev; auto).
      revert NR DI. generalize (rev vs). intros l NR DI. induction l as [|a l IH]; auto. inversion NR; subst. cbn [app]. constructor; [rewrite in_app_iff; intros [X|X]; [tauto|apply (DI a); simpl; auto]|apply IH; auto; intros v V; apply DI; simpl; auto].
    - intros v. rewrite in_app_iff, <- in_rev. unfold inner. rewrite <- in_rev, without_In, GV', without_In. pose proof (sublist_in _ _ SV v). pose proof (DJ v). destruct (in_dec Nat.eq_dec v vs); tauto. }
  assert (VC : forall e, (forall v, ~ In v vs -> e v = env v) -> num (cd_point lo hi C (map e (nd_vars F))) = / IA (inner (nd_vars F) cv) (J F) env * J F e).
  { intros e Ee. rewrite <- CN at 1. assert (Q : f_val (cd_marg C) e = IA (inner (nd_vars F) cv) (J F) env).
    { rewrite CM. apply (inner_dep F cv W (sublist_in _ _ S)). intros u U. apply Ee. intros X. eapply DJ; eauto. }
    rewrite (num_ok C cv) by (rewrite ?CN, ?Q; auto). rewrite CN, Q. field. auto. }
  rewrite (IA_ext_on integ lo hi HI vs _ _ env VC), (IA_scal integ lo hi HI), (IA_perm integ lo hi HI FU vs (rev vs)) by (auto using Permutation_rev; intros e e' Ee; apply (joint_dep F W); auto). rewrite <- JG.
  destruct (point_ok D cv env) as [PI PO]; rewrite ?D2; auto. rewrite D2 in PI, PO. destruct (within_dec env (nd_vars G)) as [FB|FB].
  - rewrite PI by auto. rewrite D5, ZZ. destruct (reqP (IA (inner (nd_vars F) cv) (J F) env) 0); [tauto|]. f_equal. unfold Rdiv. ring.
  - rewrite PO by auto. rewrite joint_out by auto. f_equal. ring.
Qed.
End Main.
