(** The density after an exchange of variables, and the factors after conditioning. *)
From Coq Require Import Reals Lra Lia List Bool Arith Permutation Sorted.
From Verif Require Import Base ND NDSpec NDFacts NDFacts2 NDFacts3 Models ModelsSpec ModelsFacts.
Import List ListNotations.
Open Scope R_scope.

Lemma set_of_in l w : In w (set_of l) <-> In w l.
Proof.
  induction l as [|u l IH]; cbn [set_of]; [tauto|]. destruct (mem u l) eqn:M; cbn [In]; rewrite IH; [|tauto].
  apply mem_iff in M. split; auto. intros [<-|H]; auto.
Qed.
Lemma set_of_nodup l : NoDup (set_of l).
Proof.
  induction l as [|u l IH]; cbn [set_of]; [constructor|]. destruct (mem u l) eqn:M; auto. constructor; auto. rewrite set_of_in. apply mem_false. auto.
Qed.
Lemma occurs_vars w fs : occurs w fs <-> In w (prod_vars fs).
Proof. rewrite prod_vars_In. unfold occurs. tauto. Qed.
Lemma density_val fs env : density fs env = prod_val fs env.
Proof. induction fs as [|g fs IH]; cbn [density fold_right]; [rewrite prod_val_nil; auto|]. rewrite prod_val_cons. fold (density fs env). rewrite IH. auto. Qed.
Lemma prod_vars_cons w h l : In w (prod_vars (h :: l)) <-> In w (f_vars h) \/ In w (prod_vars l).
Proof. rewrite !prod_vars_In; split; [intros (k & [->|Hk] & Hw); eauto|intros [Hw|(k & Hk & Hw)]; [exists h; simpl; auto|exists k; simpl; auto]]. Qed.
Lemma prod_vars_app w l l' : In w (prod_vars (l ++ l')) <-> In w (prod_vars l) \/ In w (prod_vars l').
Proof. induction l; [cbn; tauto|]. cbn [app]. rewrite !prod_vars_cons, IHl. tauto. Qed.
Lemma prod_vars_split p w l : In w (prod_vars l) <-> In w (prod_vars (filter p l)) \/ In w (prod_vars (filter (fun g => negb (p g)) l)).
Proof. induction l as [|g l IH]; [cbn; tauto|]. cbn [filter]. destruct (p g); cbn [negb]; rewrite !prod_vars_cons, IH; tauto. Qed.

Lemma sym_list_in e w : In w (sym_list e) <-> In w (atoms e).
Proof. unfold sym_list. rewrite fold_insert_In. cbn. tauto. Qed.
Lemma sym_list_sorted e : StronglySorted lt (sym_list e).
Proof. apply fold_insert_sorted. constructor. Qed.
Lemma lambdify_val e env : lambdify (sym_list e) e (map env (sym_list e)) = eval e env.
Proof. unfold lambdify. apply eval_ext. intros v Hv. apply env_of_in. apply sym_list_in. auto. Qed.

Section D.
Variable simp : expr -> expr.
Variable solve : expr -> nat -> nat -> list expr.
Variable diff : expr -> nat -> expr.
Variable by_id : list nat -> list nat.
Hypothesis SO : sympy_ok simp solve diff by_id.
Variable lo hi : nat -> R.
Notation wf := (wf_f lo hi).

Lemma subst_vars_in F v sv w : In w (subst_vars by_id F v sv) <-> (In w (nd_vars F) /\ w <> v) \/ In w sv.
Proof.
  unfold subst_vars. assert (P := so_id _ _ _ _ SO). assert (E : forall l, In w (by_id l) <-> In w l) by (intros l; split; apply Permutation_in; [apply P|symmetry; apply P]).
  rewrite E, set_of_in, in_app_iff, filter_In, negb_true_iff, Nat.eqb_neq. intuition.
Qed.
Lemma with_subst_ok F v sv s : wf_nd lo hi F -> In v (nd_vars F) -> sv <> [] ->
  exists F', with_subst by_id lo hi F v sv s = Ok F' /\ wf_nd lo hi F' /\ nd_vars F' = subst_vars by_id F v sv /\
  forall env, nd_point F' (map env (nd_vars F')) =
    if forallb (fun w => in_rng (env w) (lo w) (hi w)) sv then nd_point F (map (upd env v (s (map env sv))) (nd_vars F)) else 0.
Proof.
  intros W V NE. unfold with_subst. destruct (position_in v _ V) as (i & ->). eexists. split; [reflexivity|].
  set (vars := subst_vars by_id F v sv).
  assert (WV : NoDup vars) by (unfold vars, subst_vars; eapply Permutation_NoDup; [symmetry; apply (so_id _ _ _ _ SO)|apply set_of_nodup]).
  split; [|split; [reflexivity|]].
  - unfold wf_nd. cbn [nd_vars nd_a nd_b]. splits; auto. intros E. destruct sv as [|u sv']; [tauto|]. assert (H : In u vars) by (apply subst_vars_in; cbn; auto). rewrite E in H. destruct H.
  - intros env. unfold nd_point at 1, post. cbn [nd_vars nd_a nd_b nd_abs nd_f]. rewrite inside_map.
    assert (EQ : map (fun w => if Nat.eqb w v then s (map (env_of vars (map env vars)) sv) else env_of vars (map env vars) w) (nd_vars F) = map (upd env v (s (map env sv))) (nd_vars F)).
    { apply map_ext_in. intros w Hw. unfold upd. destruct (Nat.eqb_spec w v).
      - f_equal. apply map_ext_in. intros u Hu. apply env_of_in. apply subst_vars_in. auto.
      - apply env_of_in. apply subst_vars_in. auto. }
    rewrite EQ. destruct (forallb (fun w => in_rng (env w) (lo w) (hi w)) vars) eqn:FV.
    + replace (forallb (fun w => in_rng (env w) (lo w) (hi w)) sv) with true; auto. symmetry. apply forallb_forall. intros w Hw. rewrite forallb_forall in FV. apply FV. apply subst_vars_in. auto.
    + destruct (forallb (fun w => in_rng (env w) (lo w) (hi w)) sv) eqn:FS; auto. apply bad_coord in FV as (w & Hw & B). apply subst_vars_in in Hw as [[Hw Nw]|Hw].
      * symmetry. apply (point_out lo hi F _ w); auto. unfold upd. destruct (Nat.eqb_spec w v); [tauto|auto].
      * rewrite forallb_forall in FS. rewrite (FS w Hw) in B. discriminate.
Qed.
Lemma map_subst_ok v sv s : sv <> [] -> forall el, Forall wf el -> Forall (fun g => In v (f_vars g)) el ->
  exists new, map_fac (fac_subst by_id lo hi v sv s) el = Ok new /\ Forall wf new /\
    (forall env, prod_val new env = if forallb (fun w => in_rng (env w) (lo w) (hi w)) sv then prod_val el (upd env v (s (map env sv))) else match el with [] => 1 | _ => 0 end) /\
    (forall w, In w (prod_vars new) <-> (In w (prod_vars el) /\ w <> v) \/ (el <> [] /\ In w sv)).
Proof.
  intros NE. induction el as [|g el IH]; intros W V; cbn [map_fac].
  - exists []. parts; auto. intros env. rewrite prod_val_nil. destruct (forallb _ _); auto. intros w. cbn. tauto.
  - inversion W; inversion V; subst. destruct g as [F|c|]; cbn [f_vars] in *; try tauto.
    cbn [fac_subst]. destruct (with_subst_ok F v sv s) as (F' & -> & WF & VF & EF); auto. cbn [rmap rbind].
    destruct (IH H2 H6) as (new & -> & A1 & A2 & A3). cbn [rbind]. exists (FDens F' :: new). parts; auto.
    + intros env. rewrite prod_val_cons. cbn [f_val]. rewrite EF, A2. destruct (forallb _ _); [rewrite prod_val_cons; auto|ring].
    + intros w. rewrite !prod_vars_cons, A3. cbn [f_vars]. rewrite VF, subst_vars_in. assert (FDens F :: el <> []) by discriminate. tauto.
Qed.
Lemma jacobian_ok J : wf (jacobian lo hi J) /\ (forall w, In w (f_vars (jacobian lo hi J)) <-> In w (atoms J)) /\
  forall env, f_val (jacobian lo hi J) env = if forallb (fun w => in_rng (env w) (lo w) (hi w)) (sym_list J) then Rabs (eval J env) else 0.
Proof.
  unfold jacobian. pose proof (sym_list_in J) as IN. pose proof (sym_list_sorted J) as SS. destruct (sym_list J) as [|u l] eqn:E.
  - split; [exact I|]. split; [intros w; cbn [f_vars]; apply IN|]. intros env. cbn [f_val forallb]. f_equal. apply eval_ext. intros v Hv. apply IN in Hv. destruct Hv.
  - cbn [wf_f f_vars nd_vars]. split; [|split; [intros w; apply IN|]].
    + unfold wf_nd. cbn [nd_vars nd_a nd_b]. parts; auto; [apply sorted_nodup; auto|discriminate].
    + intros env. cbn [f_val nd_vars]. unfold nd_point, post. cbn [nd_vars nd_a nd_b nd_abs nd_f]. rewrite inside_map. destruct (forallb _ _); [|apply Rabs_R0]. rewrite <- E, lambdify_val. auto.
Qed.
Lemma sel_vars v fs : Forall (fun g => In v (f_vars g)) (filter (has_var v) fs).
Proof. apply (filter_sel v 0). Qed.
Lemma filter_ne v fs : In v (prod_vars fs) -> filter (has_var v) fs <> [].
Proof. intros V E. apply prod_vars_In in V as (g & G & V). assert (I : In g (filter (has_var v) fs)) by (apply filter_In; split; auto; apply has_var_iff; auto). rewrite E in I. destruct I. Qed.
Lemma prod_varschange_ok fs v inv J : Forall wf fs -> In v (prod_vars fs) -> atoms inv <> [] -> incl (atoms J) (atoms inv) ->
  exists fs', prod_varschange by_id lo hi fs v (sym_list inv) (lambdify (sym_list inv) inv) (jacobian lo hi J) = Ok fs' /\ Forall wf fs' /\
    (forall w, In w (prod_vars fs') <-> (In w (prod_vars fs) /\ w <> v) \/ In w (atoms inv)) /\
    (forall env, prod_val fs' env = if forallb (fun w => in_rng (env w) (lo w) (hi w)) (sym_list inv) then prod_val fs (upd env v (eval inv env)) * Rabs (eval J env) else 0).
Proof.
  intros W V NE IJ. unfold prod_varschange. rewrite (proj2 (mem_iff v (prod_vars fs)) V). cbn [negb].
  assert (NS : sym_list inv <> []) by (destruct (atoms inv) as [|u l] eqn:E; [tauto|]; intros H; assert (X : In u (sym_list inv)) by (apply sym_list_in; rewrite E; cbn; auto); rewrite H in X; destruct X).
  destruct (map_subst_ok v (sym_list inv) (lambdify (sym_list inv) inv) NS (filter (has_var v) fs)) as (new & -> & A1 & A2 & A3); [apply Forall_filter; auto|apply sel_vars|]. cbn [rbind].
  destruct (jacobian_ok J) as (J1 & J2 & J3). pose proof (filter_ne v fs V) as FN. eexists. split; [reflexivity|]. parts.
  - apply opt_wf. apply Forall_app. split; [apply Forall_filter; auto|]. apply Forall_app. auto.
  - intros w. rewrite optimize_vars, !prod_vars_app, A3, prod_vars_cons, J2, sym_list_in, (prod_vars_split (has_var v) w fs).
    assert (X : In w (prod_vars (filter (fun g => negb (has_var v g)) fs)) -> w <> v).
    { intros H ->. apply prod_vars_In in H as (g & G & H). apply filter_In in G as (_ & G). apply negb_true_iff, has_var_false in G. auto. }
    assert (Y : In w (prod_vars []) <-> False) by (cbn; tauto). pose proof (IJ w). tauto.
  - intros env. rewrite optimize_val, !prod_val_app, prod_val_cons, prod_val_nil, A2, J3. destruct (forallb (fun w => in_rng (env w) (lo w) (hi w)) (sym_list inv)) eqn:FB.
    + rewrite lambdify_val. replace (forallb (fun w => in_rng (env w) (lo w) (hi w)) (sym_list J)) with true.
      * rewrite (prod_val_part (has_var v) fs), (kept_const v fs env). ring.
      * symmetry. apply forallb_forall. intros w Hw. rewrite forallb_forall in FB. apply FB. apply sym_list_in, IJ, sym_list_in. auto.
    + destruct (filter (has_var v) fs); [tauto|ring].
Qed.
Lemma prod_cond_inv integ fs v x fs' : Forall wf fs -> In v (prod_vars fs) -> prod_cond integ lo hi fs [v] [x] = Ok fs' ->
  lo v <= x <= hi v /\ Forall wf fs' /\ forall w, In w (prod_vars fs') <-> In w (prod_vars fs) /\ w <> v.
Proof.
  intros W V. unfold prod_cond. cbn [forallb]. replace (existsb (Nat.eqb v) (prod_vars fs)) with true by (symmetry; apply existsb_exists; exists v; split; auto; apply Nat.eqb_refl). cbn [andb negb].
  rewrite (filter_ext (fun g => existsb (fun v0 => has_var v0 g) [v]) (has_var v)) by (intros g; cbn [existsb]; apply orb_false_r).
  rewrite (filter_ext (fun g => negb (existsb (fun v0 => has_var v0 g) [v])) (fun g => negb (has_var v g))) by (intros g; cbn [existsb]; rewrite orb_false_r; auto).
  rewrite (map_fac_ext _ (fun g => fac_cond lo hi g [v] [x])) by (intros g G; apply filter_In in G as [_ G]; cbn [combine filter fst]; rewrite G; auto).
  assert (X : forall y, map_fac (fun g => fac_cond lo hi g [v] [x]) (filter (has_var v) fs) = Ok y -> lo v <= x <= hi v).
  { intros y. pose proof (filter_ne v fs V) as FN. pose proof (sel_vars v fs) as SV. destruct (filter (has_var v) fs) as [|g el]; [tauto|]. cbn [map_fac]. inversion SV; subst. destruct g as [F|c|]; cbn [f_vars] in *; try tauto.
    cbn [fac_cond positions]. destruct (position_in v _ H1) as (i & ->). cbn [rbind]. destruct (rleP (lo v) x), (rleP x (hi v)); cbn [andb]; [lra|discriminate..]. }
  destruct (map_fac _ _) as [new|] eqn:E; [|discriminate]. specialize (X _ eq_refl). destruct (map_fac_ok lo hi v x X (filter (has_var v) fs)) as (new' & D & E' & A1 & A2 & A3 & A4); [apply Forall_filter; auto|apply sel_vars|].
  rewrite E in E'. injection E' as <-. cbn [rbind]. destruct (prod_elim _ _ _ _ _) as [e|]; [|discriminate]. cbn [rbind]. destruct (as_constant e) as [c|]; [|discriminate]. cbn [rbind]. intros [= <-]. parts; [lra..| |].
  - apply opt_wf. apply Forall_app. split; [|repeat constructor]. apply opt_wf. apply Forall_app. split; auto. apply Forall_filter; auto.
  - intros w. rewrite optimize_vars, prod_vars_app, optimize_vars, prod_vars_app, A4, (prod_vars_split (has_var v) w fs), prod_vars_cons. cbn [f_vars].
    assert (Y : In w (prod_vars (filter (fun g => negb (has_var v g)) fs)) -> w <> v).
    { intros H ->. apply prod_vars_In in H as (g & G & H). apply filter_In in G as (_ & G). apply negb_true_iff, has_var_false in G. auto. }
    assert (Z : In w (prod_vars []) <-> False) by (cbn; tauto). cbn [In]. tauto.
Qed.
End D.
