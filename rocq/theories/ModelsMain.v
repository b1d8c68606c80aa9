(** Main lemmas (Models). *)
From Coq Require Import Reals Lra Lia List Bool Arith Permutation Sorted.
From Coquelicot Require Import Coquelicot.
From Verif Require Import Base Integral IntegralFacts IntParts ND NDSpec NDFacts NDFacts2 NDFacts3 NDMain Models ModelsSpec ModelsFacts ModelsFacts2 ModelsFacts3 ModelsFacts4.
Import List ListNotations.
Open Scope R_scope.

(** C48: any sequence of successful steps leaves the model in order, and its variables are those of the beginning
    without the eliminated and conditioned ones, each of which was a variable and is taken away once. *)
Lemma model_order_main :
  forall simp solve real_at diff by_id integ lo hi, sympy_ok simp solve diff by_id -> homogeneous integ ->
  forall ops M M', wf_model lo hi M -> run simp solve real_at diff by_id integ lo hi M ops = Ok M' ->
  wf_model lo hi M' /\ incl (gone ops) (m_all M) /\ NoDup (gone ops) /\ forall w, In w (m_all M') <-> In w (m_all M) /\ ~ In w (gone ops).
Proof. intros. eapply run_wf; eauto. Qed.

(** C48: the free and dependent variables after one step: an exchange swaps the two, the others only take away. *)
Lemma model_step_main :
  forall simp solve real_at diff by_id integ lo hi, sympy_ok simp solve diff by_id -> homogeneous integ ->
  forall o M M', wf_model lo hi M -> step simp solve real_at diff by_id integ lo hi M o = Ok M' ->
  forall v,
    (In v (m_free M') <-> match o with Exchange a d => (In v (m_free M) /\ v <> a) \/ v = d | Elim w | Cond w _ => In v (m_free M) /\ v <> w | Prop_ _ => In v (m_free M) end) /\
    (In v (m_dep M') <-> match o with Exchange a d => (In v (m_dep M) /\ v <> d) \/ v = a | Elim w | Cond w _ => In v (m_dep M) /\ v <> w | Prop_ _ => In v (m_dep M) end).
Proof.
  intros simp solve real_at diff by_id integ lo hi SO HI o M M' W H v. destruct o as [a d|w|w x|w]; cbn [step] in H.
  - destruct (exch_wf simp solve real_at diff by_id lo hi SO M a d M' W H) as (_ & A & B & _). split; auto.
  - destruct (elim_wf simp solve real_at diff by_id integ lo hi SO HI M w M' W H) as (_ & _ & A & B & _). split; auto.
  - destruct (cond_wf simp solve diff by_id integ lo hi SO M w x M' W H) as (_ & _ & A & B & _). split; auto.
  - destruct (prop_wf simp solve diff by_id lo hi SO M w M' W H) as (_ & -> & -> & _). tauto.
Qed.

(** C48: an exchange succeeds exactly when the first variable is free, the second has an equation that mentions it
    and otherwise free variables only, and the solver leaves one solution. *)
Lemma exchange_succeeds_main :
  forall simp solve real_at diff by_id lo hi, sympy_ok simp solve diff by_id -> forall M a d, wf_model lo hi M ->
  (exists M', varschange simp solve real_at diff by_id lo hi M a d = Ok M') <->
  In a (m_free M) /\ exists e u, In (d, e) (m_eqs M) /\ In a (atoms e) /\ incl (atoms e) (m_free M) /\ sole solve real_at e d a u.
Proof.
  intros simp solve real_at diff by_id lo hi SO M a d W. split.
  - intros (M' & H). apply exch_inv in H as (e & u & dens & Ha & Hd & L & Ae & Fe & So & _). split; auto. exists e, u. splits; auto. apply lookup_In. auto.
  - intros (Ha & e & u & I & Ae & Fe & So). pose proof (eq_dep lo hi M d e W I) as Hd.
    assert (L : lookup d (m_eqs M) = Some e) by (destruct (lookup_some d (m_eqs M)) as (z & Z); [apply (in_map fst) in I; auto|]; rewrite Z; f_equal; symmetry; eapply lookup_uniq; eauto; apply (wf_keys _ _ _ W)).
    assert (SY : forall w, In w (m_free M) \/ In w (m_dep M) -> In w (m_syms M)) by (intros w X; apply (wf_syms _ _ _ W), (wf_parts _ _ _ W); auto).
    unfold varschange. rewrite (proj2 (mem_iff a _)), (proj2 (mem_iff d _)) by auto. cbn [negb]. rewrite L. rewrite (proj2 (mem_iff a (atoms e))) by auto. cbn [negb].
    rewrite (proj2 (forallb_forall (fun s => mem s (m_syms M)) (atoms e))) by (intros w Hw; apply mem_iff; auto). cbn [negb].
    rewrite (proj2 (forallb_forall (fun s => mem s (m_free M)) (atoms e))) by (intros w Hw; apply mem_iff; auto). cbn [negb].
    assert (SS : forall x, In x (solve e d a) -> forall w, In w (atoms x) -> In w (m_syms M)).
    { intros x X w Hw. destruct (so_solve _ _ _ _ SO e d a x X) as (_ & _ & Z). destruct (Z w Hw) as [->|Y]; auto. }
    assert (K : filter (fun x => negb (Nat.ltb 1 (length (solve e d a))) || real_at x) (solve e d a) = [u]).
    { destruct So as [E|E]; [rewrite E; auto|]. destruct (solve e d a) as [|x [|y l]]; cbn [length Nat.ltb Nat.leb negb orb]; [discriminate| |auto]. cbn [filter] in *. destruct (real_at x); [auto|discriminate]. }
    assert (Iu : In u (solve e d a)) by (assert (X : In u [u]) by (cbn; auto); rewrite <- K in X; apply filter_In in X; tauto).
    unfold var_changes. rewrite (proj2 (forallb_forall (fun x => forallb (fun w => mem w (m_syms M)) (atoms x)) (solve e d a))) by (intros x X; apply forallb_forall; intros w Hw; apply mem_iff; eauto).
    rewrite K. cbn [forallb map andb]. rewrite (proj2 (forallb_forall (fun w => mem w (m_syms M)) (atoms (diff u d)))) by (intros w Hw; apply mem_iff; apply (SS u Iu); exact (so_diff _ _ _ _ SO u d w Hw)). cbn [andb rbind].
    destruct (so_solve _ _ _ _ SO e d a u Iu) as (S1 & _).
    assert (NE : atoms u <> []) by (destruct (atoms u); [destruct S1|discriminate]).
    assert (OA : In a (prod_vars (m_dens M))) by (apply occurs_vars, (wf_occ _ _ _ W); auto).
    destruct (prod_varschange_ok simp solve diff by_id SO lo hi (m_dens M) a u (diff u d) (wf_fac _ _ _ W) OA NE (so_diff _ _ _ _ SO u d)) as (dens' & -> & _). cbn [rbind]. eauto.
Qed.

(** C48: an elimination succeeds exactly for a variable of the model that is dependent or that no equation
    mentions. *)
Lemma elim_succeeds_main :
  forall simp integ lo hi, homogeneous integ -> forall M v, wf_model lo hi M ->
  (exists M', m_elim simp integ lo hi M v = Ok M') <-> In v (m_dep M) \/ In v (m_free M) /\ forall w e, In (w, e) (m_eqs M) -> ~ In v (atoms e).
Proof.
  intros simp integ lo hi HI M v W. split.
  - intros (M' & H). apply elim_inv in H as [(A & B & _)|(A & _)]; auto.
  - intros [D|(F & N)]; unfold m_elim.
    + assert (NF : ~ In v (m_free M)) by (intros X; eapply wf_disj; eauto). rewrite (proj2 (mem_false v (m_free M))), (proj2 (mem_iff v (m_dep M))) by auto.
      destruct (lookup_some v (m_eqs M)) as (e & ->); [apply (wf_eqs _ _ _ W); auto|eauto].
    + rewrite (proj2 (mem_iff v (m_free M))) by auto. destruct (existsb _ (m_eqs M)) eqn:E.
      * exfalso. apply existsb_exists in E as ([w e] & I & A). cbn in A. apply mem_iff in A. apply (N w e); auto.
      * destruct (eliminate_one_main integ lo hi (m_dens M) v HI (wf_fac _ _ _ W) (proj2 (wf_occ _ _ _ W v) F)) as (d & -> & _). cbn [rbind]. eauto.
Qed.

(** C48: the solutions of the equations are kept.  The eliminated dependent variables are determined by definitions
    H, which every assignment of the remaining variables can be extended to meet together with the conditions;
    among the assignments that meet the conditions, the solutions of the first model are the solutions of the
    last one that meet the definitions - on any set of assignments on which the equation solver is exact. *)
Lemma model_solutions_main :
  forall simp solve real_at diff by_id integ lo hi, sympy_ok simp solve diff by_id -> homogeneous integ ->
  forall ops M M', wf_model lo hi M -> run simp solve real_at diff by_id integ lo hi M ops = Ok M' ->
  exists H, (forall v e, In (v, e) H -> In v (gone ops) /\ incl (atoms e) (m_all M)) /\
    (forall env, exists env', same_on (m_all M') env env' /\ agrees ops env' /\ sol H env') /\
    forall D, exact_on D solve real_at -> forall env, D env -> agrees ops env -> (sol (m_eqs M) env <-> sol (m_eqs M') env /\ sol H env).
Proof. intros. eapply run_sol; eauto. Qed.

(** C48: hence, with a solver that is exact everywhere, the last model has exactly the solutions of the first one
    that meet the conditions, restricted to the remaining variables. *)
Lemma model_projection_main :
  forall simp solve real_at diff by_id integ lo hi, sympy_ok simp solve diff by_id -> homogeneous integ -> exact_on (fun _ => True) solve real_at ->
  forall ops M M', wf_model lo hi M -> run simp solve real_at diff by_id integ lo hi M ops = Ok M' ->
  forall env, sol (m_eqs M') env <-> exists env', same_on (m_all M') env env' /\ agrees ops env' /\ sol (m_eqs M) env'.
Proof.
  intros simp solve real_at diff by_id integ lo hi SO HI EX ops M M' W H env. destruct (run_wf simp solve real_at diff by_id integ lo hi SO HI ops M M' W H) as (W' & _).
  destruct (run_sol simp solve real_at diff by_id integ lo hi SO HI ops M M' W H) as (Hd & _ & H2 & H3).
  assert (LOC : forall E E', same_on (m_all M') E E' -> sol (m_eqs M') E -> sol (m_eqs M') E').
  { intros E E' SM. apply sol_ext. intros v e w I [->|X]; apply SM; [apply (wf_parts _ _ _ W'); right; eapply eq_dep; eauto|apply (wf_atoms _ _ _ W' v e I); auto]. }
  split.
  - intros S'. destruct (H2 env) as (env' & A & B & C). exists env'. splits; auto. apply (H3 _ EX env'); auto. split; auto. eapply LOC; eauto.
  - intros (env' & A & B & C). apply (H3 _ EX env') in C as (C & _); auto. eapply LOC; [|exact C]. intros v V. symmetry. auto.
Qed.

(** C48: the density after an exchange is the density at the inverse transform times the absolute derivative of the
    inverse transform, where the variables of that transform are in their ranges, and zero elsewhere. *)
Lemma exchange_density_main :
  forall simp solve real_at diff by_id lo hi, sympy_ok simp solve diff by_id ->
  forall M a d M', wf_model lo hi M -> varschange simp solve real_at diff by_id lo hi M a d = Ok M' ->
  exists e u, In (d, e) (m_eqs M) /\ In (a, u) (m_eqs M') /\ sole solve real_at e d a u /\ incl (atoms e) (m_free M) /\ incl (atoms u) (m_free M') /\
    forall env, ((forall w, In w (atoms u) -> lo w <= env w <= hi w) -> density (m_dens M') env = density (m_dens M) (upd env a (eval u env)) * Rabs (eval (diff u d) env)) /\
                (forall w, In w (atoms u) -> ~ (lo w <= env w <= hi w) -> density (m_dens M') env = 0).
Proof. intros. eapply exch_density; eauto. Qed.

(** C48: an exchange keeps the law of the variables: integrating any function phi of all variables against the new
    density over the new free variable gives the same as against the old density over the old one, the other
    free variables being fixed within their ranges - for a monotone transform with a continuous derivative whose
    image lies in the range of the new variable. *)
Lemma exchange_law_main :
  forall simp solve real_at diff by_id lo hi, sympy_ok simp solve diff by_id -> forall D M a d M',
  wf_model lo hi M -> exact_on D solve real_at -> varschange simp solve real_at diff by_id lo hi M a d = Ok M' ->
  exists e u, In (d, e) (m_eqs M) /\ In (a, u) (m_eqs M') /\
    forall env (phi : (nat -> R) -> R) c1 c2,
    let h := fun y => eval u (upd env d y) in
    let f := fun x => density (m_dens M) (upd env a x) * phi (upd (upd env a x) d (eval e (upd env a x))) in
    (forall E E' : nat -> R, (forall w, E w = E' w) -> phi E = phi E') ->
    (forall w, In w (atoms u) -> w <> d -> lo w <= env w <= hi w) -> lo d <= c1 -> c2 <= hi d -> mono_onto h c1 c2 (lo a) (hi a) ->
    (forall y, c1 < y < c2 -> D (upd (upd env d y) a (h y))) ->
    (forall y, lo d <= y <= hi d -> y < c1 \/ c2 < y -> ~ (lo a <= h y <= hi a)) ->
    (forall y, c1 < y < c2 -> is_derive h y (eval (diff u d) (upd env d y)) /\ continuous (fun y => eval (diff u d) (upd env d y)) y) ->
    integrable f (lo a) (hi a) -> (forall x, lo a < x < hi a -> continuous f x) ->
    has_int (fun y => density (m_dens M') (upd env d y) * phi (upd (upd env d y) a (h y))) (lo d) (hi d) (Q f (lo a) (hi a)).
Proof. intros simp solve real_at diff by_id lo hi SO D M a d M' W EX H. eapply exch_law; eauto. Qed.

(** C48: a finished inference has exactly the wanted variables, and it is reached by steps of which none takes away a
    wanted variable, conditions are the given ones, and a variable with a condition is eliminated only if its
    equation has become a constant. *)
Lemma inference_result_main :
  forall simp solve real_at diff by_id integ lo hi wanted cond id_lt, sympy_ok simp solve diff by_id -> homogeneous integ ->
  forall n M M', wf_model lo hi M -> inference simp solve real_at diff by_id integ lo hi wanted cond id_lt n M = Ok M' ->
  wf_model lo hi M' /\ (forall v, In v (m_all M') <-> In v wanted) /\
  exists ops, traced (step simp solve real_at diff by_id integ lo hi) (legit wanted cond) M ops M' /\ run simp solve real_at diff by_id integ lo hi M ops = Ok M'.
Proof.
  intros simp solve real_at diff by_id integ lo hi wanted cond id_lt SO HI n M M' W H. unfold inference in H. apply outer_ok in H as ((ops & T) & A); auto.
  pose proof (traced_run simp solve real_at diff by_id integ lo hi wanted cond ops M M' T) as RN. destruct (run_wf simp solve real_at diff by_id integ lo hi SO HI ops M M' W RN) as (W' & _). splits; eauto.
Qed.

(** Inference for a variable that is not in the model never ends: here for a model without variables. *)
Lemma inference_unknown_refuted_main :
  forall simp solve real_at diff by_id integ lo hi id_lt v, wf_model lo hi (Mdl [] [] [] [] [] []) /\
  forall n, inference simp solve real_at diff by_id integ lo hi [v] [] id_lt n (Mdl [] [] [] [] [] []) = Err EFuel.
Proof.
  intros. split.
  - constructor; cbn [m_free m_dep m_all m_syms m_eqs m_dens map]; try (constructor; fail); try (intros; cbn in *; tauto).
    + intros w [].
    + exists (fun _ => O). intros w e u [].
    + intros w. split; [intros (g & [] & _)|intros []].
  - intros n. unfold inference. assert (IN : forall k, inner simp solve real_at diff by_id integ lo hi [v] [] id_lt (S k) (Mdl [] [] [] [] [] []) [] = Ok (Mdl [] [] [] [] [] [])) by reflexivity.
    induction n as [|n IH]; [reflexivity|]. destruct n as [|n]; [reflexivity|]. cbn [outer same_set forallb mem existsb andb m_all m_dep dangling filter filter_par rbind each]. rewrite IN. cbn [rbind]. exact IH.
Qed.

(** are_free looks at the first variable only: it calls a list with a dependent variable free. *)
Lemma are_free_refuted_main :
  exists M vs v, are_free M vs = Some true /\ In v vs /\ ~ In v (m_free M) /\ In v (m_dep M).
Proof.
  exists (Mdl [0%nat] [1%nat] [0%nat; 1%nat] [0%nat; 1%nat] [(1%nat, EVar 0)] []), [0%nat; 1%nat], 1%nat. cbn. splits; auto. intros [H|[]]; discriminate.
Qed.
