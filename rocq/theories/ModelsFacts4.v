(** The law of the variables under an exchange, and the inference loops. *)
From Coq Require Import Reals Lra Lia List Bool Arith Permutation Sorted.
From Coquelicot Require Import Coquelicot.
From Verif Require Import Base Integral IntegralFacts IntParts IntPartsFacts SubstFacts ND NDSpec NDFacts NDFacts2 NDFacts3 NDMain Models ModelsSpec ModelsFacts ModelsFacts2 ModelsFacts3.
Import List ListNotations.
Open Scope R_scope.

Lemma upd_eq env v x : upd env v x v = x.
Proof. unfold upd. rewrite Nat.eqb_refl. auto. Qed.
Lemma upd_neq env v x w : w <> v -> upd env v x w = env w.
Proof. unfold upd. intros H. rewrite (proj2 (Nat.eqb_neq w v)) by auto. auto. Qed.
Lemma upd_comm (env : nat -> R) v w x y : v <> w -> forall u, upd (upd env v x) w y u = upd (upd env w y) v x u.
Proof. intros. unfold upd. destruct (Nat.eqb_spec u v), (Nat.eqb_spec u w); subst; congruence. Qed.
Lemma RbarIn_fin (a b x : R) : RbarIn a b x <-> a < x < b.
Proof. unfold RbarIn. cbn. tauto. Qed.
Lemma dens_out lo hi fs v env : Forall (wf_f lo hi) fs -> In v (prod_vars fs) -> ~ (lo v <= env v <= hi v) -> prod_val fs env = 0.
Proof.
  intros W V O. assert (B : in_rng (env v) (lo v) (hi v) = false) by (unfold in_rng; destruct (rleP (lo v) (env v)), (rleP (env v) (hi v)); cbn; auto; exfalso; apply O; lra).
  induction fs as [|g fs IH]; [destruct V|]. inversion W; subst. apply prod_vars_cons in V. rewrite prod_val_cons. destruct V as [V|V]; [|rewrite IH by auto; ring].
  destruct g as [F|c|]; cbn [f_vars] in V; try tauto. cbn [f_val]. rewrite (point_out lo hi F env v) by auto. ring.
Qed.

Section S.
Variable simp : expr -> expr.
Variable solve : expr -> nat -> nat -> list expr.
Variable real_at : expr -> bool.
Variable diff : expr -> nat -> expr.
Variable by_id : list nat -> list nat.
Variable integ : (R -> R) -> R -> R -> R.
Variable lo hi : nat -> R.
Hypothesis SO : sympy_ok simp solve diff by_id.
Hypothesis HI : homogeneous integ.
Notation wf := (wf_model lo hi).
Notation stp := (step simp solve real_at diff by_id integ lo hi).
Notation rn := (run simp solve real_at diff by_id integ lo hi).
Notation exch := (varschange simp solve real_at diff by_id lo hi).

Lemma exch_density M a d M' : wf M -> exch M a d = Ok M' ->
  exists e u, In (d, e) (m_eqs M) /\ In (a, u) (m_eqs M') /\ sole solve real_at e d a u /\ incl (atoms e) (m_free M) /\ incl (atoms u) (m_free M') /\
    forall env, ((forall w, In w (atoms u) -> lo w <= env w <= hi w) -> density (m_dens M') env = density (m_dens M) (upd env a (eval u env)) * Rabs (eval (diff u d) env)) /\
                (forall w, In w (atoms u) -> ~ (lo w <= env w <= hi w) -> density (m_dens M') env = 0).
Proof.
  intros W H. destruct (exch_wf simp solve real_at diff by_id lo hi SO M a d M' W H) as (W' & F' & _). apply exch_inv in H as (e & u & dens & Ha & Hd & L & Ae & Fe & So & Su & PV & ->). cbn [m_eqs m_dens m_free] in *.
  destruct (so_solve _ _ _ _ SO e d a u Su) as (S1 & S2 & S3).
  assert (NE : atoms u <> []) by (destruct (atoms u); [destruct S1|discriminate]).
  assert (OA : In a (prod_vars (m_dens M))) by (apply occurs_vars, (wf_occ _ _ _ W); auto).
  destruct (prod_varschange_ok simp solve diff by_id SO lo hi (m_dens M) a u (diff u d) (wf_fac _ _ _ W) OA NE (so_diff _ _ _ _ SO u d)) as (dens' & PV' & P1 & P2 & P3). rewrite PV in PV'. injection PV' as <-.
  exists e, u. splits; auto.
  - apply lookup_In. auto.
  - apply in_app_iff. cbn. auto.
  - intros w Hw. apply F'. destruct (S3 w Hw) as [->|X]; auto. left. split; auto. intros ->. auto.
  - intros env. rewrite !density_val, P3. split.
    + intros R. replace (forallb (fun w => in_rng (env w) (lo w) (hi w)) (sym_list u)) with true; auto. symmetry. apply forallb_forall. intros w Hw. apply sym_list_in in Hw. specialize (R w Hw). unfold in_rng. rewrite (proj2 (rle_true _ _)), (proj2 (rle_true _ _)) by lra. auto.
    + intros w Hw O. replace (forallb (fun w => in_rng (env w) (lo w) (hi w)) (sym_list u)) with false; auto. symmetry. destruct (forallb _ _) eqn:E; auto. rewrite forallb_forall in E. specialize (E w). rewrite sym_list_in in E. specialize (E Hw). unfold in_rng in E. b2p. exfalso. apply O. lra.
Qed.
Lemma exch_law D M a d M' : wf M -> exact_on D solve real_at -> exch M a d = Ok M' ->
  exists e u, In (d, e) (m_eqs M) /\ In (a, u) (m_eqs M') /\
    forall env (phi : (nat -> R) -> R) c1 c2,
    let h := fun y => eval u (upd env d y) in
    let f := fun x => density (m_dens M) (upd env a x) * phi (upd (upd env a x) d (eval e (upd env a x))) in
    (forall E E' : nat -> R, (forall w, E w = E' w) -> phi E = phi E') ->
    (forall w, In w (atoms u) -> w <> d -> lo w <= env w <= hi w) -> lo d <= c1 -> c2 <= hi d -> mono_onto h c1 c2 (lo a) (hi a) ->
    (forall y, c1 < y < c2 -> D (upd (upd env d y) a (h y))) ->
    (forall y, lo d <= y <= hi d -> y < c1 \/ c2 < y -> ~ (lo a <= h y <= hi a)) ->
    (forall y, c1 < y < c2 -> is_derive h y (eval (diff u d) (upd env d y)) /\ continuous (fun y => eval (diff u d) (upd env d y)) y) ->
    integrable f (lo a) (hi a) -> (forall x, lo a < x < hi a -> continuous f x) ->
    has_int (fun y => density (m_dens M') (upd env d y) * phi (upd (upd env d y) a (h y))) (lo d) (hi d) (Q f (lo a) (hi a)).
Proof.
  intros W EX H. pose proof H as H0. apply exch_density in H as (e & u & I1 & I2 & So & Fe & Fu & DE); auto.
  destruct (exch_inv simp solve real_at diff by_id lo hi M a d M' H0) as (e' & u' & dens & Ha & Hd & L & Ae & _ & _ & Su & _ & EM).
  assert (e' = e) by (symmetry; eapply lookup_uniq; eauto; apply (wf_keys _ _ _ W)). subst e'.
  assert (u' = u).
  { destruct (exch_wf simp solve real_at diff by_id lo hi SO M a d M' W H0) as (W' & _). pose proof (wf_keys _ _ _ W') as NK. assert (I3 : In (a, u') (m_eqs M')) by (subst M'; cbn [m_eqs]; apply in_app_iff; cbn; auto).
    assert (K : In a (map fst (m_eqs M'))) by (apply (in_map fst) in I3; auto). apply lookup_some in K as (z & K). pose proof (lookup_uniq a z u' _ NK K I3). pose proof (lookup_uniq a z u _ NK K I2). congruence. }
  subst u'. destruct (so_solve _ _ _ _ SO e d a u Su) as (S1 & S2 & S3).
  assert (NAD : a <> d) by (intros ->; eapply wf_disj; eauto).
  assert (NDe : ~ In d (atoms e)) by (intros X; apply Fe in X; eapply wf_disj; eauto).
  exists e, u. splits; auto. intros env phi c1 c2 h f PX RG L1 L2 MO DD OUT DH FI FC.
  destruct MO as (C12 & LR & MI & ON & MON).
  assert (OA : In a (prod_vars (m_dens M))) by (apply occurs_vars, (wf_occ _ _ _ W); auto).
  (* the density after the exchange on the slice *)
  assert (DV : forall y, lo d <= y <= hi d -> density (m_dens M') (upd env d y) = density (m_dens M) (upd env a (h y)) * Rabs (eval (diff u d) (upd env d y))).
  { intros y Y. rewrite (proj1 (DE (upd env d y))).
    - f_equal. rewrite !density_val. apply prod_val_ext. intros w Hw. apply occurs_vars, (wf_occ _ _ _ W) in Hw. destruct (Nat.eq_dec w a) as [->|N]; [rewrite !upd_eq; auto|]. rewrite !(upd_neq _ a) by auto. apply upd_neq. intros ->. eapply wf_disj; eauto.
    - intros w Hw. destruct (Nat.eq_dec w d) as [->|N]; [rewrite upd_eq; auto|rewrite upd_neq by auto; auto]. }
  assert (PV : forall y, c1 < y < c2 -> phi (upd (upd env d y) a (h y)) = phi (upd (upd env a (h y)) d (eval e (upd env a (h y))))).
  { intros y Y. apply PX. intros w. specialize (EX e d a u So _ (DD y Y)). rewrite upd_eq in EX. rewrite (upd_neq _ a _ d) in EX by auto. rewrite upd_eq in EX.
    assert (E1 : eval u (upd (upd env d y) a (h y)) = h y) by (rewrite eval_upd by auto; auto).
    assert (E2 : y = eval e (upd (upd env d y) a (h y))) by (apply EX; auto).
    assert (E3 : eval e (upd (upd env d y) a (h y)) = eval e (upd env a (h y))).
    { apply eval_ext. intros z Hz. destruct (Nat.eq_dec z a) as [->|N]; [rewrite !upd_eq; auto|]. rewrite !(upd_neq _ a) by auto. apply upd_neq. intros ->. auto. }
    rewrite <- E3, <- E2. apply upd_comm. auto. }
  destruct (integrable_prim _ _ _ FI) as (G & PG).
  assert (CD : forall x : R, RbarIn (lo a) (hi a) x -> continuous f x) by (intros x X; apply FC; apply RbarIn_fin; auto).
  assert (DP : forall y : R, RbarIn c1 c2 y -> is_derive h y (eval (diff u d) (upd env d y)) /\ continuous (fun y => eval (diff u d) (upd env d y)) y) by (intros y Y; apply DH; apply RbarIn_fin; auto).
  assert (SUB : integrable (fun y => f (h y) * Rabs (eval (diff u d) (upd env d y))) c1 c2 /\ Q (fun y => f (h y) * Rabs (eval (diff u d) (upd env d y))) c1 c2 = G (hi a) - G (lo a)).
  { destruct MON as [MON|MON].
    - apply (subst_inc f (lo a) (hi a) G h (fun y => eval (diff u d) (upd env d y)) c1 c2); auto. unfold inc_onto. parts; [cbn; auto|cbn; auto|intros y Y; rewrite RbarIn_fin in *; auto|intros y z Y Z; rewrite RbarIn_fin in *; intros; apply MON; tauto|]. intros x X. rewrite RbarIn_fin in X. destruct (ON x X) as (y & Y & E). exists y. rewrite RbarIn_fin. auto.
    - apply (subst_dec f (lo a) (hi a) G h (fun y => eval (diff u d) (upd env d y)) c1 c2); auto. unfold dec_onto. parts; [cbn; auto|cbn; auto|intros y Y; rewrite RbarIn_fin in *; auto|intros y z Y Z; rewrite RbarIn_fin in *; intros; apply MON; tauto|]. intros x X. rewrite RbarIn_fin in X. destruct (ON x X) as (y & Y & E). exists y. rewrite RbarIn_fin. auto. }
  destruct SUB as (SI & SQ). rewrite <- (prim_Q f (lo a) (hi a) G (lo a) (hi a) PG) in SQ by (cbn; lra). rewrite <- SQ.
  apply has_int_window; [cbn; lra|cbn; lra|auto| |].
  - intros y Y. assert (Y1 : c1 < y < c2) by (apply RbarIn_fin; auto). cbn beta. rewrite DV by lra. rewrite (PV y Y1). unfold f. ring.
  - intros y Y. cbn [Rbar_lt] in Y. destruct (Rle_dec (lo d) y), (Rle_dec y (hi d)).
    + rewrite DV by lra. rewrite !density_val. rewrite (dens_out lo hi _ a _ (wf_fac _ _ _ W) OA); [ring|]. rewrite upd_eq. apply OUT; auto.
    + rewrite (proj2 (DE _) d S1); [ring|]. rewrite upd_eq. lra.
    + rewrite (proj2 (DE _) d S1); [ring|]. rewrite upd_eq. lra.
    + rewrite (proj2 (DE _) d S1); [ring|]. rewrite upd_eq. lra.
Qed.

(** ** The inference loops *)
Variable wanted : list nat.
Variable cond : list (nat * R).
Variable id_lt : nat -> nat -> bool.
Notation lg := (legit wanted cond).
Notation trc := (traced stp lg).
Notation inn := (inner simp solve real_at diff by_id integ lo hi wanted cond id_lt).
Notation out := (outer simp solve real_at diff by_id integ lo hi wanted cond id_lt).

Lemma traced_app ops ops' : forall M M1 M2, trc M ops M1 -> trc M1 ops' M2 -> trc M (ops ++ ops') M2.
Proof. induction ops as [|o ops IH]; cbn; intros M M1 M2 A B; [subst; auto|]. destruct A as (M0 & A1 & A2 & A3). eauto. Qed.
Lemma traced_run ops : forall M M', trc M ops M' -> rn M ops = Ok M'.
Proof. induction ops as [|o ops IH]; cbn; intros M M' A; [subst; auto|]. destruct A as (M0 & -> & A2 & A3). cbn. auto. Qed.
Lemma traced_gone ops : forall M M', trc M ops M' -> forall v, In v (gone ops) -> ~ In v wanted.
Proof. induction ops as [|o ops IH]; cbn; intros M M' A v; [tauto|]. destruct A as (M0 & A1 & A2 & A3). rewrite in_app_iff. intros [X|X]; [|eauto]. destruct o; cbn in X, A2; try tauto; destruct X as [<-|[]]; tauto. Qed.
Lemma cond_of_In v x : cond_of cond v = Some x -> In (v, x) cond.
Proof.
  unfold cond_of. destruct (find _ (rev cond)) as [[w y]|] eqn:E; [|discriminate]. cbn. intros [= ->]. apply find_some in E as (E1 & E2). cbn in E2. apply Nat.eqb_eq in E2. subst w. apply in_rev in E1. auto.
Qed.
Lemma cond_of_None v : cond_of cond v = None -> ~ In v (map fst cond).
Proof.
  unfold cond_of. destruct (find _ (rev cond)) as [[w y]|] eqn:E; [discriminate|]. intros _ I. apply in_map_iff in I as ([w y] & Ew & I). cbn in Ew. subst w. apply in_rev in I. apply (find_none _ _ E) in I. cbn in I. rewrite Nat.eqb_refl in I. discriminate.
Qed.
Lemma in_cond_false v : in_cond cond v = false -> cond_of cond v = None.
Proof. unfold in_cond. destruct (cond_of cond v); congruence. Qed.
Lemma each_dangling l : (forall v, In v l -> ~ In v wanted /\ in_cond cond v = false) -> forall M M', each (m_elim simp integ lo hi) M l = Ok M' -> exists ops, trc M ops M'.
Proof.
  induction l as [|v l IH]; intros HL M M'; cbn [each]; [intros [= <-]; exists []; reflexivity|]. destruct (m_elim _ _ _ _ M v) as [M1|] eqn:E; [|discriminate]. cbn [rbind]. intros H. destruct (IH ltac:(intros; apply HL; cbn; auto) M1 M' H) as (ops & T).
  exists (Elim v :: ops). exists M1. destruct (HL v) as (X & Y); [cbn; auto|]. apply in_cond_false, cond_of_None in Y. parts; auto. cbn [legit]. split; [auto|tauto].
Qed.
Lemma each_remove l : (forall v, In v l -> ~ In v wanted) -> forall M M', each (remove_one simp integ lo hi cond) M l = Ok M' -> exists ops, trc M ops M'.
Proof.
  induction l as [|v l IH]; intros HL M M'; cbn [each]; [intros [= <-]; exists []; reflexivity|]. unfold remove_one at 1. destruct (cond_of cond v) as [x|] eqn:C.
  - destruct (m_cond _ _ _ _ M v x) as [M1|] eqn:E; [|discriminate]. cbn [rbind]. intros H. destruct (IH ltac:(intros; apply HL; cbn; auto) M1 M' H) as (ops & T). exists (Cond v x :: ops). exists M1. parts; auto. cbn [legit]. split; [apply HL; cbn; auto|apply cond_of_In; auto].
  - destruct (m_elim _ _ _ _ M v) as [M1|] eqn:E; [|discriminate]. cbn [rbind]. intros H. destruct (IH ltac:(intros; apply HL; cbn; auto) M1 M' H) as (ops & T). exists (Elim v :: ops). exists M1. apply cond_of_None in C. parts; auto. cbn [legit]. split; [apply HL; cbn; auto|tauto].
Qed.
Lemma const_kept l v e w u : In (v, e) l -> atoms e = [] -> In (v, e) (subst_children simp w u l).
Proof. intros I A. unfold subst_children. apply in_map_iff. exists (v, e). cbn [fst snd]. rewrite A. auto. Qed.
Lemma each_const l : NoDup l -> forall M M', wf M -> (forall v, In v l -> exists e, In (v, e) (m_eqs M) /\ atoms e = []) -> each (propagate1 simp integ lo hi wanted) M l = Ok M' -> exists ops, trc M ops M'.
Proof.
  induction l as [|v l IH]; intros N M M' W HL; cbn [each]; [intros [= <-]; exists []; reflexivity|]. inversion N; subst. unfold propagate1 at 1. destruct (HL v) as (e & I & A); [cbn; auto|].
  assert (Lk : lookup v (m_eqs M) = Some e) by (destruct (lookup_some v (m_eqs M)) as (z & Z); [apply (in_map fst) in I; auto|]; rewrite Z; f_equal; symmetry; eapply lookup_uniq; eauto; apply (wf_keys _ _ _ W)).
  destruct (mem v wanted) eqn:Mw.
  - destruct (m_prop simp M v) as [M1|] eqn:E; [|discriminate]. cbn [rbind]. intros H. pose proof E as E0. apply prop_wf with (1 := SO) (2 := W) in E as (W1 & _). apply prop_inv in E0 as (e1 & L1 & EM).
    destruct (IH H2 M1 M' W1) as (ops & T); auto.
    { intros w Hw. destruct (HL w) as (ew & Iw & Aw); [cbn; auto|]. exists ew. split; auto. subst M1. cbn [m_eqs]. apply const_kept; auto. }
    exists (Prop_ v :: ops). exists M1. parts; auto; [|cbn [legit]; eauto]. cbn [step]. unfold m_prop. rewrite L1. congruence.
  - destruct (m_elim simp integ lo hi M v) as [M1|] eqn:E; [|discriminate]. cbn [rbind]. intros H. pose proof E as E0. destruct (elim_wf simp solve real_at diff by_id integ lo hi SO HI M v M1 W E) as (W1 & _). apply elim_inv in E0 as [(F & _)|(_ & e1 & L1 & EM)].
    + exfalso. apply (wf_disj _ _ _ W v F). apply (wf_eqs _ _ _ W). apply (in_map fst) in I. auto.
    + destruct (IH H2 M1 M' W1) as (ops & T); auto.
      { intros w Hw. destruct (HL w) as (ew & Iw & Aw); [cbn; auto|]. exists ew. split; auto. subst M1. cbn [m_eqs]. apply const_kept; auto. apply del_In. split; auto. intros ->. auto. }
      exists (Elim v :: ops). exists M1. parts; auto. cbn [legit]. split; [apply mem_false; auto|eauto].
Qed.
Lemma filter_par_spec f M l r : filter_par f M l = Ok r -> forall v, In v r -> In v l /\ exists ps, parents M v = Ok ps /\ f v ps = true.
Proof.
  revert r. induction l as [|w l IH]; intros r; cbn [filter_par]; [intros [= <-] v []|]. destruct (parents M w) as [ps|] eqn:P; [|discriminate]. cbn [rbind]. destruct (filter_par f M l) as [r'|]; [|discriminate]. cbn [rbind]. intros [= <-] v.
  destruct (f w ps) eqn:E; [intros [<-|H]|intros H]; [split; [cbn; auto|eauto]|..]; destruct (IH r' eq_refl v H) as (A & B); split; cbn; auto.
Qed.
Lemma filter_par_nodup f M l r : NoDup l -> filter_par f M l = Ok r -> NoDup r.
Proof.
  revert r. induction l as [|w l IH]; intros r N; cbn [filter_par]; [intros [= <-]; constructor|]. inversion N; subst. destruct (parents M w) as [ps|] eqn:P; [|discriminate]. cbn [rbind]. destruct (filter_par f M l) as [r'|] eqn:E; [|discriminate]. cbn [rbind]. intros [= <-].
  destruct (f w ps); auto. constructor; auto. intros X. apply (filter_par_spec f M l r' E) in X. tauto.
Qed.
Lemma parents_nil M v : parents M v = Ok [] -> exists e, In (v, e) (m_eqs M) /\ atoms e = [].
Proof.
  unfold parents. destruct (lookup v (m_eqs M)) as [e|] eqn:L; [|discriminate]. destruct (forallb _ _); [|discriminate]. intros [= E]. exists e. split; [apply lookup_In; auto|].
  destruct (atoms e) as [|w l] eqn:A; auto. assert (X : In w (set_of (w :: l))) by (apply set_of_in; cbn; auto). rewrite E in X. destruct X.
Qed.
Lemma pairs_of_free M l ps : pairs_of wanted M l = Ok ps -> forall k a d, In (k, (a, d)) ps -> In d l /\ exists pd, parents M d = Ok pd /\ In a pd.
Proof.
  revert ps. induction l as [|w l IH]; intros ps; cbn [pairs_of]; [intros [= <-] k a d []|]. destruct (parents M w) as [pw|] eqn:P; [|discriminate]. cbn [rbind]. destruct (pairs_of wanted M l) as [r|]; [|discriminate]. cbn [rbind]. intros [= <-] k a d I.
  apply in_app_iff in I as [I|I]; [apply in_map_iff in I as (x & [= _ <- <-] & I); split; [cbn; auto|eauto]|]. destruct (IH r eq_refl k a d I) as (A & B). split; cbn; auto.
Qed.
Lemma least_In p l : In (least id_lt p l) (p :: l).
Proof. revert p. induction l as [|q l IH]; intros p; cbn [least]; [cbn; auto|]. destruct (IH (if key_lt id_lt q p then q else p)) as [H|H]; [|cbn; auto]. rewrite <- H. destruct (key_lt id_lt q p); cbn; auto. Qed.
Lemma inner_ok n : forall M ex M', wf M -> inn n M ex = Ok M' -> exists ops, trc M ops M'.
Proof.
  induction n as [|n IH]; intros M ex M' W; cbn [inner]; [discriminate|]. destruct (same_set (wanted ++ ex) (m_all M)); [intros [= <-]; exists []; reflexivity|].
  destruct (removable wanted cond M) as [|r0 rs] eqn:RM.
  - destruct (all_parents M _) as [anc|]; [|discriminate]. cbn [rbind]. destruct (forallb (fun v => mem v wanted) anc); [intros [= <-]; exists []; reflexivity|].
    destruct (filter_par _ M _) as [el|] eqn:FP; [|discriminate]. cbn [rbind]. destruct (pairs_of wanted M el) as [[|p ps]|] eqn:PO; [intros [= <-]; exists []; reflexivity| |discriminate]. cbn [rbind].
    destruct (least id_lt p ps) as [k [fv dv]] eqn:LE. destruct (varschange _ _ _ _ _ _ _ M fv dv) as [M1|] eqn:VC; [|discriminate]. cbn [rbind]. destruct (exch_wf simp solve real_at diff by_id lo hi SO M fv dv M1 W VC) as (W1 & _).
    destruct (mem fv wanted) eqn:MW.
    + intros H. destruct (IH M1 _ M' W1 H) as (ops & T). exists (Exchange fv dv :: ops). exists M1. parts; auto. exact I.
    + destruct (m_elim simp integ lo hi M1 fv) as [M2|] eqn:ME; [|discriminate]. cbn [rbind]. destruct (elim_wf simp solve real_at diff by_id integ lo hi SO HI M1 fv M2 W1 ME) as (W2 & _). intros H. destruct (IH M2 _ M' W2 H) as (ops & T).
      exists (Exchange fv dv :: Elim fv :: ops). exists M1. parts; auto; [exact I|]. exists M2. parts; auto. cbn [legit]. split; [apply mem_false; auto|]. intros X. exfalso.
      assert (FR : In fv (m_free M)) by (unfold varschange in VC; destruct (mem fv (m_free M)) eqn:E; [apply mem_iff; auto|discriminate]).
      assert (R0 : In fv (removable wanted cond M)).
      { unfold removable. apply filter_In. split; auto. rewrite MW. cbn [negb andb]. replace (in_cond cond fv) with true; auto. symmetry. unfold in_cond. destruct (cond_of cond fv) eqn:C; auto. apply cond_of_None in C. tauto. }
      rewrite RM in R0. destruct R0.
  - rewrite <- RM. destruct (each (remove_one simp integ lo hi cond) M (removable wanted cond M)) as [M1|] eqn:E; [|discriminate]. cbn [rbind]. intros H. apply each_remove in E as (ops1 & T1).
    + destruct (run_wf simp solve real_at diff by_id integ lo hi SO HI ops1 M M1 W (traced_run _ _ _ T1)) as (W1 & _). destruct (IH M1 ex M' W1 H) as (ops2 & T2). exists (ops1 ++ ops2). eapply traced_app; eauto.
    + intros v V. unfold removable in V. apply filter_In in V as (_ & V). apply andb_prop in V as (V & _). apply negb_true_iff in V. apply mem_false. auto.
Qed.
Lemma outer_ok n : forall M M', wf M -> out n M = Ok M' -> (exists ops, trc M ops M') /\ forall v, In v (m_all M') <-> In v wanted.
Proof.
  induction n as [|n IH]; intros M M' W; cbn [outer]; [discriminate|]. destruct (same_set wanted (m_all M)) eqn:SS.
  { intros [= <-]. split; [exists []; reflexivity|]. intros v. unfold same_set in SS. apply andb_prop in SS as (A & B). rewrite forallb_forall in A, B. rewrite <- !mem_iff. split; intros X; [apply B|apply A]; apply mem_iff; auto. }
  assert (NEXT : forall M1 ops1, trc M ops1 M1 -> out n M1 = Ok M' -> (exists ops, trc M ops M') /\ forall v, In v (m_all M') <-> In v wanted).
  { intros M1 ops1 T1 H. destruct (run_wf simp solve real_at diff by_id integ lo hi SO HI ops1 M M1 W (traced_run _ _ _ T1)) as (W1 & _). destruct (IH M1 M' W1 H) as ((ops2 & T2) & A). split; auto. exists (ops1 ++ ops2). eapply traced_app; eauto. }
  destruct (dangling wanted cond M) as [|d0 ds] eqn:DG.
  - destruct (filter_par _ M (m_dep M)) as [consts|] eqn:FP; [|discriminate]. cbn [rbind]. destruct (each _ M consts) as [M1|] eqn:EC; [|discriminate]. cbn [rbind]. destruct (inner _ _ _ _ _ _ _ _ _ _ _ n M1 []) as [M2|] eqn:IN; [|discriminate]. cbn [rbind]. intros H.
    apply each_const in EC as (ops1 & T1); auto.
    + destruct (run_wf simp solve real_at diff by_id integ lo hi SO HI ops1 M M1 W (traced_run _ _ _ T1)) as (W1 & _). apply inner_ok in IN as (ops2 & T2); auto. apply (NEXT M2 (ops1 ++ ops2)); auto. eapply traced_app; eauto.
    + eapply filter_par_nodup; [|exact FP]. apply (wf_dep _ _ _ W).
    + intros v V. destruct (filter_par_spec _ _ _ _ FP v V) as (_ & ps & P & Z). apply Nat.eqb_eq, length_zero_iff_nil in Z. subst ps. apply parents_nil. auto.
  - rewrite <- DG. destruct (each (m_elim simp integ lo hi) M (dangling wanted cond M)) as [M1|] eqn:E; [|discriminate]. cbn [rbind]. intros H. apply each_dangling in E as (ops1 & T1); [eauto|].
    intros v V. unfold dangling in V. apply filter_In in V as (_ & V). apply andb_prop in V as (V & _). apply andb_prop in V as (V1 & V2). apply negb_true_iff in V1, V2. split; auto. apply mem_false. auto.
Qed.
End S.
