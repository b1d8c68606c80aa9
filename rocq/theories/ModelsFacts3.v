(** Every step keeps a model in order and keeps its solutions; so do sequences of steps. *)
From Coq Require Import Reals Lra Lia List Bool Arith Permutation Sorted.
From Verif Require Import Base ND NDSpec NDFacts NDFacts2 NDFacts3 NDMain Models ModelsSpec ModelsFacts ModelsFacts2.
Import List ListNotations.
Open Scope R_scope.

Section S.
Variable simp : expr -> expr.
Variable solve : expr -> nat -> nat -> list expr.
Variable real_at : expr -> bool.
Variable diff : expr -> nat -> expr.
Variable by_id : list nat -> list nat.
Variable integ : (R -> R) -> R -> R -> R.
Variable lo hi : nat -> R.
Hypothesis SO : sympy_ok simp solve diff by_id.
Hypothesis HI : homogeneous integ.
Notation wf := (wf_model lo hi).
Notation stp := (step simp solve real_at diff by_id integ lo hi).
Notation rn := (run simp solve real_at diff by_id integ lo hi).
Notation exch := (varschange simp solve real_at diff by_id lo hi).

Lemma var_changes_one M a d e u J : var_changes solve real_at diff M a d e = Ok [(u, J)] -> sole solve real_at e d a u /\ In u (solve e d a) /\ J = diff u d.
Proof.
  unfold var_changes, sole. destruct (forallb _ (solve e d a)); [|discriminate].
  set (k := filter (fun u => negb (Nat.ltb 1 (length (solve e d a))) || real_at u) (solve e d a)).
  destruct (forallb _ k); [|discriminate]. intros [= H]. assert (K : k = [u] /\ J = diff u d) by (destruct k as [|x [|]]; cbn in H; try discriminate; injection H as -> <-; auto). destruct K as (K & ->).
  assert (I : In u (solve e d a)) by (assert (X : In u k) by (rewrite K; cbn; auto); unfold k in X; apply filter_In in X; tauto).
  split; [|auto]. unfold k in K. destruct (Nat.ltb_spec 1 (length (solve e d a))); cbn [negb orb] in K.
  - right. auto.
  - left. destruct (solve e d a) as [|x [|]]; cbn in *; try tauto; try lia; congruence.
Qed.
Lemma exch_inv M a d M' : exch M a d = Ok M' ->
  exists e u dens, In a (m_free M) /\ In d (m_dep M) /\ lookup d (m_eqs M) = Some e /\ In a (atoms e) /\ incl (atoms e) (m_free M) /\ sole solve real_at e d a u /\ In u (solve e d a) /\
    prod_varschange by_id lo hi (m_dens M) a (sym_list u) (lambdify (sym_list u) u) (jacobian lo hi (diff u d)) = Ok dens /\
    M' = Mdl (remove1 a (m_free M) ++ [d]) (remove1 d (m_dep M ++ [a])) (m_all M) (m_syms M) (subst_children simp a u (del d (m_eqs M)) ++ [(a, u)]) dens.
Proof.
  unfold varschange. destruct (mem a (m_free M)) eqn:E1; [|discriminate]. destruct (mem d (m_dep M)) eqn:E2; [|discriminate]. cbn [negb].
  destruct (lookup d (m_eqs M)) as [e|] eqn:E3; [|discriminate]. destruct (mem a (atoms e)) eqn:E4; [|discriminate]. cbn [negb].
  destruct (forallb (fun s => mem s (m_syms M)) (atoms e)) eqn:E5; [|discriminate]. cbn [negb]. destruct (forallb (fun s => mem s (m_free M)) (atoms e)) eqn:E6; [|discriminate]. cbn [negb].
  destruct (var_changes solve real_at diff M a d e) as [vcs|] eqn:E7; [|discriminate]. cbn [rbind]. destruct vcs as [|[u J] [|]]; try discriminate.
  apply var_changes_one in E7 as (A & B & ->). destruct (prod_varschange _ _ _ _ _ _ _ _) as [dens|] eqn:E8; [|discriminate]. cbn [rbind]. intros [= <-].
  exists e, u, dens. apply mem_iff in E1, E2, E4. splits; auto. intros w Hw. rewrite forallb_forall in E6. apply mem_iff. auto.
Qed.
Lemma elim_inv M v M' : m_elim simp integ lo hi M v = Ok M' ->
  (In v (m_free M) /\ (forall w e, In (w, e) (m_eqs M) -> ~ In v (atoms e)) /\ exists dens, prod_elim integ lo hi (m_dens M) [v] = Ok dens /\
     M' = Mdl (remove1 v (m_free M)) (m_dep M) (remove1 v (m_all M)) (m_syms M) (m_eqs M) dens) \/
  (In v (m_dep M) /\ exists e, lookup v (m_eqs M) = Some e /\ M' = Mdl (m_free M) (remove1 v (m_dep M)) (remove1 v (m_all M)) (m_syms M) (subst_children simp v e (del v (m_eqs M))) (m_dens M)).
Proof.
  unfold m_elim. destruct (mem v (m_free M)) eqn:E1.
  - destruct (existsb _ (m_eqs M)) eqn:E2; [discriminate|]. destruct (prod_elim _ _ _ _ _) as [dens|] eqn:E3; [|discriminate]. cbn [rbind]. intros [= <-]. left. apply mem_iff in E1. splits; eauto.
    intros w e I A. assert (X : existsb (fun p => mem v (atoms (snd p))) (m_eqs M) = true) by (apply existsb_exists; exists (w, e); split; auto; apply mem_iff; auto). congruence.
  - destruct (mem v (m_dep M)) eqn:E2; [|discriminate]. destruct (lookup v (m_eqs M)) as [e|] eqn:E3; [|discriminate]. intros [= <-]. right. apply mem_iff in E2. eauto.
Qed.
Lemma cond_inv M v x M' : m_cond simp integ lo hi M v x = Ok M' ->
  In v (m_free M) /\ exists dens, prod_cond integ lo hi (m_dens M) [v] [x] = Ok dens /\
     M' = Mdl (remove1 v (m_free M)) (m_dep M) (remove1 v (m_all M)) (m_syms M) (subst_children simp v (ENum x) (m_eqs M)) dens.
Proof.
  unfold m_cond. destruct (mem v (m_free M)) eqn:E1; [|discriminate]. cbn [negb]. destruct (prod_cond _ _ _ _ _ _) as [dens|] eqn:E3; [|discriminate]. cbn [rbind]. intros [= <-]. apply mem_iff in E1. eauto.
Qed.
Lemma prop_inv M v M' : m_prop simp M v = Ok M' -> exists e, lookup v (m_eqs M) = Some e /\ M' = Mdl (m_free M) (m_dep M) (m_all M) (m_syms M) (subst_children simp v e (m_eqs M)) (m_dens M).
Proof. unfold m_prop. destruct (lookup v (m_eqs M)) as [e|]; [|discriminate]. intros [= <-]. eauto. Qed.

(** ** Order is kept *)
Lemma own_eq M v e : wf M -> In (v, e) (m_eqs M) -> ~ In v (atoms e).
Proof. intros W I A. destruct (wf_rank _ _ _ W) as (rank & H). specialize (H v e v I A). lia. Qed.
Lemma eq_dep M v e : wf M -> In (v, e) (m_eqs M) -> In v (m_dep M).
Proof. intros W I. apply (wf_eqs _ _ _ W). apply (in_map fst) in I. auto. Qed.
Lemma exch_wf M a d M' : wf M -> exch M a d = Ok M' -> wf M' /\
  (forall v, In v (m_free M') <-> (In v (m_free M) /\ v <> a) \/ v = d) /\ (forall v, In v (m_dep M') <-> (In v (m_dep M) /\ v <> d) \/ v = a) /\ m_all M' = m_all M.
Proof.
  intros W H. apply exch_inv in H as (e & u & dens & Ha & Hd & L & Ae & Fe & So & Su & PV & ->). cbn [m_free m_dep m_all].
  assert (NAD : a <> d) by (intros ->; eapply wf_disj; eauto).
  assert (ND' : NoDup (m_dep M ++ [a])).
  { eapply Permutation_NoDup; [apply Permutation_cons_append|]. constructor; [intros X; eapply wf_disj; eauto|apply (wf_dep _ _ _ W)]. }
  assert (F' : forall v, In v (remove1 a (m_free M) ++ [d]) <-> (In v (m_free M) /\ v <> a) \/ v = d).
  { intros v. rewrite in_app_iff, remove1_in by apply (wf_free _ _ _ W). cbn. intuition. }
  assert (D' : forall v, In v (remove1 d (m_dep M ++ [a])) <-> (In v (m_dep M) /\ v <> d) \/ v = a).
  { intros v. rewrite remove1_in by auto. rewrite in_app_iff. cbn. intuition; subst; auto. }
  assert (NE : atoms u <> []) by (destruct (so_solve _ _ _ _ SO e d a u Su) as (X & _); destruct (atoms u); [destruct X|discriminate]).
  assert (IJ : incl (atoms (diff u d)) (atoms u)) by apply (so_diff _ _ _ _ SO).
  assert (OA : In a (prod_vars (m_dens M))) by (apply occurs_vars, (wf_occ _ _ _ W); auto).
  destruct (prod_varschange_ok simp solve diff by_id SO lo hi (m_dens M) a u (diff u d) (wf_fac _ _ _ W) OA NE IJ) as (dens' & PV' & P1 & P2 & P3). rewrite PV in PV'. injection PV' as <-.
  destruct (so_solve _ _ _ _ SO e d a u Su) as (S1 & S2 & S3).
  assert (AU : forall w, In w (atoms u) -> w = d \/ (In w (m_free M) /\ w <> a)) by (intros w Hw; destruct (S3 w Hw) as [->|X]; auto; right; split; auto; intros ->; auto).
  assert (DN := del_keys d (m_eqs M) (wf_keys _ _ _ W)). destruct DN as (DN1 & DN2).
  split; [|splits; auto; intros; cbn; rewrite ?F', ?D'; tauto].
  constructor; cbn [m_free m_dep m_all m_syms m_eqs m_dens].
  - assert (N : NoDup (d :: remove1 a (m_free M))) by (constructor; [rewrite remove1_in by apply (wf_free _ _ _ W); intros (X & _); eapply wf_disj; eauto|apply remove1_nodup, (wf_free _ _ _ W)]).
    eapply Permutation_NoDup; [|exact N]. apply Permutation_cons_append.
  - apply remove1_nodup. auto.
  - apply (wf_all _ _ _ W).
  - intros v. rewrite F', D'. intros [(X & Y)|E1] [(X' & Y')|E2]; [apply (wf_disj _ _ _ W v); auto|tauto|tauto|apply NAD; congruence].
  - intros v. rewrite F', D', (wf_parts _ _ _ W v). destruct (Nat.eq_dec v a), (Nat.eq_dec v d); subst; tauto.
  - apply (wf_syms _ _ _ W).
  - rewrite map_app, subst_keys. cbn [map]. eapply Permutation_NoDup; [apply Permutation_cons_append|]. constructor; auto. rewrite DN2. intros (X & _). apply (wf_eqs _ _ _ W) in X. eapply wf_disj; eauto.
  - intros v. rewrite map_app, subst_keys, in_app_iff. cbn [map In fst]. rewrite DN2, (wf_eqs _ _ _ W v), D'. intuition.
  - intros v e' I w Hw. apply in_app_iff in I as [I|[[= <- <-]|[]]].
    + apply (subst_atoms _ _ _ _ SO) in I as (e1 & I1 & A). apply del_In in I1 as (I1 & N1). destruct (A w Hw) as [(X & Y)|(X & Y)].
      * apply (wf_atoms _ _ _ W v e1 I1). auto.
      * apply (wf_parts _ _ _ W). destruct (AU w Y) as [->|(Z & _)]; auto.
    + apply (wf_parts _ _ _ W). destruct (AU w Hw) as [->|(Z & _)]; auto.
  - destruct (wf_rank _ _ _ W) as (rank & RK).
    exists (fun w => if Nat.eqb w d then O else if Nat.eqb w a then 1%nat else if mem w (m_free M) then O else S (S (rank w))).
    assert (LOW : forall w, w = d \/ (In w (m_free M) /\ w <> a) -> (if Nat.eqb w d then O else if Nat.eqb w a then 1%nat else if mem w (m_free M) then O else S (S (rank w))) = O).
    { intros w [->|(X & Y)]; [rewrite Nat.eqb_refl; auto|]. destruct (Nat.eqb w d); auto. rewrite (proj2 (Nat.eqb_neq w a)) by auto. rewrite (proj2 (mem_iff w _)) by auto. auto. }
    intros v e' w I Hw. apply in_app_iff in I as [I|[[= <- <-]|[]]].
    + apply (subst_atoms _ _ _ _ SO) in I as (e1 & I1 & A). apply del_In in I1 as (I1 & N1). pose proof (eq_dep M v e1 W I1) as Dv.
      assert (Nv : ~ In v (m_free M)) by (intros X; eapply wf_disj; eauto). assert (v <> a) by (intros ->; tauto).
      rewrite (proj2 (Nat.eqb_neq v d)), (proj2 (Nat.eqb_neq v a)), (proj2 (mem_false v _)) by auto. destruct (A w Hw) as [(X & Y)|(X & Y)].
      * specialize (RK v e1 w I1 X). destruct (Nat.eqb w d); [lia|]. destruct (Nat.eqb w a); [lia|]. destruct (mem w (m_free M)); lia.
      * rewrite LOW by auto. lia.
    + rewrite LOW by auto. rewrite (proj2 (Nat.eqb_neq a d)), Nat.eqb_refl by auto. lia.
  - auto.
  - intros w. rewrite occurs_vars, P2, <- occurs_vars, (wf_occ _ _ _ W w), F'. split; [intros [X|X]; auto; destruct (AU w X); auto|intros [X| ->]; auto].
Qed.
Lemma elim_wf M v M' : wf M -> m_elim simp integ lo hi M v = Ok M' -> wf M' /\ In v (m_all M) /\
  (forall w, In w (m_free M') <-> In w (m_free M) /\ w <> v) /\ (forall w, In w (m_dep M') <-> In w (m_dep M) /\ w <> v) /\ (forall w, In w (m_all M') <-> In w (m_all M) /\ w <> v).
Proof.
  intros W H. apply elim_inv in H as [(Hv & NA & dens & PE & ->)|(Hv & e & L & ->)]; cbn [m_free m_dep m_all].
  - assert (OA : occurs v (m_dens M)) by (apply (wf_occ _ _ _ W); auto).
    destruct (eliminate_one_main integ lo hi (m_dens M) v HI (wf_fac _ _ _ W) OA) as (dens' & PE' & P1 & _ & P2). rewrite PE in PE'. injection PE' as <-.
    assert (ND : ~ In v (m_dep M)) by (intros X; eapply wf_disj; eauto).
    assert (F' : forall w, In w (remove1 v (m_free M)) <-> In w (m_free M) /\ w <> v) by (apply remove1_in, (wf_free _ _ _ W)).
    assert (A' : forall w, In w (remove1 v (m_all M)) <-> In w (m_all M) /\ w <> v) by (apply remove1_in, (wf_all _ _ _ W)).
    split; [|splits; try (intros w; rewrite ?F', ?A'; tauto); [apply (wf_parts _ _ _ W); auto|intros w; split; [intros X; split; auto; intros ->; tauto|tauto]]].
    constructor; cbn [m_free m_dep m_all m_syms m_eqs m_dens].
    + apply remove1_nodup, (wf_free _ _ _ W).
    + apply (wf_dep _ _ _ W).
    + apply remove1_nodup, (wf_all _ _ _ W).
    + intros w. rewrite F'. intros (X & _). apply (wf_disj _ _ _ W); auto.
    + intros w. rewrite A', F', (wf_parts _ _ _ W). split; [tauto|]. intros [X|X]; [tauto|]. split; auto. intros ->. tauto.
    + intros w. rewrite A'. intros (X & _). apply (wf_syms _ _ _ W). auto.
    + apply (wf_keys _ _ _ W).
    + apply (wf_eqs _ _ _ W).
    + intros w e I u Hu. apply A'. split; [apply (wf_atoms _ _ _ W w e); auto|]. intros ->. apply (NA w e); auto.
    + apply (wf_rank _ _ _ W).
    + auto.
    + intros w. rewrite P2, F', (wf_occ _ _ _ W). tauto.
  - assert (NF : ~ In v (m_free M)) by (intros X; eapply wf_disj; eauto).
    assert (D' : forall w, In w (remove1 v (m_dep M)) <-> In w (m_dep M) /\ w <> v) by (apply remove1_in, (wf_dep _ _ _ W)).
    assert (A' : forall w, In w (remove1 v (m_all M)) <-> In w (m_all M) /\ w <> v) by (apply remove1_in, (wf_all _ _ _ W)).
    destruct (del_keys v (m_eqs M) (wf_keys _ _ _ W)) as (DN1 & DN2). pose proof (own_eq M v e W (lookup_In _ _ _ L)) as OE.
    split; [|splits; try (intros w; rewrite ?D', ?A'; tauto); [apply (wf_parts _ _ _ W); auto|intros w; split; [intros X; split; auto; intros ->; tauto|tauto]]].
    constructor; cbn [m_free m_dep m_all m_syms m_eqs m_dens].
    + apply (wf_free _ _ _ W).
    + apply remove1_nodup, (wf_dep _ _ _ W).
    + apply remove1_nodup, (wf_all _ _ _ W).
    + intros w. rewrite D'. intros X (Y & _). eapply wf_disj; eauto.
    + intros w. rewrite A', D', (wf_parts _ _ _ W). split; [tauto|]. intros [X|X]; [|tauto]. split; auto. intros ->. tauto.
    + intros w. rewrite A'. intros (X & _). apply (wf_syms _ _ _ W). auto.
    + rewrite subst_keys. auto.
    + intros w. rewrite subst_keys, DN2, D', (wf_eqs _ _ _ W). tauto.
    + intros w e' I u Hu. apply (subst_atoms _ _ _ _ SO) in I as (e1 & I1 & A). apply del_In in I1 as (I1 & N1). apply A'. destruct (A u Hu) as [(X & Y)|(X & Y)].
      * split; auto. apply (wf_atoms _ _ _ W w e1); auto.
      * split; [apply (wf_atoms _ _ _ W v e (lookup_In _ _ _ L)); auto|]. intros ->. auto.
    + destruct (wf_rank _ _ _ W) as (rank & RK). exists rank. intros w e' u I Hu. apply (subst_atoms _ _ _ _ SO) in I as (e1 & I1 & A). apply del_In in I1 as (I1 & N1). destruct (A u Hu) as [(X & Y)|(X & Y)]; [eauto|].
      pose proof (RK w e1 v I1 X). pose proof (RK v e u (lookup_In _ _ _ L) Y). lia.
    + apply (wf_fac _ _ _ W).
    + apply (wf_occ _ _ _ W).
Qed.
Lemma cond_wf M v x M' : wf M -> m_cond simp integ lo hi M v x = Ok M' -> wf M' /\ In v (m_all M) /\
  (forall w, In w (m_free M') <-> In w (m_free M) /\ w <> v) /\ (forall w, In w (m_dep M') <-> In w (m_dep M) /\ w <> v) /\ (forall w, In w (m_all M') <-> In w (m_all M) /\ w <> v).
Proof.
  intros W H. apply cond_inv in H as (Hv & dens & PC & ->). cbn [m_free m_dep m_all].
  assert (OA : In v (prod_vars (m_dens M))) by (apply occurs_vars, (wf_occ _ _ _ W); auto).
  destruct (prod_cond_inv lo hi integ (m_dens M) v x dens (wf_fac _ _ _ W) OA PC) as (RX & P1 & P2).
  assert (ND : ~ In v (m_dep M)) by (intros X; eapply wf_disj; eauto).
  assert (F' : forall w, In w (remove1 v (m_free M)) <-> In w (m_free M) /\ w <> v) by (apply remove1_in, (wf_free _ _ _ W)).
  assert (A' : forall w, In w (remove1 v (m_all M)) <-> In w (m_all M) /\ w <> v) by (apply remove1_in, (wf_all _ _ _ W)).
  split; [|splits; try (intros w; rewrite ?F', ?A'; tauto); [apply (wf_parts _ _ _ W); auto|intros w; split; [intros X; split; auto; intros ->; tauto|tauto]]].
  constructor; cbn [m_free m_dep m_all m_syms m_eqs m_dens].
  - apply remove1_nodup, (wf_free _ _ _ W).
  - apply (wf_dep _ _ _ W).
  - apply remove1_nodup, (wf_all _ _ _ W).
  - intros w. rewrite F'. intros (X & _). apply (wf_disj _ _ _ W); auto.
  - intros w. rewrite A', F', (wf_parts _ _ _ W). split; [tauto|]. intros [X|X]; [tauto|]. split; auto. intros ->. tauto.
  - intros w. rewrite A'. intros (X & _). apply (wf_syms _ _ _ W). auto.
  - rewrite subst_keys. apply (wf_keys _ _ _ W).
  - intros w. rewrite subst_keys. apply (wf_eqs _ _ _ W).
  - intros w e' I u Hu. apply (subst_atoms _ _ _ _ SO) in I as (e1 & I1 & A). apply A'. destruct (A u Hu) as [(X & Y)|(X & [])]. split; auto. apply (wf_atoms _ _ _ W w e1); auto.
  - destruct (wf_rank _ _ _ W) as (rank & RK). exists rank. intros w e' u I Hu. apply (subst_atoms _ _ _ _ SO) in I as (e1 & I1 & A). destruct (A u Hu) as [(X & Y)|(X & [])]. eauto.
  - auto.
  - intros w. rewrite occurs_vars, P2, <- occurs_vars, F', (wf_occ _ _ _ W). tauto.
Qed.
Lemma prop_wf M v M' : wf M -> m_prop simp M v = Ok M' -> wf M' /\ m_free M' = m_free M /\ m_dep M' = m_dep M /\ m_all M' = m_all M.
Proof.
  intros W H. apply prop_inv in H as (e & L & ->). cbn [m_free m_dep m_all]. split; [|auto]. constructor; cbn [m_free m_dep m_all m_syms m_eqs m_dens]; try apply W.
  - rewrite subst_keys. apply W.
  - intros w. rewrite subst_keys. apply W.
  - intros w e' I u Hu. apply (subst_atoms _ _ _ _ SO) in I as (e1 & I1 & A). destruct (A u Hu) as [(X & Y)|(X & Y)]; [apply (wf_atoms _ _ _ W w e1); auto|apply (wf_atoms _ _ _ W v e (lookup_In _ _ _ L)); auto].
  - destruct (wf_rank _ _ _ W) as (rank & RK). exists rank. intros w e' u I Hu. apply (subst_atoms _ _ _ _ SO) in I as (e1 & I1 & A). destruct (A u Hu) as [(X & Y)|(X & Y)]; [eauto|].
    pose proof (RK w e1 v I1 X). pose proof (RK v e u (lookup_In _ _ _ L) Y). lia.
Qed.
Definition lost (o : op) : list nat := match o with Elim v => [v] | Cond v _ => [v] | _ => [] end.
Lemma step_wf M o M' : wf M -> stp M o = Ok M' -> wf M' /\ incl (lost o) (m_all M) /\ forall w, In w (m_all M') <-> In w (m_all M) /\ ~ In w (lost o).
Proof.
  intros W. destruct o as [a d|v|v x|v]; cbn [step lost]; intros H.
  - apply exch_wf in H as (A & _ & _ & ->); auto. splits; auto; [intros w []|cbn; tauto].
  - apply elim_wf in H as (A & B & _ & _ & C); auto. splits; auto; [intros w [<-|[]]; auto|]. intros w. rewrite C. cbn. intuition.
  - apply cond_wf in H as (A & B & _ & _ & C); auto. splits; auto; [intros w [<-|[]]; auto|]. intros w. rewrite C. cbn. intuition.
  - apply prop_wf in H as (A & _ & _ & ->); auto. splits; auto; [intros w []|cbn; tauto].
Qed.
Lemma gone_cons o ops : gone (o :: ops) = lost o ++ gone ops.
Proof. reflexivity. Qed.
Lemma run_wf ops : forall M M', wf M -> rn M ops = Ok M' -> wf M' /\ incl (gone ops) (m_all M) /\ NoDup (gone ops) /\ forall w, In w (m_all M') <-> In w (m_all M) /\ ~ In w (gone ops).
Proof.
  induction ops as [|o ops IH]; intros M M' W; cbn [run].
  - intros [= <-]. splits; auto; [intros w []|constructor|cbn; tauto].
  - destruct (stp M o) as [M1|] eqn:E; [|discriminate]. cbn [rbind]. intros H. apply step_wf in E as (W1 & L1 & A1); auto. destruct (IH M1 M' W1 H) as (W' & L' & N' & A'). rewrite gone_cons. splits; auto.
    + intros w Hw. apply in_app_iff in Hw as [Hw|Hw]; auto. apply L' in Hw. apply A1 in Hw. tauto.
    + assert (D : forall w, In w (lost o) -> ~ In w (gone ops)) by (intros w X Y; apply L', A1 in Y; tauto).
      destruct o; cbn [lost app] in *; auto; constructor; auto; apply D; cbn; auto.
    + intros w. rewrite A', A1, in_app_iff. tauto.
Qed.

(** ** Solutions are kept *)
Lemma exch_sol D M a d M' env : wf M -> exact_on D solve real_at -> D env -> exch M a d = Ok M' -> sol (m_eqs M) env <-> sol (m_eqs M') env.
Proof.
  intros W EX De H. apply exch_inv in H as (e & u & dens & Ha & Hd & L & Ae & Fe & So & Su & PV & ->). cbn [m_eqs].
  rewrite sol_app, sol_one, (del_sol d e (m_eqs M)) by (auto; apply (wf_keys _ _ _ W)). rewrite (EX e d a u So env De).
  split; intros (A & B); split; auto; apply (subst_sol _ _ _ _ SO a u (del d (m_eqs M)) env B); auto.
Qed.
Lemma elim_sol M v M' : wf M -> m_elim simp integ lo hi M v = Ok M' ->
  (In v (m_free M) /\ m_eqs M' = m_eqs M) \/ exists e, In (v, e) (m_eqs M) /\ forall env, sol (m_eqs M) env <-> sol (m_eqs M') env /\ env v = eval e env.
Proof.
  intros W H. apply elim_inv in H as [(Hv & NA & dens & PE & ->)|(Hv & e & L & ->)]; cbn [m_eqs]; [left; auto|]. right. exists e. split; [apply lookup_In; auto|]. intros env.
  rewrite (del_sol v e (m_eqs M)) by (auto; apply (wf_keys _ _ _ W)). split; intros (A & B); split; auto; apply (subst_sol _ _ _ _ SO v e (del v (m_eqs M)) env B); auto.
Qed.
Lemma cond_sol M v x M' env : m_cond simp integ lo hi M v x = Ok M' -> env v = x -> sol (m_eqs M) env <-> sol (m_eqs M') env.
Proof. intros H E. apply cond_inv in H as (Hv & dens & PC & ->). cbn [m_eqs]. symmetry. apply (subst_sol _ _ _ _ SO). auto. Qed.
Lemma prop_sol M v M' env : wf M -> m_prop simp M v = Ok M' -> sol (m_eqs M) env <-> sol (m_eqs M') env.
Proof.
  intros W H. apply prop_inv in H as (e & L & ->). cbn [m_eqs]. pose proof (own_eq M v e W (lookup_In _ _ _ L)) as OE.
  split; intros HS.
  - apply (subst_sol _ _ _ _ SO); auto. apply HS, lookup_In; auto.
  - apply (subst_sol simp solve diff by_id SO v e); auto. apply HS. destruct (In_subst simp v e (m_eqs M) v e (lookup_In _ _ _ L)) as (e1 & I1 & [(N & ->)|(N & _)]); auto. tauto.
Qed.
Lemma run_sol ops : forall M M', wf M -> rn M ops = Ok M' ->
  exists H, (forall v e, In (v, e) H -> In v (gone ops) /\ incl (atoms e) (m_all M)) /\
    (forall env, exists env', same_on (m_all M') env env' /\ agrees ops env' /\ sol H env') /\
    forall D, exact_on D solve real_at -> forall env, D env -> agrees ops env -> (sol (m_eqs M) env <-> sol (m_eqs M') env /\ sol H env).
Proof.
  induction ops as [|o ops IH]; intros M M' W; cbn [run].
  - intros [= <-]. exists []. splits.
    + intros v e [].
    + intros env. exists env. splits; intros v; auto; intros x [].
    + intros D _ env _ _. split; [intros HS; split; auto; intros v e []|tauto].
  - destruct (stp M o) as [M1|] eqn:E; [|discriminate]. cbn [rbind]. intros HR. destruct (step_wf M o M1 W E) as (W1 & L1 & A1). destruct (IH M1 M' W1 HR) as (H & H1 & H2 & H3).
    destruct (run_wf ops M1 M' W1 HR) as (W' & G1 & G2 & G3).
    assert (CO : forall v x, In (Cond v x) ops -> In v (gone ops)) by (intros v x I; unfold gone; apply in_flat_map; exists (Cond v x); cbn; auto).
    assert (KEEP : forall v y env, ~ In v (m_all M1) -> agrees ops env -> sol H env -> agrees ops (upd env v y) /\ sol H (upd env v y) /\ same_on (m_all M') env (upd env v y)).
    { intros v y env Nv AG SH. assert (O : forall w, In w (m_all M1) -> upd env v y w = env w) by (intros w Hw; unfold upd; destruct (Nat.eqb_spec w v); auto; subst; tauto). splits.
      - intros w x I. rewrite O by (apply G1, (CO w x I)). auto.
      - eapply sol_ext; [|exact SH]. intros w e u I Hu. symmetry. apply O. destruct (H1 w e I) as (P & Q). destruct Hu as [->|Hu]; auto.
      - intros w Hw. symmetry. apply O. apply G3 in Hw. tauto. }
    assert (AGC : forall env, agrees (o :: ops) env <-> agrees ops env /\ (forall v x, o = Cond v x -> env v = x)).
    { intros env. unfold agrees. split; [intros X; split; [intros v x I; apply X; cbn; auto|intros v x ->; apply X; cbn; auto]|intros (X & Y) v x [I|I]; auto]. }
    destruct o as [a d|v|v x|v]; cbn [step lost] in *.
    + exists H. splits.
      * intros w e I. destruct (H1 w e I) as (P & Q). split; auto. intros u Hu. apply Q, A1 in Hu. tauto.
      * intros env. destruct (H2 env) as (env' & P1 & P2 & P3). exists env'. splits; auto. apply AGC. split; auto. intros; discriminate.
      * intros D EX env De AG. apply AGC in AG as (AG & _). rewrite (exch_sol D M a d M1 env W EX De E). apply (H3 D); auto.
    + assert (Nv : ~ In v (m_all M1)) by (rewrite A1; cbn; tauto). apply elim_sol in E as [(F & EQ)|(e & I & EQ)]; auto.
      * exists H. splits.
        -- intros w e I. destruct (H1 w e I) as (P & Q). split; [rewrite gone_cons; apply in_app_iff; auto|]. intros u Hu. apply Q, A1 in Hu. tauto.
        -- intros env. destruct (H2 env) as (env' & P1 & P2 & P3). exists env'. splits; auto. apply AGC. split; auto. intros; discriminate.
        -- intros D EX env De AG. apply AGC in AG as (AG & _). rewrite <- EQ. apply (H3 D); auto.
      * exists ((v, e) :: H). splits.
        -- intros w e' [[= <- <-]|J]; [split; [rewrite gone_cons; cbn; auto|apply (wf_atoms _ _ _ W v e I)]|]. destruct (H1 w e' J) as (P & Q). split; [rewrite gone_cons; apply in_app_iff; auto|]. intros u Hu. apply Q, A1 in Hu. tauto.
        -- intros env. destruct (H2 env) as (env' & P1 & P2 & P3). destruct (KEEP v (eval e env') env' Nv P2 P3) as (K1 & K2 & K3). exists (upd env' v (eval e env')). splits.
           ++ intros w Hw. rewrite P1 by auto. apply K3. auto.
           ++ apply AGC. split; auto. intros; discriminate.
           ++ intros w e' [[= <- <-]|J]; [|apply K2; auto]. rewrite eval_upd by (apply (own_eq M v e W I)). unfold upd. rewrite Nat.eqb_refl. auto.
        -- intros D EX env De AG. apply AGC in AG as (AG & _). rewrite EQ, (H3 D EX env De AG). change ((v, e) :: H) with ([(v, e)] ++ H). rewrite sol_app, sol_one. tauto.
    + assert (Nv : ~ In v (m_all M1)) by (rewrite A1; cbn; tauto). exists H. splits.
      * intros w e I. destruct (H1 w e I) as (P & Q). split; [rewrite gone_cons; apply in_app_iff; auto|]. intros u Hu. apply Q, A1 in Hu. tauto.
      * intros env. destruct (H2 env) as (env' & P1 & P2 & P3). destruct (KEEP v x env' Nv P2 P3) as (K1 & K2 & K3). exists (upd env' v x). splits; auto.
        -- intros w Hw. rewrite P1 by auto. apply K3. auto.
        -- apply AGC. split; auto. intros w y [= <- <-]. unfold upd. rewrite Nat.eqb_refl. auto.
      * intros D EX env De AG. apply AGC in AG as (AG & X). rewrite (cond_sol M v x M1 env E) by auto. apply (H3 D); auto.
    + exists H. splits.
      * intros w e I. destruct (H1 w e I) as (P & Q). split; auto. intros u Hu. apply Q, A1 in Hu. tauto.
      * intros env. destruct (H2 env) as (env' & P1 & P2 & P3). exists env'. splits; auto. apply AGC. split; auto. intros; discriminate.
      * intros D EX env De AG. apply AGC in AG as (AG & _). rewrite (prop_sol M v M1 env W E). apply (H3 D); auto.
Qed.
End S.
