(** The density of the model in terms of matrices, and eliminate. *)
From Coq Require Import Reals List Arith Bool Lra Lia.
From Coquelicot Require Import Coquelicot.
From Verif Require Import Base Interp InterpFacts ChebFacts Grid GridFacts3 ND NDSpec NDFacts2 QuadFacts RMx RMxFacts IntegralFacts Std NDNorm NDNormSpec NDNormFacts.
Import List ListNotations.
Open Scope R_scope.

Lemma table_length r c f : length (table r c f) = r.
Proof. unfold table. rewrite map_length, seq_length. reflexivity. Qed.
Lemma nth_map_in {A B} (f : A -> B) l i d d' : (i < length l)%nat -> nth i (map f l) d' = f (nth i l d).
Proof. intros. rewrite (nth_indep _ d' (f d)) by (rewrite map_length; auto). apply map_nth. Qed.
Lemma table_row r c f i : (i < r)%nat -> nth i (table r c f) [] = map (f i) (seq 0 c).
Proof. intros. unfold table. rewrite (nth_map_in _ _ _ O) by (rewrite seq_length; auto). rewrite seq_nth by auto. reflexivity. Qed.
Lemma entry_table r c f i j : (i < r)%nat -> (j < c)%nat -> entry (table r c f) i j = f i j.
Proof. intros. unfold entry. rewrite table_row by auto. rewrite (nth_map_in _ _ _ O) by (rewrite seq_length; auto). rewrite seq_nth by auto. reflexivity. Qed.
Lemma shape_iff m r c : has_shape m r c = true <-> length m = r /\ forall row, In row m -> length row = c.
Proof. unfold has_shape. rewrite andb_true_iff, Nat.eqb_eq, forallb_forall. split; intros [H G]; split; auto; intros row Hr; [apply Nat.eqb_eq|apply Nat.eqb_eq]; auto. Qed.
Lemma dot_bsum n l m : length l = n -> length m = n -> dot l m = bsum n (fun i => nth i l 0 * nth i m 0).
Proof. intros L M. rewrite dot_nth by congruence. rewrite L. reflexivity. Qed.
Lemma pick_length {A} (d : A) l idx : length (pick d l idx) = length idx.
Proof. apply map_length. Qed.
Lemma nth_pick {A} (d : A) l idx i d' : (i < length idx)%nat -> nth i (pick d l idx) d' = nth (nth i idx O) l d.
Proof. intros. unfold pick. rewrite (nth_map_in _ _ _ O) by auto. reflexivity. Qed.
Lemma entry_pick S c i j : (i < length c)%nat -> (j < length c)%nat ->
  entry (map (fun row => pick 0 row c) (pick [] S c)) i j = entry S (nth i c O) (nth j c O).
Proof. intros. unfold entry. rewrite (nth_map_in _ _ _ []) by (rewrite pick_length; auto). rewrite nth_pick by auto. rewrite nth_pick by auto. reflexivity. Qed.
Lemma sub_length x m n : length x = n -> length m = n -> length (sub_lists x m) = n.
Proof. intros. unfold sub_lists. rewrite map_length, combine_length. lia. Qed.
Lemma nth_sub x m i n : length x = n -> length m = n -> (i < n)%nat -> nth i (sub_lists x m) 0 = nth i x 0 - nth i m 0.
Proof. intros. unfold sub_lists. rewrite (nth_map_in _ _ _ (0, 0)) by (rewrite combine_length; lia). rewrite combine_nth by congruence. reflexivity. Qed.

(** ** The object and its density *)
Definition made (vars : list nat) (mu : list R) (Sg : mat) : ndnormal :=
  let d := length mu in NDN vars mu Sg (table d d (minv d (entry Sg))) (1 / sqrt (mdet d (entry Sg) * (2 * PI) ^ d)).
Lemma normal_nd_made vars mu Sg g : normal_nd vars mu Sg = Ok g -> g = made vars mu Sg /\ has_shape Sg (length mu) (length mu) = true /\ 0 < mdet (length mu) (entry Sg).
Proof. unfold normal_nd. destruct (has_shape _ _ _); [|discriminate]. destruct (rle _ 0) eqn:E; [discriminate|]. intros H. injection H as <-. splits; auto. b2p. lra. Qed.
Lemma normal_nd_ok vars mu Sg : normal_params vars mu Sg -> normal_nd vars mu Sg = Ok (made vars mu Sg).
Proof.
  intros (_ & _ & L & Rw & P). unfold normal_nd. rewrite (proj2 (shape_iff Sg (length mu) (length mu))) by auto.
  apply pd_det_pos in P. destruct (rle _ 0) eqn:E; auto. b2p. lra.
Qed.
Lemma quad_dot n L Y : length Y = n -> dot Y (mat_vec (table n n L) Y) = quad n L (fun i => nth i Y 0).
Proof.
  intros H. rewrite (dot_bsum n); auto. 2: unfold mat_vec; rewrite map_length, table_length; auto.
  unfold quad. apply bsum_ext. intros i Hi. unfold mat_vec. rewrite (nth_map_in _ _ _ []) by (rewrite table_length; auto).
  rewrite table_row by auto. rewrite (dot_bsum n); auto. 2: rewrite map_length, seq_length; auto.
  rewrite <- bsum_scal. apply bsum_ext. intros j Hj. rewrite (nth_map_in _ _ _ O) by (rewrite seq_length; auto). rewrite seq_nth by auto. simpl. ring.
Qed.
Lemma quad_vecmat n L Y : length Y = n -> sum_list (mul_lists (vec_mat Y (table n n L)) Y) = quad n L (fun i => nth i Y 0).
Proof.
  intros H. change (dot (vec_mat Y (table n n L)) Y = quad n L (fun i => nth i Y 0)).
  assert (V : length (vec_mat Y (table n n L)) = n) by (unfold vec_mat; rewrite map_length, seq_length; auto).
  rewrite (dot_bsum n) by auto. unfold quad. rewrite bsum_swap. apply bsum_ext. intros j Hj.
  unfold vec_mat. rewrite (nth_map_in _ _ _ O) by (rewrite seq_length; lia). rewrite seq_nth by lia. simpl Nat.add.
  rewrite (dot_bsum n); auto. 2: rewrite map_length, table_length; auto.
  rewrite <- bsum_scal_r. apply bsum_ext. intros i Hi. rewrite (nth_map_in _ _ _ []) by (rewrite table_length; auto).
  rewrite table_row by auto. rewrite (nth_map_in _ _ _ O) by (rewrite seq_length; lia). rewrite seq_nth by lia. reflexivity.
Qed.
Lemma pdf_made vars mu Sg X : length X = length mu ->
  ndn_pdf (made vars mu Sg) X = gdens (length mu) (entry Sg) (fun i => nth i X 0 - nth i mu 0).
Proof.
  intros H. unfold ndn_pdf, gdens. cbn [made g_mu g_inv g_nrm]. unfold made; cbn [g_mu g_inv g_nrm].
  rewrite (quad_dot (length mu)) by (apply sub_length; auto). f_equal. f_equal.
  rewrite (quad_ext _ (minv (length mu) (entry Sg)) (minv (length mu) (entry Sg)) (fun i => nth i (sub_lists X mu) 0) (fun i => nth i X 0 - nth i mu 0)); auto.
  lra. intros; apply (nth_sub _ _ _ (length mu)); auto.
Qed.
Lemma pdf_array_eq vars mu Sg columns : length columns = length mu ->
  ndn_pdf_array (made vars mu Sg) columns = map (ndn_pdf (made vars mu Sg)) (points (length (nth 0 columns [])) columns).
Proof.
  intros H. unfold ndn_pdf_array, points. rewrite !map_map. apply map_ext. intros k. unfold ndn_pdf. unfold made; cbn [g_mu g_inv g_nrm].
  set (Y := sub_lists _ _). assert (L : length Y = length mu) by (apply sub_length; auto; rewrite map_length; auto).
  rewrite quad_vecmat, quad_dot by auto. reflexivity.
Qed.

(** ** Elimination *)
Section Elim.
Variables (vars : list nat) (mu : list R) (Sg : mat).
Hypothesis ND : NoDup vars.
Hypothesis LV : length vars = length mu.
Definition subm (c : list nat) : nat -> nat -> R := fun i j => entry Sg (nth i c O) (nth j c O).
Definition gc (c : list nat) (env : nat -> R) : R := gdens (length c) (subm c) (fun i => env (nth (nth i c O) vars O) - nth (nth i c O) mu 0).
Lemma nth_skip (c1 c2 : list nat) k i : nth (skip (length c1) i) (c1 ++ k :: c2) O = nth i (c1 ++ c2) O.
Proof.
  unfold skip. destruct (Nat.ltb_spec i (length c1)). rewrite !app_nth1 by auto; auto.
  rewrite !app_nth2 by lia. replace (S i - length c1)%nat with (S (i - length c1)) by lia. reflexivity.
Qed.
Lemma len_mid (c1 c2 : list nat) k : length (c1 ++ k :: c2) = S (length (c1 ++ c2)).
Proof. rewrite !app_length. simpl. lia. Qed.
Lemma subm_minor c1 c2 k : forall i j, minor (length c1) (subm (c1 ++ k :: c2)) i j = subm (c1 ++ c2) i j.
Proof. intros. unfold minor, subm. rewrite !nth_skip. reflexivity. Qed.
Lemma pd_ext n A B : (forall i j, (i < n)%nat -> (j < n)%nat -> A i j = B i j) -> pos_def n A -> pos_def n B.
Proof. intros E [S1 P]. split. intros. rewrite <- !E by auto. auto. intros v Hv. rewrite <- (quad_ext n A B v v); auto. Qed.
Lemma subm_pd c1 c2 k : pos_def (length (c1 ++ k :: c2)) (subm (c1 ++ k :: c2)) -> pos_def (length (c1 ++ c2)) (subm (c1 ++ c2)).
Proof.
  intros P. rewrite len_mid in P. apply (pd_ext _ (minor (length c1) (subm (c1 ++ k :: c2)))). intros; apply subm_minor.
  apply pd_minor; auto. rewrite app_length; lia.
Qed.
Lemma gc_step c1 c2 k env : NoDup (c1 ++ k :: c2) -> (forall i, In i (c1 ++ k :: c2) -> (i < length vars)%nat) ->
  pos_def (length (c1 ++ k :: c2)) (subm (c1 ++ k :: c2)) ->
  is_RInt_gen (fun t => gc (c1 ++ k :: c2) (upd env (nth k vars O) t)) (Rbar_locally m_infty) (Rbar_locally p_infty) (gc (c1 ++ c2) env).
Proof.
  intros Nc B P. set (c := c1 ++ k :: c2) in *. assert (Lc : length c = S (length (c1 ++ c2))) by apply len_mid.
  assert (K : (length c1 < S (length (c1 ++ c2)))%nat) by (rewrite app_length; lia).
  assert (Kc : nth (length c1) c O = k) by (unfold c; rewrite app_nth2 by lia; rewrite Nat.sub_diag; reflexivity).
  set (y := fun i => env (nth (nth i c O) vars O) - nth (nth i c O) mu 0).
  rewrite Lc in P. pose proof (gdens_step _ _ _ y (nth k mu 0) P K) as G.
  replace (gc (c1 ++ c2) env) with (gdens (length (c1 ++ c2)) (minor (length c1) (subm c)) (fun i => y (skip (length c1) i))).
  2:{ unfold gc. apply gdens_ext. intros; apply subm_minor. intros i Hi. unfold y, c. rewrite nth_skip. reflexivity. }
  eapply is_RInt_gen_ext; [|exact G]. apply filter_forall. intros [u v] t _. unfold gc. rewrite Lc. apply gdens_ext; auto.
  intros i Hi. rewrite <- Lc in Hi. destruct (Nat.eqb_spec i (length c1)) as [->|N].
  - unfold upd. rewrite Kc, Nat.eqb_refl. reflexivity.
  - unfold y, upd. destruct (Nat.eqb_spec (nth (nth i c O) vars O) (nth k vars O)) as [E|E]; auto. exfalso.
    rewrite <- Kc in E. apply N. apply (proj1 (NoDup_nth c O) Nc); [auto|lia|].
    apply (proj1 (NoDup_nth vars O) ND); [apply B, nth_In; auto|apply B, nth_In; lia|auto].
Qed.
Definition notin (idx : list nat) : nat -> bool := fun i => negb (existsb (Nat.eqb i) idx).
Lemma notin_iff idx i : notin idx i = true <-> ~ In i idx.
Proof.
  unfold notin. rewrite negb_true_iff. split.
  - intros H I. rewrite (proj2 (existsb_exists _ _)) in H; [discriminate|]. exists i. split; auto. apply Nat.eqb_refl.
  - intros H. destruct (existsb _ _) eqn:E; auto. apply existsb_exists in E. destruct E as (j & J & E). apply Nat.eqb_eq in E. subst. tauto.
Qed.
Lemma filter_ext_in' {A} (f g : A -> bool) l : (forall x, In x l -> f x = g x) -> filter f l = filter g l.
Proof. apply filter_ext_in. Qed.
Lemma notin_cons k idx i : i <> k -> notin (k :: idx) i = notin idx i.
Proof. intros. unfold notin. simpl. destruct (Nat.eqb_spec i k); [congruence|]. reflexivity. Qed.
Lemma filter_mid idx c1 k c2 : NoDup (c1 ++ k :: c2) -> filter (notin (k :: idx)) (c1 ++ k :: c2) = filter (notin idx) (c1 ++ c2).
Proof.
  intros N. apply NoDup_remove in N. destruct N as [_ N]. rewrite !filter_app. simpl. unfold notin at 2; simpl. rewrite Nat.eqb_refl. simpl.
  f_equal; apply filter_ext_in; intros x Hx; apply notin_cons; intros ->; apply N, in_or_app; auto.
Qed.
Lemma gc_ext c env env' : (forall v, In v vars -> env v = env' v) -> (forall i, In i c -> (i < length vars)%nat) -> gc c env = gc c env'.
Proof. intros H B. unfold gc. apply gdens_ext; auto. intros i Hi. rewrite (H (nth (nth i c O) vars O)); auto. apply nth_In, B, nth_In; auto. Qed.
Lemma gc_integrated idx : forall c, NoDup c -> (forall i, In i c -> (i < length vars)%nat) -> pos_def (length c) (subm c) -> NoDup idx -> incl idx c ->
  integrated (map (fun i => nth i vars O) idx) (gc c) (gc (filter (notin idx) c)) /\
  pos_def (length (filter (notin idx) c)) (subm (filter (notin idx) c)).
Proof.
  induction idx as [|k idx IH]; intros c Nc B P Ni I.
  - assert (E : filter (notin []) c = c) by (clear; induction c; simpl; congruence). rewrite E. split; auto. constructor. auto.
  - destruct (in_split k c) as (c1 & c2 & ->). apply I; simpl; auto.
    rewrite filter_mid by auto. inversion Ni; subst.
    destruct (IH (c1 ++ c2)) as [G1 G2]; auto.
    + apply NoDup_remove in Nc; tauto.
    + intros i Hi. apply B. apply in_app_or in Hi. apply in_or_app. simpl. tauto.
    + apply subm_pd with k; auto.
    + intros i Hi. specialize (I i (or_intror Hi)). apply in_app_or in I. apply in_or_app. simpl in I. destruct I as [?|[?|?]]; auto. subst; tauto.
    + split; auto. simpl. econstructor; [|exact G1]. intros env. apply gc_step; auto.
Qed.
Lemma positions_ok vs : incl vs vars -> exists idx, positions vs vars = Ok idx /\ map (fun i => nth i vars O) idx = vs /\ (forall i, In i idx -> (i < length vars)%nat).
Proof.
  induction vs as [|v vs IH]; intros I. exists []. splits; auto. intros ? [].
  destruct IH as (idx & E & M & B). intros x Hx; apply I; simpl; auto.
  simpl. destruct (position v vars) as [i|] eqn:Ep.
  - exists (i :: idx). rewrite E. simpl. apply position_some in Ep. destruct Ep as [Ei En]. splits; auto.
    + congruence.
    + intros j [<-|Hj]; auto.
  - apply position_none in Ep. exfalso; apply Ep, I; simpl; auto.
Qed.
Lemma NoDup_of_map {A B} (f : A -> B) l : NoDup (map f l) -> NoDup l.
Proof. apply NoDup_map_inv. Qed.
Lemma in_idx idx v i : (forall i, In i idx -> (i < length vars)%nat) -> (i < length vars)%nat -> nth i vars O = v -> (In i idx <-> In v (map (fun i => nth i vars O) idx)).
Proof.
  intros B Hi E. split. intros H. apply in_map_iff. eauto.
  intros H. apply in_map_iff in H. destruct H as (j & Ej & Hj). assert (i = j); [|subst; auto].
  apply (proj1 (NoDup_nth vars O) ND); auto. congruence.
Qed.
Lemma seq_nth_map : map (fun i => nth i vars O) (seq 0 (length vars)) = vars.
Proof. clear. induction vars; simpl; auto. rewrite <- seq_shift, map_map. simpl. congruence. Qed.
Lemma filter_map_comm {A B} (f : A -> B) p l : filter p (map f l) = map f (filter (fun x => p (f x)) l).
Proof. induction l; simpl; auto. destruct (p (f a)); simpl; congruence. Qed.
Lemma pick_others idx : (forall i, In i idx -> (i < length vars)%nat) ->
  pick O vars (filter (notin idx) (seq 0 (length vars))) = filter (notin (map (fun i => nth i vars O) idx)) vars.
Proof.
  intros B. unfold pick. transitivity (filter (notin (map (fun i => nth i vars O) idx)) (map (fun i => nth i vars O) (seq 0 (length vars)))); [|rewrite seq_nth_map; reflexivity]. rewrite filter_map_comm. f_equal. apply filter_ext_in. intros i Hi. apply in_seq in Hi.
  pose proof (in_idx idx (nth i vars O) i B ltac:(lia) eq_refl) as E.
  destruct (notin idx i) eqn:E1, (notin (map (fun i => nth i vars O) idx) (nth i vars O)) eqn:E2; auto.
  - apply notin_iff in E1. exfalso. assert (~ notin (map (fun i => nth i vars O) idx) (nth i vars O) = true) by congruence. rewrite notin_iff in H. tauto.
  - apply notin_iff in E2. exfalso. assert (~ notin idx i = true) by congruence. rewrite notin_iff in H. tauto.
Qed.
End Elim.

Lemma at_made vars mu Sg env : length vars = length mu ->
  at_env (NDist (made vars mu Sg)) env = gdens (length mu) (entry Sg) (fun i => env (nth i vars O) - nth i mu 0).
Proof.
  intros H. unfold at_env. simpl g_vars. rewrite pdf_made by (rewrite map_length; auto). apply gdens_ext; auto.
  intros i Hi. rewrite (nth_map_in _ _ _ O) by lia. reflexivity.
Qed.
Lemma sub_params vars mu Sg c : NoDup vars -> length vars = length mu -> NoDup c -> (forall i, In i c -> (i < length vars)%nat) ->
  pos_def (length c) (subm Sg c) ->
  normal_params (pick O vars c) (pick 0 mu c) (map (fun row => pick 0 row c) (pick [] Sg c)).
Proof.
  intros N L Nc B P. unfold normal_params. rewrite map_length, !pick_length. splits; auto.
  - apply (NoDup_nth _ O). rewrite pick_length. intros i j Hi Hj E. rewrite !nth_pick in E by auto.
    apply (proj1 (NoDup_nth c O) Nc); auto. apply (proj1 (NoDup_nth vars O) N); auto; apply B, nth_In; auto.
  - intros row Hr. apply in_map_iff in Hr. destruct Hr as (r & <- & _). apply pick_length.
  - apply (pd_ext _ (subm Sg c)); auto. intros. rewrite entry_pick by auto. reflexivity.
Qed.
Lemma integrated_ext vs : forall F G H, integrated vs F G -> (forall env, G env = H env) -> integrated vs F H.
Proof. induction vs; intros F G H I E; inversion I; subst; [constructor; congruence|econstructor; eauto]. Qed.
Lemma integrated_ext_l vs F F' G : integrated vs F G -> (forall env, F' env = F env) -> integrated vs F' G.
Proof.
  intros I E; inversion I as [? ? H|v vs' ? G1 ? H H1]; subst; [constructor; congruence|]. econstructor; [|exact H1]. intros env.
  eapply is_RInt_gen_ext; [|apply H]. apply filter_forall. intros [u w] t _. auto.
Qed.
Lemma elim_exact vars mu Sg vs : normal_params vars mu Sg -> NoDup vs -> incl vs vars ->
  exists r, ndn_elim (made vars mu Sg) vs = Ok r /\ vars_of r = filter (fun v => negb (existsb (Nat.eqb v) vs)) vars /\
    integrated vs (at_env (NDist (made vars mu Sg))) (at_env r) /\
    (forall h, r = NDist h -> exists mu' Sg', h = made (g_vars h) mu' Sg' /\ normal_params (g_vars h) mu' Sg' /\
       forall i j, (i < length (g_vars h))%nat -> (j < length (g_vars h))%nat -> forall i' j', (i' < length vars)%nat -> (j' < length vars)%nat ->
         nth i' vars O = nth i (g_vars h) O -> nth j' vars O = nth j (g_vars h) O ->
         nth i mu' 0 = nth i' mu 0 /\ entry Sg' i j = entry Sg i' j').
Proof.
  intros (N & L & LS & Rw & P) Nv I. destruct (positions_ok vars vs I) as (idx & E & M & B).
  assert (Ni : NoDup idx) by (apply (NoDup_of_map (fun i => nth i vars O)); rewrite M; auto).
  unfold ndn_elim. simpl g_vars. simpl g_mu. simpl g_Sigma. rewrite E. simpl rbind.
  change (others (length mu) idx) with (filter (notin idx) (seq 0 (length mu))). rewrite <- L.
  destruct (gc_integrated vars mu Sg N L idx (seq 0 (length vars))) as [G1 G2]; auto.
  { apply seq_NoDup. } { intros i Hi. apply in_seq in Hi. lia. }
  { rewrite seq_length, L. apply (pd_ext _ (entry Sg)); auto. intros i j Hi Hj. unfold subm. rewrite !seq_nth by auto. reflexivity. }
  { intros i Hi. apply in_seq. specialize (B i Hi). lia. }
  set (c := filter (notin idx) (seq 0 (length vars))) in *.
  assert (G1' : integrated vs (at_env (NDist (made vars mu Sg))) (gc vars mu Sg c)).
  { rewrite <- M. eapply integrated_ext_l; [exact G1|]. intros env. rewrite at_made by auto. unfold gc. rewrite seq_length, L. apply gdens_ext.
    - intros i j Hi Hj. unfold subm. rewrite !seq_nth by lia. reflexivity.
    - intros i Hi. rewrite seq_nth by lia. reflexivity. }
  assert (V : pick O vars c = filter (fun v => negb (existsb (Nat.eqb v) vs)) vars) by (unfold c; rewrite (pick_others vars mu), M; auto).
  destruct (pick 0 mu c) as [|m0 mt] eqn:Em.
  - assert (c = []) as C0 by (apply (f_equal (@length R)) in Em; rewrite pick_length in Em; destruct c; auto; discriminate).
    exists NOne. splits; auto.
    + rewrite <- V, C0. reflexivity.
    + eapply integrated_ext; [exact G1'|]. intros env. rewrite C0. unfold gc, gdens, at_env. simpl. rewrite mdet_0. unfold quad. rewrite bsum_0.
      replace (- (0 / 2)) with 0 by lra. rewrite exp_0. change (1 / sqrt (1 * 1) * 1 = 1). replace (1 * 1) with 1 by ring. rewrite sqrt_1. lra.
    + discriminate.
  - rewrite <- Em. clear Em m0 mt.
    assert (Bc : forall i, In i c -> (i < length vars)%nat) by (intros i Hi; apply filter_In in Hi; destruct Hi as [Hi _]; apply in_seq in Hi; lia).
    assert (Nc : NoDup c) by (apply NoDup_filter, seq_NoDup).
    pose proof (sub_params vars mu Sg c N L Nc Bc G2) as SP. rewrite (normal_nd_ok _ _ _ SP). simpl rmap.
    eexists. splits; [reflexivity| | |].
    + simpl. auto.
    + eapply integrated_ext; [exact G1'|]. intros env. rewrite at_made by (rewrite !pick_length; auto). rewrite pick_length. unfold gc. apply gdens_ext.
      * intros i j Hi Hj. rewrite entry_pick by auto. reflexivity.
      * intros i Hi. rewrite !nth_pick by auto. reflexivity.
    + intros h Hh. injection Hh as <-. simpl g_vars. exists (pick 0 mu c), (map (fun row => pick 0 row c) (pick [] Sg c)). splits; auto.
      rewrite pick_length. intros i j Hi Hj i' j' Hi' Hj' Ei Ej. rewrite !nth_pick in * by auto. rewrite entry_pick by auto.
      assert (nth i c O = i') by (apply (proj1 (NoDup_nth vars O) N); auto; apply Bc, nth_In; auto).
      assert (nth j c O = j') by (apply (proj1 (NoDup_nth vars O) N); auto; apply Bc, nth_In; auto).
      subst. auto.
Qed.
