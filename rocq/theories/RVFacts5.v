(** Proofs about the construction of graphical models from variables. *)
From Coq Require Import Reals List Bool Arith Lia Lra Sorted Permutation.
From Coquelicot Require Import Coquelicot.
From Verif Require Import Base ND NDSpec NDFacts2 Models ModelsSpec ModelsFacts ModelsFacts2 RV RVSpec RVFacts RVFacts2.
Import List ListNotations.
Open Scope R_scope.

(** what the constructors make has its equation *)
Lemma equation_ext h h' c : extends h h' -> equation h c -> equation h' c.
Proof.
  intros X. unfold equation. destruct (c_kind c); auto.
  - intros (P & c' & E & H). split; auto. exists c'. split; auto. eapply ext_nth; eauto.
  - intros (P & c' & E & H). split; auto. exists c'. split; auto. eapply ext_nth; eauto.
  - intros (P & c1 & c2 & E1 & E2 & H). split; auto. exists c1, c2. splits; auto; eapply ext_nth; eauto.
Qed.
Lemma un_sym_is f x z : un_is f x z -> forall e env, eval e env = x -> eval (un_sym f e) env = z.
Proof. destruct 1; intros e env <-; cbn [un_sym eval]; auto; [unfold Rdiv; ring|ring]. Qed.
Lemma bin_sym_is o x y z : bin_is o x y z -> forall e1 e2 env, eval e1 env = x -> eval e2 env = y -> eval (bin_sym o e1 e2) env = z.
Proof. destruct 1; intros e1 e2 env <- <-; cbn [bin_sym eval]; auto. ring. Qed.
Definition sym_ok (h : heap) (c : cell) : Prop := c_par c <> [] -> forall v, In v (atoms (c_sym c)) -> exists p cp, In p (c_par c) /\ nth_error h p = Some cp /\ v = c_name cp.
Lemma sym_ext h h' c : extends h h' -> sym_ok h c -> sym_ok h' c.
Proof. intros X H P v V. destruct (H P v V) as (p & cp & A & B & C). exists p, cp. splits; auto. eapply ext_nth; eauto. Qed.
Lemma add_all (P : heap -> nat -> cell -> Prop) h c : (forall i d, P h i d -> P (h ++ [c]) i d) -> (forall i d, nth_error h i = Some d -> P h i d) -> P (h ++ [c]) (length h) c -> forall i d, nth_error (h ++ [c]) i = Some d -> P (h ++ [c]) i d.
Proof.
  intros M H C i d E. destruct (Nat.lt_ge_cases i (length h)) as [L|L].
  - rewrite nth_error_app1 in E by auto. auto.
  - rewrite nth_error_app2 in E by auto. destruct (i - length h)%nat as [|n] eqn:N; cbn in E; [|destruct n; discriminate]. injection E as <-. assert (i = length h) as -> by lia. auto.
Qed.
Definition fine (h : heap) (i : nat) (c : cell) : Prop := c_name c = i /\ equation h c /\ sym_ok h c.
Lemma built_fine h : built h -> default_base h -> forall i c, nth_error h i = Some c -> fine h i c.
Proof.
  assert (DB : forall (h0 : heap) c, default_base (h0 ++ [c]) -> default_base h0) by (intros h0 c D i d E; apply D; rewrite nth_error_app1; eauto using nth_lt).
  assert (ME : forall h0 c i d, fine h0 i d -> fine (h0 ++ [c]) i d) by (intros h0 c i d (A & B & C); split; [auto|split; [eapply equation_ext; eauto using add_ext|eapply sym_ext; eauto using add_ext]]).
  induction 1 as [|h c B IH K|h r h' i B IH E|h d s m h' i B IH E|h f d h' i B IH E|h o d1 d2 b h' i B IH E]; intros D.
  - intros [|i] c E; discriminate.
  - apply (add_all fine); auto; [apply IH; eapply DB; eauto|]. destruct (D (length h) c (add_nth h c) K) as (P & N). split; [auto|split; [unfold equation; rewrite K; auto|]]. intros F. exfalso. auto.
  - unfold new_const, add_cell in E. injection E as <- <-. apply (add_all fine); auto; [apply IH; eapply DB; eauto|]. split; [auto|split; [reflexivity|]]. intros F. exfalso. apply F. auto.
  - apply new_shift_inv in E as (c & G & M & -> & ->). apply (add_all fine); auto; [apply IH; eapply DB; eauto|]. assert (G' := ext_nth _ _ _ _ (add_ext h (Cell (KShift s m d) [d] true (c_distr c) (fst (shift_range c s m)) (snd (shift_range c s m)) None (EAdd (EMul (EVar (c_name c)) (ENum m)) (ENum s)) (length h))) G). split; [auto|split].
    + unfold equation. cbn [c_kind c_par c_sym]. split; auto. exists c. splits; auto. intros env. cbn [eval]. ring.
    + intros _ v V. cbn in V. destruct V as [<-|[]]. exists d, c. cbn. auto.
  - apply new_un_inv in E as (c & G & -> & ->). apply (add_all fine); auto; [apply IH; eapply DB; eauto|]. match goal with |- fine (h ++ [?x]) _ _ => assert (G' := ext_nth _ _ _ _ (add_ext h x) G) end. split; [auto|split].
    + unfold equation. cbn [c_kind c_par c_sym]. split; auto. exists c. splits; auto. intros env z U. eapply un_sym_is; eauto.
    + intros _ v V. assert (v = c_name c) as -> by (destruct f; cbn in V; destruct V as [<-|[]]; auto). exists d, c. cbn. auto.
  - apply new_bin_inv in E as (c1 & c2 & G1 & G2 & -> & ->). apply (add_all fine); auto; [apply IH; eapply DB; eauto|]. match goal with |- fine (h ++ [?x]) _ _ => assert (G1' := ext_nth _ _ _ _ (add_ext h x) G1); assert (G2' := ext_nth _ _ _ _ (add_ext h x) G2) end. split; [auto|split].
    + unfold equation. cbn [c_kind c_par c_sym]. split; auto. exists c1, c2. splits; auto. intros env z U. eapply bin_sym_is; eauto.
    + intros _ v V. assert (v = c_name c1 \/ v = c_name c2) as VV by (destruct o; cbn in V; intuition). destruct VV as [->| ->]; [exists d1, c1|exists d2, c2]; cbn; auto.
Qed.
Lemma built_named h : built h -> default_base h -> named h.
Proof.
  intros B D. pose proof (built_fine h B D) as F. split.
  - intros i j c d E1 E2 N. destruct (F i c E1) as (<- & _), (F j d E2) as (<- & _). auto.
  - intros i c E. destruct (F i c E) as (_ & A & C). auto.
Qed.
(** ... and is well formed *)
Lemma built_wf h : built h -> default_base h -> wf_heap h.
Proof.
  assert (DB : forall (h0 : heap) c, default_base (h0 ++ [c]) -> default_base h0) by (intros h0 c D i d E; apply D; rewrite nth_error_app1; eauto using nth_lt).
  induction 1 as [|h c B IH K|h r h' i B IH E|h d s m h' i B IH E|h f d h' i B IH E|h o d1 d2 b h' i B IH E]; intros D.
  - intros [|i] c E; discriminate.
  - apply add_wf; [apply IH; eapply DB; eauto|rewrite K; intros p []|]. destruct (D (length h) c (add_nth h c) K) as (-> & _). intros p [].
  - assert (D' : default_base h) by (unfold new_const, add_cell in E; injection E as <- <-; eapply DB; eauto). apply (new_const_wf h r h' i (IH D') E).
  - assert (D' : default_base h) by (apply new_shift_inv in E as (c & G & M & -> & ->); eapply DB; eauto). apply (new_shift_wf h d s m h' i (IH D') E).
  - assert (D' : default_base h) by (apply new_un_inv in E as (c & G & -> & ->); eapply DB; eauto). apply (new_un_wf h f d h' i (IH D') E).
  - assert (D' : default_base h) by (apply new_bin_inv in E as (c1 & c2 & G1 & G2 & -> & ->); eapply DB; eauto). apply (new_bin_wf h o d1 d2 b h' i (IH D') E).
Qed.

Lemma sorted_nd l : StronglySorted lt l -> NoDup l.
Proof. induction 1 as [|a l H IH F]; constructor; auto. intros I. rewrite Forall_forall in F. specialize (F a I). lia. Qed.
Lemma sort_In l v : In v (sort_vars l) <-> In v l.
Proof. unfold sort_vars. rewrite fold_insert_In. cbn. tauto. Qed.
Lemma sort_nd l : NoDup (sort_vars l).
Proof. apply sorted_nd. unfold sort_vars. apply fold_insert_sorted. constructor. Qed.
Lemma cells_ok h l : (forall i, In i l -> (i < length h)%nat) -> exists cs, cells h l = Ok cs /\ (forall c, In c cs <-> exists i, In i l /\ nth_error h i = Some c) /\ Forall2 (fun i c => nth_error h i = Some c) l cs.
Proof.
  induction l as [|i l IH]; intros L; cbn [cells].
  - exists []. splits; auto; [intros c; split; [intros []|intros (i & [] & _)]].
  - destruct (get_some h i) as (c & E); [apply L; cbn; auto|]. rewrite (proj2 (get_ok h i c) E). cbn [rbind]. destruct IH as (cs & -> & H & F); [intros j J; apply L; cbn; auto|]. cbn [rmap]. exists (c :: cs). splits; auto.
    intros d. cbn [In]. rewrite H. split; [intros [<-|(j & J & G)]; [exists i|exists j]; auto|]. intros (j & [<-|J] & G); [left; congruence|right; eauto].
Qed.
Lemma names_nd h (l : list nat) cs : (forall i j c d, nth_error h i = Some c -> nth_error h j = Some d -> c_name c = c_name d -> i = j) -> NoDup l -> Forall2 (fun i c => nth_error h i = Some c) l cs -> NoDup (map c_name cs).
Proof.
  intros INJ ND F. induction F as [|i c l cs E F IH]; cbn; [constructor|]. inversion ND as [|? ? NI ND']; subst. constructor; auto. intros I. apply in_map_iff in I as (d & N & D).
  assert (exists j, In j l /\ nth_error h j = Some d) as (j & J & G) by (clear -F D; induction F as [|a b l cs E F IH]; [destruct D|destruct D as [<-|D]; [exists a; cbn; auto|destruct (IH D) as (j & J & G); exists j; cbn; auto]]).
  assert (i = j) by (apply (INJ i j c d E G); auto). congruence.
Qed.

Section Init.
Variables lo hi : nat -> R.
Lemma init_ok (h : heap) fac rvs : wf_heap h -> named h -> (forall i, In i rvs -> exists c, nth_error h i = Some c /\ c_par c <> []) -> Forall (wf_f lo hi) fac ->
  (forall j c, involved h rvs j c -> (occurs (c_name c) fac <-> c_par c = [])) ->
  exists M, model_init h fac rvs = Ok M /\ wf_model lo hi M /\ m_dens M = fac /\ (forall v, In v (m_free M) <-> occurs v fac) /\
  (forall v, In v (m_dep M) <-> exists j c, involved h rvs j c /\ c_par c <> [] /\ v = c_name c) /\
  (forall v e, In (v, e) (m_eqs M) <-> exists j c, involved h rvs j c /\ c_par c <> [] /\ v = c_name c /\ e = c_sym c).
Proof.
  intros W (INJ & EQ) RV FW OC.
  assert (RL : forall i, In i rvs -> (i < length h)%nat) by (intros i I; destruct (RV i I) as (c & E & _); eapply nth_lt; eauto).
  unfold model_init. destruct (map_dep_ok h rvs W RL) as (dep & -> & HD). cbn [rbind].
  assert (AL : forall i, In i (set_of (rvs ++ dep)) <-> exists c, involved h rvs i c /\ c_par c <> []).
  { intros i. rewrite set_of_in, in_app_iff, HD. split.
    - intros [I|(a & A & R & c & E & P)]; [destruct (RV i I) as (c & E & P)|]; exists c; splits; auto; split; auto; [exists i; split; auto; constructor|eauto].
    - intros (c & (E & a & A & R) & P). right. exists a. splits; eauto. }
  destruct (cells_ok h (set_of (rvs ++ dep))) as (cs & -> & HC & F2).
  { intros i I. apply AL in I as (c & (E & _) & _). eapply nth_lt; eauto. }
  cbn [rbind]. assert (CS : forall c, In c cs <-> exists j, involved h rvs j c /\ c_par c <> []).
  { intros c. rewrite HC. split; [intros (j & J & E); apply AL in J as (d & (E' & I) & P); exists j; assert (d = c) as -> by congruence; splits; auto; split; auto|]. intros (j & (E & I) & P). exists j. split; auto. apply AL. exists c. splits; auto. split; auto. }
  assert (FR : forall v, In v (prod_vars fac) <-> occurs v fac) by (intros v; apply prod_vars_In).
  assert (NM : forall v, In v (map c_name cs) <-> exists j c, involved h rvs j c /\ c_par c <> [] /\ v = c_name c).
  { intros v. rewrite in_map_iff. split; [intros (c & <- & C); apply CS in C as (j & I & P); eauto|]. intros (j & c & I & P & ->). exists c. split; auto. apply CS. eauto. }
  assert (EQS : forall v e, In (v, e) (map (fun c => (c_name c, c_sym c)) cs) <-> exists j c, involved h rvs j c /\ c_par c <> [] /\ v = c_name c /\ e = c_sym c).
  { intros v e. rewrite in_map_iff. split; [intros (c & E & C); injection E as <- <-; apply CS in C as (j & I & P); eauto 6|]. intros (j & c & I & P & -> & ->). exists c. split; auto. apply CS. eauto. }
  assert (ATO : forall v e u, In (v, e) (map (fun c => (c_name c, c_sym c)) cs) -> In u (atoms e) -> exists j c p cp, involved h rvs j c /\ v = c_name c /\ involved h rvs p cp /\ (p < j)%nat /\ u = c_name cp).
  { intros v e u VE U. apply EQS in VE as (j & c & I & P & -> & ->). destruct I as (E & a & A & R). destruct (EQ j c E) as (_ & SY). destruct (SY P u U) as (p & cp & PI & PE & ->). exists j, c, p, cp. splits; auto; [split; eauto| |apply (W j c E); auto]. split; auto. exists a. split; auto. eapply reach_trans; eauto. eapply reach_par; eauto. constructor. }
  eexists. split; [reflexivity|]. splits; cbn [m_dens m_free m_dep m_eqs]; auto.
  - constructor; cbn [m_free m_dep m_all m_syms m_eqs m_dens].
    + apply sorted_nd, prod_vars_sorted.
    + apply sort_nd.
    + apply sort_nd.
    + intros v V1 V2. apply FR in V1. apply sort_In, NM in V2 as (j & c & I & P & ->). apply P. apply (OC j c I). auto.
    + intros v. rewrite !sort_In, in_app_iff. tauto.
    + intros v V. auto.
    + rewrite map_map. cbn [fst]. change (fun x : cell => c_name x) with c_name. eapply names_nd; eauto. apply set_of_nodup.
    + intros v. rewrite map_map. cbn [fst]. change (fun x : cell => c_name x) with c_name. rewrite sort_In. tauto.
    + intros v e VE u U. destruct (ATO v e u VE U) as (j & c & p & cp & I & -> & IP & L & ->). rewrite sort_In, in_app_iff, FR, NM. destruct (c_par cp) eqn:P; [left; apply (OC p cp IP); auto|right]. exists p, cp. splits; auto. congruence.
    + assert (exists L : list nat, forall j, In j L <-> (j < length h)%nat) as (L & HL) by (exists (seq 0 (length h)); intros j; rewrite in_seq; lia).
      exists (fun v => match find (fun j => match nth_error h j with Some c => Nat.eqb (c_name c) v | None => false end) L with Some j => j | None => O end).
      assert (RK : forall j c, nth_error h j = Some c -> find (fun j => match nth_error h j with Some d => Nat.eqb (c_name d) (c_name c) | None => false end) L = Some j).
      { intros j c E. destruct (find _ L) as [i|] eqn:FI.
        - apply find_some in FI as (_ & FI). destruct (nth_error h i) as [d|] eqn:Ei; [|discriminate]. apply Nat.eqb_eq in FI. f_equal. apply (INJ i j d c); auto.
        - exfalso. pose proof (find_none _ _ FI j) as X. cbn beta in X. rewrite E, Nat.eqb_refl in X. assert (true = false) by (apply X; apply HL; eapply nth_lt; eauto). discriminate. }
      intros v e u VE U. destruct (ATO v e u VE U) as (j & c & p & cp & (E & _) & -> & (EP & _) & LT & ->). rewrite (RK j c E), (RK p cp EP). auto.
    + auto.
    + intros v. symmetry. apply FR.
  - intros v. rewrite sort_In. apply NM.
Qed.
End Init.
(** solutions of the equations are the values *)
Lemma eq_value h w env c j x : nth_error h j = Some c -> equation h c -> c_par c <> [] -> (forall p cp, In p (c_par c) -> nth_error h p = Some cp -> forall y, value h w p y -> env (c_name cp) = y) -> value h w j x -> eval (c_sym c) env = x.
Proof.
  intros E Q P H V. unfold equation in Q.
  destruct V as [j d E' K|j d r E' K|j d s m a y E' K V|j d f a y z E' K V U|j d o a1 a2 y1 y2 z E' K V1 V2 B]; rewrite E in E'; injection E' as <-; rewrite K in Q.
  - tauto.
  - tauto.
  - destruct Q as (PA & c' & G & S). rewrite S. rewrite (H a c') with (y := y); auto. rewrite PA. cbn. auto.
  - destruct Q as (PA & c' & G & S). apply S. rewrite (H a c') with (y := y); auto. rewrite PA. cbn. auto.
  - destruct Q as (PA & c1 & c2 & G1 & G2 & S). apply S. rewrite (H a1 c1) with (y := y1), (H a2 c2) with (y := y2); auto; rewrite PA; cbn; auto.
Qed.
Lemma par_args h c : equation h c -> c_par c <> [] -> c_par c = args (c_kind c).
Proof. unfold equation. destruct (c_kind c); cbn; tauto. Qed.
Lemma value_arg h w j c x p : nth_error h j = Some c -> In p (args (c_kind c)) -> value h w j x -> exists y, value h w p y.
Proof.
  intros E P V. destruct V as [j d E' K|j d r E' K|j d s m a y E' K V|j d f a y z E' K V U|j d o a1 a2 y1 y2 z E' K V1 V2 B]; rewrite E in E'; injection E' as <-; rewrite K in P; cbn in P.
  - destruct P.
  - destruct P.
  - destruct P as [<-|[]]; eauto.
  - destruct P as [<-|[]]; eauto.
  - destruct P as [<-|[<-|[]]]; eauto.
Qed.
Lemma init_sol (h : heap) rvs M w env : wf_heap h -> named h -> (forall i, In i rvs -> exists c, nth_error h i = Some c /\ c_par c <> []) ->
  (forall v e, In (v, e) (m_eqs M) <-> exists j c, involved h rvs j c /\ c_par c <> [] /\ v = c_name c /\ e = c_sym c) ->
  (forall i, In i rvs -> exists x, value h w i x) ->
  (forall j c, involved h rvs j c -> c_par c = [] -> value h w j (env (c_name c))) ->
  (sol (m_eqs M) env <-> forall j c, involved h rvs j c -> value h w j (env (c_name c))).
Proof.
  intros W (INJ & EQ) RV HE DV FV.
  assert (VI : forall j c, involved h rvs j c -> exists x, value h w j x).
  { intros j c (E & i & I & R). destruct (DV i I) as (x0 & V0). clear I. revert x0 V0. clear -EQ R. induction R as [i|i d p j E P R IH]; eauto. intros x V. destruct (EQ i d E) as (Q & _).
    rewrite (par_args h d Q) in P by (intros F; rewrite F in P; destruct P). destruct (value_arg h w i d x p E P V) as (y & Vy). eauto. }
  split.
  - intros S. assert (X : forall n j c, (j < n)%nat -> involved h rvs j c -> value h w j (env (c_name c))).
    { induction n as [|n IH]; intros j c L I; [lia|]. destruct (c_par c) as [|p0 ps] eqn:P; [auto|]. assert (PN : c_par c <> []) by congruence.
      destruct (VI j c I) as (x & V). destruct I as (E & i & Ii & R). assert (SE : env (c_name c) = eval (c_sym c) env) by (apply S, HE; exists j, c; splits; auto; split; eauto).
      rewrite SE. destruct (EQ j c E) as (Q & _). rewrite (eq_value h w env c j x); auto. intros p cp PI PE y Vy. apply (value_det h w p) with (2 := Vy). apply IH; [assert (p < j)%nat by (apply (W j c E); auto); lia|]. split; auto. exists i. split; auto. eapply reach_trans; eauto. eapply reach_par; eauto. constructor. }
    intros j c I. eapply X; eauto.
  - intros H v e VE. apply HE in VE as (j & c & I & P & -> & ->). symmetry. destruct I as (E & i & Ii & R). destruct (EQ j c E) as (Q & _). apply (eq_value h w env c j); auto; [|apply H; split; eauto]. intros p cp PI PE y Vy. apply (value_det h w p) with (2 := Vy). apply H. split; auto. exists i. split; auto. eapply reach_trans; eauto. eapply reach_par; eauto. constructor.
Qed.
