(** Main lemmas (RV). *)
From Coq Require Import Reals Lra Lia List Bool Arith.
From Coquelicot Require Import Coquelicot.
From Verif Require Import Base ND NDSpec Models ModelsSpec RV RVSpec RVFacts RVFacts2 RVFacts3 RVFacts4 RVFacts5.
Import List ListNotations.
Open Scope R_scope.

(** C30: an operator between a variable and a number returns an object (or a number) whose value is the result of
    the arithmetic, for every value of the variable at which the arithmetic is defined. *)
Lemma number_operators_main :
  forall nonneg o left h X r h' v, wf_heap h -> num_op nonneg o left h X r = Ok (h', v) ->
  extends h h' /\ wf_heap h' /\ forall w x z, value h w X x -> arith o left x r z -> pvalue h' w v z.
Proof. intros. eapply num_op_ok; eauto. Qed.

(** C30: ... and it raises exactly on division by zero, on a non-special power of a variable that may be negative
    (or cannot tell), and on a power with a negative base. *)
Lemma number_operators_fail_main :
  forall nonneg o left h X r e, wf_heap h -> (X < length h)%nat -> num_op nonneg o left h X r = Err e <->
  (o = NDiv /\ left = true /\ r = 0 /\ e = EZeroDiv) \/
  (o = NPow /\ left = true /\ ~ (r = 0 \/ r = 1 \/ r = -1 \/ r = 2) /\ (is_nonneg nonneg h X = Err e \/ is_nonneg nonneg h X = Ok false /\ e = EValue)) \/
  (o = NPow /\ left = false /\ r < 0 /\ e = EValue).
Proof. intros. apply num_op_fails; auto. Qed.

(** C30: the same for two variables, for powers with a variable exponent, for min and max (also with numbers), for
    negation and for abs. *)
Lemma variable_operators_main :
  forall nonneg h h' v, wf_heap h ->
  (forall o X Y, bin_rv o h X Y = Ok (h', v) -> extends h h' /\ wf_heap h' /\ forall w x y z, value h w X x -> value h w Y y -> bin_is o x y z -> pvalue h' w v z) /\
  (forall X Y, pow_rv nonneg h X Y = Ok (h', v) -> extends h h' /\ wf_heap h' /\ forall w x y, value h w X x -> value h w Y y -> 0 < x -> pvalue h' w v (Rpower x y)) /\
  (forall o a b, minmax o h a b = Ok (h', v) -> extends h h' /\ wf_heap h' /\ forall w x y z, pvalue h w a x -> pvalue h w b y -> bin_is o x y z -> pvalue h' w v z) /\
  (forall X, neg_ h X = Ok (h', v) -> extends h h' /\ wf_heap h' /\ forall w x, value h w X x -> pvalue h' w v (- x)) /\
  (forall X, abs_ h X = Ok (h', v) -> extends h h' /\ wf_heap h' /\ forall w x, value h w X x -> pvalue h' w v (Rabs x)).
Proof.
  intros nonneg h h' v W. split; [|split; [|split; [|split]]].
  - intros o X Y E. eapply bin_rv_ok; eauto.
  - intros X Y E. eapply pow_rv_ok; eauto.
  - intros o a b E. eapply minmax_ok; eauto.
  - intros X E. eapply neg_ok; eauto.
  - intros X E. eapply abs_ok; eauto.
Qed.

(** C31: objects sampled one after another with one cache, nothing below them treated as independent: the results
    are the values of the objects on one joint sample of the base variables, each base variable that occurs being
    drawn exactly once. *)
Lemma shared_cache_main :
  forall draw h l k xs oc k', wf_heap h -> (forall i, In i l -> tracked h i) -> samples draw h l (Some []) k = Ok (xs, oc, k') ->
  exists w bs, Forall2 (value h w) l xs /\ NoDup bs /\ (forall j, In j bs <-> exists i, In i l /\ uses h i j) /\
  k' = (k + length bs)%nat /\ (forall n j, nth_error bs n = Some j -> w j = draw (k + n)%nat j).
Proof. intros. eapply shared_ok; eauto. Qed.

(** C31: a tracked object sampled without a cache makes one for itself. *)
Lemma own_cache_main :
  forall draw h i k x oc k', wf_heap h -> tracked h i -> sample draw h i None k = Ok (x, oc, k') ->
  oc = None /\ exists w bs, value h w i x /\ NoDup bs /\ (forall j, In j bs <-> uses h i j) /\
  k' = (k + length bs)%nat /\ (forall n j, nth_error bs n = Some j -> w j = draw (k + n)%nat j).
Proof.
  intros draw h i k x oc k' W T R. destruct (own_cache draw h i k x oc k' W T R) as (-> & oc' & R'). split; auto.
  destruct (shared_ok draw h [i] k [x] oc' k') as (w & bs & F & ND & B & K & D); auto.
  - intros j [<-|[]]. auto.
  - cbn [samples]. rewrite R'. reflexivity.
  - exists w, bs. splits; auto; [inversion F; auto|]. intros j. rewrite B. split; [intros (a & [<-|[]] & U); auto|intros U; exists i; cbn; auto].
Qed.

(** C31: sampling succeeds when no logarithm, inverse or quotient is involved. *)
Lemma sampling_succeeds_main :
  forall draw h l ca k, wf_heap h -> (forall i, In i l -> (i < length h)%nat /\ no_partial h i) -> exists t, samples draw h l ca k = Ok t.
Proof. intros draw h l ca k W. apply samples_total. auto. Qed.

(** C31: when everything below an object is treated as independent, every occurrence of a base variable is a draw
    of its own, and the cache is left alone. *)
Lemma independent_sample_main :
  forall draw h i ca k x oc k', (forall j c, under h i j -> nth_error h j = Some c -> c_indep c = true) -> sample draw h i ca k = Ok (x, oc, k') ->
  oc = ca /\ fresh draw h i k x k'.
Proof. intros. eapply rand_fresh; eauto. Qed.

(** C31: this is what the operators give: X - X, whatever the cache and however X itself is set, is the difference
    of two separate draws. *)
Lemma minus_self_draws_main :
  forall draw (h : heap) X c h' v ca k, nth_error h X = Some c -> c_kind c = KBase -> bin_rv OSub h X X = Ok (h', v) ->
  exists i, v = VRV i /\ sample draw h' i ca k = Ok (draw k X - draw (S k) X, ca, S (S k)).
Proof.
  intros draw h X c h' v ca k E K H. unfold bin_rv in H. rewrite (proj2 (get_ok h X c) E) in H. cbn [rbind] in H.
  assert (exists b, rv_of (new_bin h OSub X X b) = Ok (h', v)) as (b & H') by (destruct (c_distr c); eauto). clear H.
  apply rv_of_inv in H' as (i & N & ->). apply new_bin_inv in N as (c1 & c2 & G1 & G2 & -> & ->). eexists. split; [reflexivity|].
  match goal with |- context [h ++ [?x]] => set (d := x) end.
  assert (Q : forall n q, rand draw (S n) (h ++ [d]) X None q = Ok (draw q X, None, S q)).
  { intros n q. cbn [rand]. rewrite (proj2 (get_ok (h ++ [d]) X c) (ext_nth _ _ _ _ (add_ext h d) E)). cbn [rbind]. rewrite K. destruct (c_indep c); cbn; auto. }
  unfold sample. rewrite app_length, Nat.add_comm. cbn [length Nat.add]. remember (S (length h)) as n eqn:EN. cbn [rand].
  rewrite (proj2 (get_ok (h ++ [d]) (length h) d) (add_nth h d)). cbn [rbind c_indep d c_kind]. fold d. subst n. rewrite Q. cbn [rbind fst snd]. rewrite Q. reflexivity.
Qed.

(** C31: so X - X as the operators make it can be sampled as 1. *)
Lemma minus_self_refuted_main :
  exists draw h i x oc k', bin_rv OSub [Cell KBase [] true true (Some (Finite 0)) (Some (Finite 1)) None (EVar 0) 0] 0 0 = Ok (h, VRV i) /\
  sample draw h i None 0 = Ok (x, oc, k') /\ x <> 0 /\ forall w y, value h w i y -> y = 0.
Proof.
  eexists (fun k _ => match k with O => 1 | _ => 0 end), _, _, _, _, _. split; [reflexivity|]. split; [reflexivity|]. split; [cbn; lra|].
  intros w y V. inversion V as [j c E K|j c r E K|j c s m d x E K V0|j c f d x z E K V0 U|j c o d1 d2 x1 x2 z E K V1 V2 B]; subst; cbn in E; injection E as <-; cbn in K; try discriminate K. injection K as <- <- <-. rewrite (value_det _ _ _ _ V1 _ V2) in B. inversion B; subst. ring.
Qed.

(** C32: the reported ancestors are exactly the objects reachable through parents, each once. *)
Lemma ancestors_main :
  forall h i, wf_heap h -> (i < length h)%nat -> exists s, getAncestorIDs h i = Ok s /\ NoDup s /\ forall j, In j s <-> reach h i j.
Proof. apply anc_ok. Qed.

(** C32: the dependence warning is given exactly when two of the parents (at different places) have a common
    ancestor. *)
Lemma dependence_warning_main :
  forall h ps, wf_heap h -> (forall p, In p ps -> (p < length h)%nat) ->
  exists b, warns h [] ps = Ok b /\ (b = true <-> exists l1 p l2 q l3 j, ps = l1 ++ p :: l2 ++ q :: l3 /\ reach h p j /\ reach h q j).
Proof.
  intros h ps W L. destruct (warns_ok h W ps [] L) as (b & -> & B). exists b. split; auto. rewrite B. split.
  - intros [(p & j & _ & [] & _)|(l1 & p & l2 & q & l3 & -> & j & R1 & R2)]. exists l1, p, l2, q, l3, j. auto.
  - intros (l1 & p & l2 & q & l3 & j & -> & R1 & R2). right. exists l1, p, l2, q, l3. split; auto. exists j. auto.
Qed.

(** C32: free and dependent ancestors are those without and with parents; getParentsAll leaves out the free ones. *)
Lemma parents_main :
  forall (h : heap) i c, wf_heap h -> nth_error h i = Some c ->
  (exists s, getParentsFree h i = Ok s /\ forall j, In j s <-> reach h i j /\ exists c, nth_error h j = Some c /\ c_par c = []) /\
  (exists s, getParentsDep h i = Ok s /\ forall j, In j s <-> reach h i j /\ exists c, nth_error h j = Some c /\ c_par c <> []) /\
  (exists s, getParentsAll h i = Ok s /\ forall j, In j s <-> j = i \/ reach h i j /\ exists c, nth_error h j = Some c /\ c_par c <> []).
Proof.
  intros h i c W E. pose proof (nth_lt _ _ _ E) as L. split; [|split].
  - apply par_free_ok; auto; lia.
  - apply par_dep_ok; auto; lia.
  - eapply par_all_ok; eauto.
Qed.

(** C33: in a heap made with the constructors, an expression of sums, products, shifts of variables with plain
    ranges and quotients by variables of one sign takes values inside its reported range only, whenever the base
    variables are inside theirs. *)
Lemma ranges_contain_main :
  forall h w, built h -> (forall j c, nth_error h j = Some c -> c_kind c = KBase -> in_range (range_of c) (w j)) ->
  forall i c x, ranged h i -> nth_error h i = Some c -> value h w i x -> in_range (range_of c) x.
Proof. intros h w B BI i c x R. eapply ranged_ok; eauto. Qed.

(** a base variable on [a, b], with or without a range() of its own *)
Definition on (a b : Rbar) (own : bool) (n : nat) : cell :=
  if own then Cell KBase [] true true (Some (Finite 0)) (Some (Finite 1)) (Some (Some a, Some b)) (EVar n) n
  else Cell KBase [] true true (Some a) (Some b) None (EVar n) n.
Lemma on_kind a b own n : c_kind (on a b own n) = KBase.
Proof. destruct own; auto. Qed.
Lemma on_range a b own n : range_of (on a b own n) = (Some a, Some b).
Proof. destruct own; auto. Qed.

(** C33: the range of a difference subtracts low from low and high from high: X - Y for X, Y on [0, 1] is reported
    on [0, 0]. *)
Lemma sub_range_refuted_main :
  exists h w i c x, built h /\ (forall j c, nth_error h j = Some c -> c_kind c = KBase -> in_range (range_of c) (w j)) /\
  nth_error h i = Some c /\ c_kind c = KBin OSub 0 1 /\ value h w i x /\ ~ in_range (range_of c) x.
Proof.
  set (h0 := ([] ++ [on 0 1 false 0]) ++ [on 0 1 false 1]). destruct (new_bin h0 OSub 0 1 true) as [[h i]|] eqn:N; [|discriminate].
  assert (B0 : built h0) by (repeat (apply built_base; [|reflexivity]); constructor). pose proof (built_bin _ _ _ _ _ _ _ B0 N) as B. injection N as <- <-.
  eexists _, (fun j => match j with O => 1 | _ => 0 end), 2%nat, _, (1 - 0). split; [exact B|]. split; [|split; [reflexivity|split; [reflexivity|split]]].
  - intros [|[|[|[|j]]]] c E K; cbn in E; try discriminate E; injection E as <-; try discriminate K; cbn; lra.
  - eapply val_bin; [reflexivity|reflexivity| | |apply bin_sub]; [eapply (val_base _ (fun j => match j with O => 1 | _ => 0 end) 0%nat)|eapply (val_base _ (fun j => match j with O => 1 | _ => 0 end) 1%nat)]; reflexivity.
  - cbn. lra.
Qed.

(** C33: the range of a shifted variable is computed from the attributes a and b, which stay 0 and 1 for classes
    that only override range(). *)
Lemma shift_range_refuted_main :
  exists h w i c x, built h /\ (forall j c, nth_error h j = Some c -> c_kind c = KBase -> in_range (range_of c) (w j)) /\
  nth_error h i = Some c /\ c_kind c = KShift 1 1 0 /\ value h w i x /\ ~ in_range (range_of c) x.
Proof.
  set (h0 := [] ++ [on m_infty p_infty true 0]). unfold h0. destruct (new_shift h0 0 1 1) as [[h i]|] eqn:N.
  2: { exfalso. unfold new_shift in N. cbn [get h0 nth_error rbind app] in N. destruct (reqP 1 0); [lra|discriminate]. }
  assert (B0 : built h0) by (apply built_base; [constructor|reflexivity]). pose proof (built_shift _ _ _ _ _ _ B0 N) as B. apply new_shift_inv in N as (c & G & M & -> & ->). injection G as <-.
  eexists _, (fun j => 3), 1%nat, _, (1 * 3 + 1). split; [exact B|]. split; [|split; [reflexivity|split; [reflexivity|split]]].
  - intros [|[|[|j]]] c E K; cbn in E; try discriminate E; injection E as <-; try discriminate K; cbn; auto.
  - eapply val_shift; [reflexivity|reflexivity|]. eapply (val_base _ (fun _ => 3) 0%nat); reflexivity.
  - unfold range_of. cbn [c_range c_a c_b]. unfold shift_range. cbn [c_a c_b on lift2 xmul xadd Rbar_plus Rbar_plus' Rbar_mult Rbar_mult'].
    cbn [xmin xmax]. destruct (bltP (1 * 1 + 1) (0 * 1 + 1)) as [F|F], (bltP (0 * 1 + 1) (1 * 1 + 1)) as [F'|F']; cbn in *; lra.
Qed.

(** C33: functions of variables (here exp), like minima and maxima, keep the default range [0, 1]. *)
Lemma function_range_refuted_main :
  exists h w i c x, built h /\ (forall j c, nth_error h j = Some c -> c_kind c = KBase -> in_range (range_of c) (w j)) /\
  nth_error h i = Some c /\ c_kind c = KUn UExp 0 /\ value h w i x /\ ~ in_range (range_of c) x.
Proof.
  set (h0 := [] ++ [on 0 1 false 0]). destruct (new_un h0 UExp 0) as [[h i]|] eqn:N; [|discriminate].
  assert (B0 : built h0) by (apply built_base; [constructor|reflexivity]). pose proof (built_un _ _ _ _ _ B0 N) as B. injection N as <- <-.
  eexists _, (fun j => 1), 1%nat, _, (exp 1). split; [exact B|]. split; [|split; [reflexivity|split; [reflexivity|split]]].
  - intros [|[|[|j]]] c E K; cbn in E; try discriminate E; injection E as <-; try discriminate K; cbn; lra.
  - eapply val_un; [reflexivity|reflexivity| |apply un_exp]. eapply (val_base _ (fun _ => 1) 0%nat); reflexivity.
  - cbn. pose proof (exp_ineq1 1 ltac:(lra)). lra.
Qed.

(** C33: the range of a quotient by a variable that takes both signs leaves out large negative values: 1..2 divided by -1..1. *)
Lemma div_range_refuted_main :
  exists h w i c x, built h /\ (forall j c, nth_error h j = Some c -> c_kind c = KBase -> in_range (range_of c) (w j)) /\
  nth_error h i = Some c /\ c_kind c = KBin ODiv 0 1 /\ value h w i x /\ ~ in_range (range_of c) x.
Proof.
  set (h0 := ([] ++ [on 1 2 false 0]) ++ [on (Ropp 1) 1 false 1]). destruct (new_bin h0 ODiv 0 1 true) as [[h i]|] eqn:N; [|discriminate].
  assert (B0 : built h0) by (repeat (apply built_base; [|reflexivity]); constructor). pose proof (built_bin _ _ _ _ _ _ _ B0 N) as B. apply new_bin_inv in N as (c1 & c2 & G1 & G2 & -> & ->). injection G1 as <-. injection G2 as <-.
  eexists _, (fun j => match j with O => 1 | _ => - / 8 end), 2%nat, _, (1 / (- / 8)). split; [exact B|]. split; [|split; [reflexivity|split; [reflexivity|split]]].
  - intros [|[|[|[|j]]]] c E K; cbn in E; try discriminate E; injection E as <-; try discriminate K; cbn; lra.
  - eapply val_bin; [reflexivity|reflexivity| | |apply bin_div; lra]; [eapply (val_base _ (fun j => match j with O => 1 | _ => - / 8 end) 0%nat)|eapply (val_base _ (fun j => match j with O => 1 | _ => - / 8 end) 1%nat)]; reflexivity.
  - intros IR. set (L := known (outer_of xdiv (with_zero (Some (Finite 1), Some (Finite 2))) (with_zero (Some (Finite (Ropp 1)), Some (Finite 1))))).
    assert (EL : forall p, In p L -> Rbar_lt (Finite (-3)) p).
    { assert (I1 : / Ropp 1 = Ropp 1) by field. assert (I2 : / 1 = 1) by field. intros p P. apply known_In, outer_In in P as (x & y & X & Y & D).
      apply with_zero_In in X as [X|[X|(X & a & b & E & q & Q & QN)]]; [| |exfalso; injection E as <- <-; cbn in Q; injection Q as <-; cbn in QN; lra];
      injection X as ->;
      (apply with_zero_In in Y as [Y|[Y|(-> & _)]]; [injection Y as ->|injection Y as ->|]); unfold xdiv in D;
      match type of D with context [req ?u 0] => destruct (reqP u 0) as [Z|Z]; try lra end; cbn [xmul] in D; rewrite ?I1, ?I2 in D;
      try (injection D as <-; cbn; lra);
      match type of D with context [blt (Finite 0) ?u] => destruct (bltP (Finite 0) u) as [Z'|Z']; [injection D as <-; cbn; auto|exfalso; cbn in Z'; lra] end. }
    change (in_range (least_of L, most_of L) (1 / - / 8)) in IR. unfold in_range in IR. destruct (least_of L) as [p|] eqn:LP; [|auto]. destruct (most_of L) as [q|]; [|auto]. destruct IR as (LE & _).
    assert (PI : In p L). { clear -LP. destruct L as [|a l]; [discriminate|]. cbn [least_of] in LP. injection LP as <-. assert (X : forall l a, In (fold_left (fun m y => if blt y m then y else m) l a) (a :: l)). { induction l0 as [|b l0 IH]; intros a0; cbn [fold_left]; [cbn; auto|]. destruct (IH (if blt b a0 then b else a0)) as [H|H]; [rewrite <- H; destruct (blt b a0); cbn; auto|cbn; auto]. } apply X. }
    specialize (EL p PI). replace (1 / - / 8) with (-8) in LE by field. destruct p as [p| |]; cbn in *; lra.
Qed.

(** C48: a model built from variables that have parents, out of objects with names and equations of their own, when
    the density is over their free ancestors: it is in order, its equations are those of the given variables and
    all their dependent ancestors ... *)
Lemma model_from_variables_main :
  forall lo hi (h : heap) fac rvs, wf_heap h -> named h -> (forall i, In i rvs -> exists c, nth_error h i = Some c /\ c_par c <> []) -> Forall (wf_f lo hi) fac ->
  (forall j c, involved h rvs j c -> (occurs (c_name c) fac <-> c_par c = [])) ->
  exists M, model_init h fac rvs = Ok M /\ wf_model lo hi M /\ m_dens M = fac /\ (forall v, In v (m_free M) <-> occurs v fac) /\
  (forall v, In v (m_dep M) <-> exists j c, involved h rvs j c /\ c_par c <> [] /\ v = c_name c) /\
  (forall w env, (forall i, In i rvs -> exists x, value h w i x) -> (forall j c, involved h rvs j c -> c_par c = [] -> value h w j (env (c_name c))) ->
     (sol (m_eqs M) env <-> forall j c, involved h rvs j c -> value h w j (env (c_name c)))).
Proof.
  intros lo hi h fac rvs W N RV FW OC. destruct (init_ok lo hi h fac rvs W N RV FW OC) as (M & E & A & B & C & D & F). exists M. split; auto. split; auto. split; auto. split; auto. split; auto.
  intros w env V FV. eapply init_sol; eauto.
Qed.

(** C48: ... which holds for everything made with the constructors from parentless base variables with default names. *)
Lemma built_objects_main :
  forall h, built h -> (forall i c, nth_error h i = Some c -> c_kind c = KBase -> c_par c = [] /\ c_name c = i) -> wf_heap h /\ named h.
Proof. intros h B D. split; [apply built_wf|apply built_named]; auto. Qed.

(** C48: a free variable among the given ones becomes both free and dependent. *)
Lemma model_free_given_refuted_main :
  exists h lo hi F M v, built h /\ wf_f lo hi (FDens F) /\ model_init h [FDens F] [0%nat] = Ok M /\ In v (m_free M) /\ In v (m_dep M).
Proof.
  exists ([] ++ [on 0 1 false 0]), (fun _ => 0), (fun _ => 1), (NDF [0%nat] [0] [1] false (fun _ => 1)).
  eexists _, 0%nat. split; [apply built_base; [constructor|reflexivity]|]. split; [|split; [reflexivity|]].
  - unfold wf_f, wf_nd. cbn [nd_vars nd_a nd_b map]. split; [repeat constructor; intros []|]. split; [discriminate|]. auto.
  - cbn. auto.
Qed.
