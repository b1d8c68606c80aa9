(** Proofs: conditioning of products. *)
From Coq Require Import Reals Lra Lia List Bool Arith Sorted Permutation.
From Verif Require Import Base ND NDSpec NDFacts NDFacts2.
Import List ListNotations.
Open Scope R_scope.

Section Cond.
Variable integ : (R -> R) -> R -> R -> R.
Variable lo hi : nat -> R.
Hypothesis HI : homogeneous integ.
Notation IA := (integ_all integ lo hi).
Notation wf := (wf_f lo hi).

Lemma bad_coord (env : nat -> R) l : forallb (fun v => in_rng (env v) (lo v) (hi v)) l = false -> exists w, In w l /\ in_rng (env w) (lo w) (hi w) = false.
Proof. induction l as [|u l IH]; cbn [forallb]; [discriminate|]. destruct (in_rng (env u) (lo u) (hi u)) eqn:E; [intros H; destruct (IH H) as (w & A & B); exists w; simpl; auto|intros _; exists u; simpl; auto]. Qed.
Lemma fac_cond_ok g v x : wf g -> In v (f_vars g) -> lo v <= x <= hi v ->
  exists g' D, fac_cond lo hi g [v] [x] = Ok g' /\ wf g' /\ (srt g -> srt g') /\ (forall env, f_val g (upd env v x) = D * f_val g' env) /\ (forall w, In w (f_vars g') <-> In w (f_vars g) /\ w <> v).
Proof.
  intros W V X. destruct g as [F|c|]; try destruct V. cbn [f_vars] in V. destruct (position_in v _ V) as (i & P). cbn [fac_cond positions]. rewrite P. cbn [rbind hd].
  rewrite (proj2 (rle_true (lo v) x)) by lra. rewrite (proj2 (rle_true x (hi v))) by lra. cbn [andb]. pose proof W as (N & NE & _). destruct (position_some _ _ _ P) as [I E]. destruct (Nat.eqb_spec (length (nd_vars F)) 1) as [L|L].
  - assert (EV : nd_vars F = [v]) by (destruct (nd_vars F) as [|u [|]]; simpl in L; try lia; f_equal; destruct i; simpl in *; auto; lia).
    exists FOne, (nd_point F [x]). parts; auto.
    + exact Logic.I.
    + intros _. constructor.
    + intros env. cbn [f_val]. rewrite EV. cbn [map]. unfold upd. rewrite Nat.eqb_refl. ring.
    + intros w. cbn [f_vars]. rewrite EV. simpl. intuition.
  - eexists _, 1. split; [reflexivity|]. parts.
    + unfold wf_f, wf_nd, interpolated. cbn [nd_vars nd_a nd_b]. parts; auto; [apply drop_nodup; auto|apply drop_nil; auto].
    + intros S. unfold srt in *. cbn [f_vars interpolated nd_vars]. apply drop_sorted. auto.
    + intros env. cbn [f_val interpolated nd_vars]. rewrite Rmult_1_l. unfold nd_point at 2, interpolated, post. cbn [nd_a nd_b nd_abs nd_f]. rewrite inside_map. destruct (forallb _ _) eqn:FB.
      * rewrite (map_upd_in env v x _ i) by auto. auto.
      * apply bad_coord in FB as (w & W1 & W2). apply (drop_in_iff i (nd_vars F) v N P) in W1 as [W1 W3]. apply (point_out lo hi F _ w); auto. unfold upd. destruct (Nat.eqb_spec w v); [congruence|auto].
    + intros w. cbn [f_vars interpolated nd_vars]. apply drop_in_iff; auto.
Qed.
Lemma map_fac_ok v x : lo v <= x <= hi v -> forall el, Forall wf el -> Forall (fun g => In v (f_vars g)) el ->
  exists new D, map_fac (fun g => fac_cond lo hi g [v] [x]) el = Ok new /\ Forall wf new /\ (Forall srt el -> Forall srt new) /\ (forall env, prod_val el (upd env v x) = D * prod_val new env) /\
    (forall w, In w (prod_vars new) <-> In w (prod_vars el) /\ w <> v).
Proof.
  intros X. induction el as [|g el IH]; intros W V; cbn [map_fac].
  - exists [], 1. parts; auto; [intros; rewrite !prod_val_nil; ring|]. intros w. simpl. tauto.
  - inversion W; inversion V; subst. destruct (fac_cond_ok g v x H1 H5 X) as (g' & D & -> & A1 & A2 & A3 & A4). destruct (IH H2 H6) as (new & D' & -> & B1 & B2 & B3 & B4). cbn [rbind].
    exists (g' :: new), (D * D'). parts; auto.
    + intros S. inversion S; subst. auto.
    + intros env. rewrite !prod_val_cons, A3, B3. ring.
    + intros w. assert (K : forall h l, In w (prod_vars (h :: l)) <-> In w (f_vars h) \/ In w (prod_vars l)) by (intros h l; rewrite !prod_vars_In; split; [intros (k & [->|Hk] & Hw); eauto|intros [Hw|(k & Hk & Hw)]; [exists h; simpl; auto|exists k; simpl; auto]]).
      rewrite !K, A4, B4. tauto.
Qed.
Lemma as_constant_ok e : Forall wf e -> (forall w, ~ In w (prod_vars e)) -> exists c, as_constant e = Ok c /\ forall env, prod_val e env = c.
Proof.
  intros W V. assert (ND : forall F, ~ In (FDens F) e).
  { intros F H. rewrite Forall_forall in W. specialize (W _ H). destruct W as (_ & NE & _). destruct (nd_vars F) as [|w vs] eqn:E; [tauto|]. apply (V w). apply prod_vars_In. exists (FDens F). cbn [f_vars]. rewrite E. simpl. auto. }
  assert (FE : filter (fun g => match g with FDens _ => true | _ => false end) e = []).
  { clear W V. induction e as [|g e IH]; auto. destruct g as [F|c|]; [exfalso; apply (ND F); simpl; auto| |]; cbn [filter]; apply IH; intros F H; apply (ND F); simpl; auto. }
  unfold as_constant, optimize. rewrite FE. pose proof (opt_const e 1) as OC. rewrite FE in OC. set (c := fold_left _ e 1) in *. destruct (reqP c 1) as [E|E].
  - exists 1. split; auto. intros env. specialize (OC env). rewrite prod_val_nil, E in OC. lra.
  - exists c. split; auto. intros env. specialize (OC env). rewrite prod_val_nil in OC. lra.
Qed.
Lemma filter_sel v (x : R) fs : Forall (fun g => In v (f_vars g)) (filter (has_var v) fs).
Proof. apply Forall_forall. intros g G. apply filter_In in G as [_ G]. apply has_var_iff. auto. Qed.
Lemma map_fac_ext f f' l : (forall g, In g l -> f g = f' g) -> map_fac f l = map_fac f' l.
Proof. induction l as [|g l IH]; intros H; auto. cbn [map_fac]. rewrite H by (simpl; auto). rewrite IH by (intros; apply H; simpl; auto). auto. Qed.
Lemma prod_cond_ok fs v x : Forall wf fs -> Forall srt fs -> In v (prod_vars fs) -> lo v <= x <= hi v ->
  exists fs' l Z, prod_cond integ lo hi fs [v] [x] = Ok fs' /\ Permutation l (filter (fun w => negb (Nat.eqb w v)) (prod_vars fs)) /\ Forall wf fs' /\ Forall srt fs' /\
    (forall env, IA l (fun e => prod_val fs (upd e v x)) env = Z) /\
    (Z <> 0 -> forall env, prod_val fs' env = prod_val fs (upd env v x) / Z /\ IA l (prod_val fs') env = 1) /\
    (forall w, In w (prod_vars fs') <-> In w (prod_vars fs) /\ w <> v).
Proof.
  intros W S V X. unfold prod_cond. cbn [forallb]. replace (existsb (Nat.eqb v) (prod_vars fs)) with true by (symmetry; apply existsb_exists; exists v; split; auto; apply Nat.eqb_refl). cbn [andb negb].
  rewrite (filter_ext (fun g => existsb (fun v0 => has_var v0 g) [v]) (has_var v)) by (intros g; cbn [existsb]; apply orb_false_r).
  rewrite (filter_ext (fun g => negb (existsb (fun v0 => has_var v0 g) [v])) (fun g => negb (has_var v g))) by (intros g; cbn [existsb]; rewrite orb_false_r; auto).
  rewrite (map_fac_ext _ (fun g => fac_cond lo hi g [v] [x])) by (intros g G; apply filter_In in G as [_ G]; cbn [combine filter fst]; rewrite G; auto).
  destruct (map_fac_ok v x X (filter (has_var v) fs)) as (new & D & -> & A1 & A2 & A3 & A4); [apply Forall_filter; auto|apply (filter_sel v x)|]. cbn [rbind].
  set (kept := filter (fun g => negb (has_var v g)) fs). set (cfp := optimize (kept ++ new)).
  assert (CW : Forall wf cfp) by (apply opt_wf; apply Forall_app; split; auto; apply Forall_filter; auto).
  assert (CS : Forall srt cfp) by (apply opt_srt; apply Forall_app; split; [apply Forall_filter; auto|apply A2; apply Forall_filter; auto]).
  assert (CV : forall env, prod_val fs (upd env v x) = D * prod_val cfp env).
  { intros env. unfold cfp. rewrite optimize_val, prod_val_app, (prod_val_part (has_var v) fs), A3. unfold kept. rewrite (kept_const v fs env x). ring. }
  assert (CI : forall w, In w (prod_vars cfp) <-> In w (prod_vars fs) /\ w <> v).
  { intros w. unfold cfp. rewrite optimize_vars. rewrite !prod_vars_In. split.
    - intros (h & H & Hw). apply in_app_iff in H as [H|H].
      + apply filter_In in H as [H1 H2]. split; [eauto|]. intros ->. apply negb_true_iff, has_var_false in H2. auto.
      + assert (Y : In w (prod_vars new)) by (apply prod_vars_In; eauto). apply A4 in Y as [Y1 Y2]. split; auto. apply prod_vars_In in Y1 as (k & K1 & K2). apply filter_In in K1 as [K1 _]. eauto.
    - intros [(h & H & Hw) NV]. destruct (has_var v h) eqn:E.
      + assert (Y : In w (prod_vars new)) by (apply A4; split; auto; apply prod_vars_In; exists h; split; auto; apply filter_In; auto). apply prod_vars_In in Y as (k & K1 & K2). exists k. split; auto. apply in_app_iff. auto.
      + exists h. split; auto. apply in_app_iff. left. apply filter_In. rewrite E. auto. }
  destruct (prod_elim_n_ok integ lo hi HI (length (prod_vars cfp)) cfp (prod_vars cfp)) as (e & l & E1 & E2 & E3 & _ & E5 & E6); auto; [apply prod_vars_sorted|intros w Hw; auto|].
  unfold prod_elim. rewrite E1. cbn [rbind]. destruct (as_constant_ok e E3) as (c & -> & EC); [intros w Hw; apply E6 in Hw; tauto|]. cbn [rbind].
  assert (PF : Permutation (prod_vars cfp) (filter (fun w => negb (Nat.eqb w v)) (prod_vars fs))).
  { apply NoDup_Permutation; [apply sorted_nodup, prod_vars_sorted|apply NoDup_filter, sorted_nodup, prod_vars_sorted|]. intros w. rewrite CI, filter_In, negb_true_iff, Nat.eqb_neq. tauto. }
  eexists _, l, (D * c). split; [reflexivity|]. split; [rewrite E2; auto|]. split; [apply opt_wf, Forall_app; split; auto; repeat constructor|]. split; [apply opt_srt, Forall_app; split; auto; repeat constructor|].
  assert (ZC : forall env, IA l (prod_val cfp) env = c) by (intros env; rewrite <- E5; apply EC).
  split; [|split].
  - intros env. rewrite (IA_ext integ lo hi HI l _ (fun e => D * prod_val cfp e)) by auto. rewrite IA_scal by auto. rewrite ZC. auto.
  - intros NZ env. assert (c <> 0) by (intros ->; apply NZ; ring). assert (D <> 0) by (intros ->; apply NZ; ring). assert (RV : forall env, prod_val (optimize (cfp ++ [FConst (1 / (if req c 0 then 1 else c))])) env = / c * prod_val cfp env).
    { intros e'. rewrite optimize_val, prod_val_app, prod_val_cons, prod_val_nil. cbn [f_val]. rewrite (proj2 (req_false c 0)) by auto. field. auto. }
    split; [rewrite RV, CV; field; auto|]. rewrite (IA_ext integ lo hi HI l _ (fun e => / c * prod_val cfp e)) by auto. rewrite IA_scal, ZC by auto. field. auto.
  - intros w. rewrite optimize_vars, <- CI. rewrite !prod_vars_In. split.
    + intros (h & H & Hw). apply in_app_iff in H as [H|[<-|[]]]; [eauto|destruct Hw].
    + intros (h & H & Hw). exists h. split; auto. apply in_app_iff. auto.
Qed.
End Cond.

(** ** Order of integration *)
Lemma upd_swap env v w x y : v <> w -> forall u, upd (upd env v x) w y u = upd (upd env w y) v x u.
Proof. intros N u. unfold upd. destruct (Nat.eqb_spec u w), (Nat.eqb_spec u v); congruence. Qed.
Lemma I1_swap integ lo hi (g : (nat -> R) -> R) v w env : homogeneous integ -> fubini integ -> (forall e e', (forall u, e u = e' u) -> g e = g e') -> v <> w ->
  integ1 integ lo hi w (integ1 integ lo hi v g) env = integ1 integ lo hi v (integ1 integ lo hi w g) env.
Proof.
  intros H F G N. unfold integ1. rewrite F. apply H. intros x. apply H. intros y. apply G. intros u. symmetry. apply upd_swap. auto.
Qed.
Lemma I1_proper integ lo hi v (g : (nat -> R) -> R) : homogeneous integ -> (forall e e', (forall u, e u = e' u) -> g e = g e') -> forall e e', (forall u, e u = e' u) -> integ1 integ lo hi v g e = integ1 integ lo hi v g e'.
Proof. intros H G e e' E. apply H. intros x. apply G. intros u. unfold upd. destruct (Nat.eqb u v); auto. Qed.
Lemma IA_perm integ lo hi : homogeneous integ -> fubini integ -> forall l l', Permutation l l' -> NoDup l -> forall g, (forall e e', (forall u, e u = e' u) -> g e = g e') -> forall env, integ_all integ lo hi l g env = integ_all integ lo hi l' g env.
Proof.
  intros H F l l' P. induction P; intros N g G env.
  - auto.
  - inversion N; subst. cbn [integ_all]. apply IHP; auto. apply I1_proper; auto.
  - inversion N; subst. inversion H3; subst. cbn [integ_all]. apply (IA_ext integ lo hi H). intros e. apply I1_swap; auto. intros ->. apply H2. simpl. auto.
  - rewrite IHP1 by auto. apply IHP2; auto. eapply Permutation_NoDup; eauto.
Qed.
