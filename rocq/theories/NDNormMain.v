(** The multivariate normal distribution: the main lemmas. *)
From Coq Require Import Reals List Arith Bool Lra Lia.
From Coquelicot Require Import Coquelicot.
From Verif Require Import Base Interp ND NDSpec QuadFacts RMx RMxFacts Std NDNorm NDNormSpec NDNormFacts NDNormFacts2 NDNormFacts3 NDNormFacts4.
Import List ListNotations.
Open Scope R_scope.

(** A symmetric positive definite covariance matrix of any size is accepted, and the density is that of the textbooks. *)
Lemma nd_textbook_main : forall vars mu Sigma, normal_params vars mu Sigma ->
  exists g, normal_nd vars mu Sigma = Ok g /\
  forall L, inverse_of (length mu) (entry Sigma) L -> forall X, length X = length mu ->
    ndn_pdf g X = gauss_density (length mu) (fun i => nth i mu 0) (entry Sigma) L (fun i => nth i X 0).
Proof.
  intros vars mu Sg NP. exists (made vars mu Sg). split. apply normal_nd_ok; auto.
  intros L IL X HX. rewrite pdf_made by auto. unfold gdens, gauss_density. rewrite mdet_scale.
  destruct (minv_unique (length mu) (entry Sg) L) as [_ U]. intros; apply IL; auto.
  rewrite (quad_ext _ _ L _ (fun i => nth i X 0 - nth i mu 0)) by auto. rewrite (Rmult_comm (mdet _ _)). unfold Rdiv. ring.
Qed.
(** Calls with arrays agree with calls with scalars. *)
Lemma nd_scalar_array_main : forall vars mu Sigma g columns, normal_nd vars mu Sigma = Ok g -> length columns = length mu ->
  ndn_pdf_array g columns = map (ndn_pdf g) (points (length (nth 0 columns [])) columns).
Proof. intros vars mu Sg g columns H L. apply normal_nd_made in H. destruct H as [-> _]. apply pdf_array_eq; auto. Qed.
(** eliminate gives the marginal: the density of the other variables is the iterated integral over the whole line. *)
Lemma nd_marginal_main : forall vars mu Sigma g vs, normal_params vars mu Sigma -> normal_nd vars mu Sigma = Ok g -> NoDup vs -> incl vs vars ->
  exists r, ndn_elim g vs = Ok r /\ vars_of r = filter (fun v => negb (existsb (Nat.eqb v) vs)) vars /\
    integrated vs (at_env (NDist g)) (at_env r).
Proof.
  intros vars mu Sg g vs NP H N I. apply normal_nd_made in H. destruct H as [-> _].
  destruct (elim_exact vars mu Sg vs NP N I) as (r & E & V & Int & _). eauto.
Qed.
(** The density integrates to one. *)
Lemma nd_mass_main : forall vars mu Sigma g, normal_params vars mu Sigma -> normal_nd vars mu Sigma = Ok g ->
  integrated vars (at_env (NDist g)) (fun _ => 1).
Proof.
  intros vars mu Sg g NP H. apply normal_nd_made in H. destruct H as [-> _].
  destruct (elim_exact vars mu Sg vars NP) as (r & E & V & Int & _). apply NP. intros v; auto.
  assert (Z : filter (notin vars) vars = []).
  { clear. assert (G : forall l, incl l vars -> filter (notin vars) l = []). { induction l; intros I; auto. simpl. destruct (notin vars a) eqn:E.
      apply notin_iff in E. exfalso. apply E, I; simpl; auto. apply IHl. intros x Hx; apply I; simpl; auto. } apply G. intros x; auto. }
  assert (R0' : forall env, at_env r env = 1). { intros env. destruct r as [|h]; auto. unfold vars_of in V. change (g_vars h = filter (notin vars) vars) in V. rewrite Z in V.
    destruct NP as (N & L & _). unfold ndn_elim in E. apply rbind_ok in E. destruct E as (idx & E1 & E). cbv zeta in E.
    destruct (pick 0 (g_mu (made vars mu Sg)) (others (length (g_mu (made vars mu Sg))) idx)) eqn:Ep; [discriminate|]. exfalso.
    apply rbind_ok in E. destruct E as (h' & E & E'). injection E' as ->. apply normal_nd_made in E. destruct E as [-> _]. cbn [made g_vars] in V.
    apply (f_equal (@length R)) in Ep. apply (f_equal (@length nat)) in V. unfold made at 1 in V. cbn [g_vars] in V. rewrite pick_length in V. rewrite pick_length in Ep. change (g_mu (made vars mu Sg)) with mu in *. cbn [g_mu] in V. rewrite Ep in V. discriminate. }
  eapply integrated_ext; [exact Int|exact R0'].
Qed.
(** The marginal of one variable is the normal density with that mean and variance. *)
Lemma nd_marginal_one_main : forall vars mu Sigma g i vs, normal_params vars mu Sigma -> normal_nd vars mu Sigma = Ok g -> (i < length mu)%nat ->
  NoDup vs -> (forall v, In v vs <-> In v vars /\ v <> nth i vars O) ->
  exists h, ndn_elim g vs = Ok (NDist h) /\ integrated vs (at_env (NDist g)) (at_env (NDist h)) /\
    forall env, at_env (NDist h) env = normal_pdf (nth i mu 0) (sqrt (entry Sigma i i)) (env (nth i vars O)).
Proof. intros vars mu Sg g i vs NP H Hi N Hv. apply normal_nd_made in H. destruct H as [-> _]. apply marginal_one; auto. Qed.
(** Eliminating in two steps is eliminating in one. *)
Lemma nd_elim_twice_main : forall vars mu Sigma g g1 vs1 vs2, normal_params vars mu Sigma -> normal_nd vars mu Sigma = Ok g ->
  NoDup (vs1 ++ vs2) -> incl (vs1 ++ vs2) vars -> ndn_elim g vs1 = Ok (NDist g1) ->
  exists r1 r2, ndn_elim g1 vs2 = Ok r1 /\ ndn_elim g (vs1 ++ vs2) = Ok r2 /\ vars_of r1 = vars_of r2 /\ forall env, at_env r1 env = at_env r2 env.
Proof.
  intros vars mu Sg g g1 vs1 vs2 NP H N I E1. apply normal_nd_made in H. destruct H as [-> _].
  destruct (elim_exact vars mu Sg vs1 NP) as (r & E & V & Int & Ex).
  { clear -N. induction vs1; simpl in N; constructor; inversion N; subst; auto. intros X; apply H1, in_or_app; auto. } { intros v Hv. apply I, in_or_app; auto. }
  rewrite E in E1. injection E1 as ->. destruct (Ex g1 eq_refl) as (mu' & Sg' & Eg & NP' & _). simpl in V.
  assert (N2 : NoDup vs2) by (clear -N; induction vs1; simpl in N; auto; inversion N; auto).
  assert (I2 : incl vs2 (g_vars g1)).
  { intros v Hv. rewrite V. apply filter_In. split. apply I, in_or_app; auto. apply (notin_iff vs1). intros Hv1.
    clear -N Hv Hv1. induction vs1; simpl in *; [tauto|]. inversion N; subst. destruct Hv1 as [->|Hv1]; auto. apply H1, in_or_app; auto. }
  destruct (elim_exact (g_vars g1) mu' Sg' vs2 NP' N2 I2) as (r1 & F1 & V1 & Int1 & _).
  destruct (elim_exact vars mu Sg (vs1 ++ vs2) NP N I) as (r2 & F2 & V2 & Int2 & _).
  rewrite <- Eg in F1, Int1. exists r1, r2. splits; auto.
  - rewrite V1, V2, V. clear. rewrite <- (filter_ext (fun v => (notin vs1 v && notin vs2 v)%bool) (notin (vs1 ++ vs2))).
    + induction vars; simpl; auto. unfold notin at 1. destruct (existsb _ vs1) eqn:E; simpl; auto. unfold notin. destruct (existsb _ vs2) eqn:E2; simpl; auto. rewrite IHvars. auto. f_equal; auto.
    + intros v. unfold notin. rewrite existsb_app, negb_orb. reflexivity.
  - assert (App : forall vs vs' F G K, integrated vs F G -> integrated vs' G K -> integrated (vs ++ vs') F K).
    { clear. induction vs; intros vs' F G K A B. inversion A; subst. simpl. eapply integrated_ext_l; eauto. inversion A; subst. simpl. econstructor; eauto. }
    apply (integrated_unique _ _ _ _ _ (fun _ => eq_refl) (App _ _ _ _ _ Int Int1) Int2).
Qed.
(** Without correlations the density is the product of the densities of the coordinates. *)
Lemma nd_diagonal_main : forall vars mu Sigma g X, normal_nd vars mu Sigma = Ok g -> length X = length mu ->
  (forall i j, (i < length mu)%nat -> (j < length mu)%nat -> i <> j -> entry Sigma i j = 0) -> (forall i, (i < length mu)%nat -> 0 < entry Sigma i i) ->
  ndn_pdf g X = fold_right Rmult 1 (map (fun i => normal_pdf (nth i mu 0) (sqrt (entry Sigma i i)) (nth i X 0)) (seq 0 (length mu))).
Proof.
  intros vars mu Sg g X H L Z P. apply normal_nd_made in H. destruct H as [-> _]. rewrite pdf_made by auto. rewrite (proj1 (gdens_diag _ _ _ Z P)).
  f_equal. apply map_ext. intros i. apply normal_pdf_shift.
Qed.
(** With two variables condition gives the conditional density: it integrates to one, and times the marginal it is the joint density. *)
Lemma nd_cond_two_main : forall vars mu Sigma g v w x, normal_params vars mu Sigma -> normal_nd vars mu Sigma = Ok g -> length mu = 2%nat ->
  In v vars -> In w vars -> v <> w ->
  exists h, ndn_cond g [v] [x] = Ok (NDist h) /\ g_vars h = [w] /\ integrated [w] (at_env (NDist h)) (fun _ => 1) /\
    forall marg, integrated [w] (at_env (NDist g)) marg ->
      forall env, env v = x -> at_env (NDist h) env * marg env = at_env (NDist g) env.
Proof. intros vars mu Sg g v w x NP H L Iv Iw N. apply normal_nd_made in H. destruct H as [-> _]. apply cond_two; auto. Qed.
(** With three or more variables condition always fails, whatever is given, unless nothing is left. *)
Lemma nd_cond_more_refuted_main : forall vars mu Sigma g vs X, normal_params vars mu Sigma -> normal_nd vars mu Sigma = Ok g -> (3 <= length mu)%nat ->
  (exists v, In v vars /\ ~ In v vs) -> exists e, ndn_cond g vs X = Err e.
Proof.
  intros vars mu Sg g vs X NP H L Ex. apply normal_nd_made in H. destruct H as [-> _]. apply cond_fails; auto.
  intros idx E. apply others_left with vars vs; auto; apply NP.
Qed.
(** The variables made by default are not the marginals unless the variance is one. *)
Lemma nd_default_refuted_main : forall vars mu Sigma i, normal_params vars mu Sigma -> (i < length mu)%nat ->
  ((forall x, default_pdf mu Sigma i x = normal_pdf (nth i mu 0) (sqrt (entry Sigma i i)) x) <-> entry Sigma i i = 1).
Proof.
  intros vars mu Sg i (_ & _ & _ & _ & P) Hi. apply default_iff.
  pose proof (proj2 P (fun j => delta j i)) as H. assert (0 < quad (length mu) (entry Sg) (fun j => delta j i)).
  { apply H. exists i. rewrite delta_eq. split; [auto|lra]. }
  replace (quad (length mu) (entry Sg) (fun j => delta j i)) with (entry Sg i i) in H0; auto.
  unfold quad. rewrite (bsum_one _ i); auto. rewrite (bsum_one _ i); auto. rewrite delta_eq; ring.
  intros; rewrite (delta_ne i0 i) by auto; ring. intros; apply bsum_zero; intros. rewrite (delta_ne i0 i) by auto. ring.
Qed.
(** The object as a function is the density inside the box of five units around the mean and zero outside, where the density is
    positive. *)
Lemma nd_box_refuted_main : forall vars mu Sigma g X, normal_params vars mu Sigma -> normal_nd vars mu Sigma = Ok g -> length X = length mu ->
  0 < ndn_pdf g X /\
  ((forall i, (i < length mu)%nat -> Rabs (nth i X 0 - nth i mu 0) <= 5) -> nd_point (ndn_fun g) X = ndn_pdf g X) /\
  ((exists i, (i < length mu)%nat /\ 5 < Rabs (nth i X 0 - nth i mu 0)) -> nd_point (ndn_fun g) X = 0).
Proof. intros vars mu Sg g X NP H L. apply normal_nd_made in H. destruct H as [-> _]. apply box_call; auto. Qed.
