(** Small dimensions, diagonal covariance, conditioning, the box and the default variables. *)
From Coq Require Import Reals List Arith Bool Lra Lia.
From Coquelicot Require Import Coquelicot.
From Verif Require Import Base Interp InterpFacts ChebFacts Grid GridFacts3 ND NDSpec NDFacts2 QuadFacts RMx RMxFacts IntegralFacts Std NDNorm NDNormSpec NDNormFacts NDNormFacts2.
Import List ListNotations.
Open Scope R_scope.

Lemma bsum_1 F : bsum 1 F = F O.
Proof. rewrite bsum_S, bsum_0. lra. Qed.
Lemma minv_1 A : A O O <> 0 -> minv 1 A O O = / A O O.
Proof.
  intros H. destruct (minv_unique 1 A (fun _ _ => / A O O)) as [_ U]; [|apply U; lia].
  intros i j Hi Hj. replace i with O by lia. replace j with O by lia. rewrite bsum_1, delta_eq. apply Rinv_r; auto.
Qed.
Lemma gdens_1 A y : 0 < A O O -> gdens 1 A y = normal_pdf 0 (sqrt (A O O)) (y O).
Proof.
  intros H. pose proof PI_RGT_0. unfold gdens, normal_pdf, quad. rewrite !bsum_1, minv_1, mdet_1 by lra. rewrite pow_1.
  rewrite sqrt_mult by lra. rewrite sqrt_sqrt by lra. f_equal. f_equal. replace 0.5 with (1 / 2) by lra. field. lra.
Qed.
Lemma normal_pdf_shift m s x : normal_pdf 0 s (x - m) = normal_pdf m s x.
Proof. unfold normal_pdf. rewrite Rminus_0_r. reflexivity. Qed.
Lemma gdens_pos n A y : pos_def n A -> 0 < gdens n A y.
Proof.
  intros P. pose proof PI_RGT_0. unfold gdens. apply Rmult_lt_0_compat; [|apply exp_pos]. apply Rdiv_lt_0_compat; [lra|]. apply sqrt_lt_R0.
  apply Rmult_lt_0_compat; [apply pd_det_pos; auto|apply pow_lt; lra].
Qed.

(** ** One variable *)
Lemma filter_one (l : list nat) v vs : NoDup l -> In v l -> (forall w, In w vs <-> In w l /\ w <> v) -> filter (fun w => negb (existsb (Nat.eqb w) vs)) l = [v].
Proof.
  intros N I H. destruct (in_split v l I) as (l1 & l2 & ->). pose proof (NoDup_remove_2 _ _ _ N) as Nv.
  assert (Z : forall l', (forall w, In w l' -> In w (l1 ++ v :: l2) /\ w <> v) -> filter (notin vs) l' = []).
  { induction l' as [|w l' IH]; intros G; auto. simpl. destruct (notin vs w) eqn:E.
    - apply notin_iff in E. exfalso. apply E, H, G. simpl; auto.
    - apply IH. intros u Hu. apply G. simpl; auto. }
  change (filter (notin vs) (l1 ++ v :: l2) = [v]). rewrite filter_app. simpl.
  replace (notin vs v) with true. 2:{ symmetry. apply notin_iff. intros Hv. apply H in Hv. tauto. }
  rewrite !Z; auto; intros w Hw; split; try (apply in_or_app; simpl; tauto); intros ->; apply Nv, in_or_app; auto.
Qed.
Lemma marginal_one vars mu Sg i vs : normal_params vars mu Sg -> (i < length mu)%nat -> NoDup vs ->
  (forall v, In v vs <-> In v vars /\ v <> nth i vars O) ->
  exists h, ndn_elim (made vars mu Sg) vs = Ok (NDist h) /\
    integrated vs (at_env (NDist (made vars mu Sg))) (at_env (NDist h)) /\
    forall env, at_env (NDist h) env = normal_pdf (nth i mu 0) (sqrt (entry Sg i i)) (env (nth i vars O)).
Proof.
  intros NP Hi Nv Hvs. destruct (elim_exact vars mu Sg vs NP Nv) as (r & E & V & Int & Ex).
  { intros v Hv. apply Hvs in Hv; tauto. }
  pose proof NP as (N & L & _). rewrite (filter_one vars (nth i vars O)) in V; auto. 2: apply nth_In; lia.
  destruct r as [|h]; [discriminate|]. exists h. splits; auto. intros env.
  destruct (Ex h eq_refl) as (mu' & Sg' & Eh & (N' & L' & _ & _ & P') & Ent). simpl in V.
  rewrite V in *. simpl in L'. rewrite Eh. rewrite at_made by (simpl; auto). rewrite <- L' in P' |- *.
  destruct (Ent O O ltac:(simpl; lia) ltac:(simpl; lia) i i ltac:(lia) ltac:(lia) eq_refl eq_refl) as [E1 E2].
  assert (Pe : 0 < entry Sg' O O).
  { destruct P' as [_ P']. specialize (P' (fun _ => 1)). unfold quad in P'. simpl length in P'. rewrite !bsum_1 in P'.
    assert (0 < 1 * entry Sg' 0 0 * 1); [|lra]. apply P'. exists O. split; [lia|lra]. }
  simpl length. rewrite gdens_1 by auto. rewrite normal_pdf_shift. simpl nth at 3. rewrite E1, E2. reflexivity.
Qed.

(** ** Two variables *)
Lemma two_det A : pos_def 2 A -> A 1%nat O = A O 1%nat /\ 0 < A O O /\ 0 < A 1%nat 1%nat /\ 0 < A O O * A 1%nat 1%nat - A O 1%nat * A O 1%nat /\
  mdet 2 A = A O O * A 1%nat 1%nat - A O 1%nat * A O 1%nat.
Proof.
  intros P. pose proof (proj1 P 1%nat O ltac:(lia) ltac:(lia)) as Sy.
  assert (Q2 : forall v, quad 2 A v = v O * A O O * v O + 2 * (v O * A O 1%nat * v 1%nat) + v 1%nat * A 1%nat 1%nat * v 1%nat).
  { intros v. unfold quad. rewrite !bsum_S, !bsum_0. rewrite Sy. ring. }
  assert (A0 : 0 < A O O).
  { pose proof (proj2 P (fun i => if Nat.eqb i O then 1 else 0)) as H. rewrite Q2 in H. simpl in H. assert (0 < 1 * A 0%nat 0%nat * 1 + 2 * (1 * A 0%nat 1%nat * 0) + 0 * A 1%nat 1%nat * 0); [|lra]. apply H. exists O. simpl. split; [lia|lra]. }
  assert (A1 : 0 < A 1%nat 1%nat).
  { pose proof (proj2 P (fun i => if Nat.eqb i O then 0 else 1)) as H. rewrite Q2 in H. simpl in H. assert (0 < 0 * A 0%nat 0%nat * 0 + 2 * (0 * A 0%nat 1%nat * 1) + 1 * A 1%nat 1%nat * 1); [|lra]. apply H. exists 1%nat. simpl. split; [lia|lra]. }
  assert (D : 0 < A O O * A 1%nat 1%nat - A O 1%nat * A O 1%nat).
  { pose proof (proj2 P (fun i => if Nat.eqb i O then - A O 1%nat else A O O)) as H. rewrite Q2 in H. simpl in H.
    assert (H' : 0 < A O O * (A O O * A 1%nat 1%nat - A O 1%nat * A O 1%nat)).
    { replace (A O O * (A O O * A 1%nat 1%nat - A O 1%nat * A O 1%nat)) with (- A 0%nat 1%nat * A 0%nat 0%nat * - A 0%nat 1%nat + 2 * (- A 0%nat 1%nat * A 0%nat 1%nat * A 0%nat 0%nat) + A 0%nat 0%nat * A 1%nat 1%nat * A 0%nat 0%nat) by ring.
      apply H. exists 1%nat. simpl. split; [lia|lra]. }
    destruct (Rlt_dec 0 (A O O * A 1%nat 1%nat - A O 1%nat * A O 1%nat)); auto. nra. }
  splits; auto.
  pose proof (minv_diag 1 A 0 (pd_det_ne _ _ P) ltac:(lia)) as E.
  pose proof (schur 1 0 A 0 0 P ltac:(lia) ltac:(lia) ltac:(lia)) as E2. unfold minor, skip in *. simpl in *. rewrite mdet_1 in E.
  pose proof (minv_r 2 A O O (pd_det_ne _ _ P) ltac:(lia) ltac:(lia)) as F1. pose proof (minv_r 2 A 1 O (pd_det_ne _ _ P) ltac:(lia) ltac:(lia)) as F2.
  rewrite !bsum_S, bsum_0 in F1, F2. unfold delta in F1, F2. simpl in F1, F2. rewrite Sy in F2.
  assert (M : minv 2 A O O * (A O O * A 1%nat 1%nat - A O 1%nat * A O 1%nat) = A 1%nat 1%nat).
  { transitivity (A 1%nat 1%nat * (0 + A 0%nat 0%nat * minv 2 A 0 0 + A 0%nat 1%nat * minv 2 A 1 0) - A O 1%nat * (0 + A 0%nat 1%nat * minv 2 A 0 0 + A 1%nat 1%nat * minv 2 A 1 0)). ring.
    rewrite F1, F2. change (A 1%nat 1%nat * 1 - A O 1%nat * 0 = A 1%nat 1%nat). ring. }
  apply (Rmult_eq_reg_l (minv 2 A O O)). congruence. intros Z. rewrite Z in M. lra.
Qed.
Lemma two_inv A i j : pos_def 2 A -> (i < 2)%nat -> (j < 2)%nat ->
  minv 2 A i j = (if Nat.eqb i j then A (1 - i)%nat (1 - i)%nat else - A O 1%nat) / (A O O * A 1%nat 1%nat - A O 1%nat * A O 1%nat).
Proof.
  intros P Hi Hj. destruct (two_det A P) as (Sy & A0 & A1 & D & _).
  destruct (minv_unique 2 A (fun i j => (if Nat.eqb i j then A (1 - i)%nat (1 - i)%nat else - A O 1%nat) / (A O O * A 1%nat 1%nat - A O 1%nat * A O 1%nat))) as [_ U]; [|apply U; auto].
  clear i j Hi Hj. intros i j Hi Hj. rewrite !bsum_S, bsum_0. unfold delta.
  destruct i as [|[|i]]; [| |lia]; (destruct j as [|[|j]]; [| |lia]); simpl; rewrite ?Sy; match goal with |- _ = R1 => change R1 with 1 | |- _ = R0 => change R0 with 0 end; field; lra.
Qed.
Lemma gdens_2 A y : pos_def 2 A -> let D := A O O * A 1%nat 1%nat - A O 1%nat * A O 1%nat in
  gdens 2 A y = 1 / sqrt (D * (2 * PI) ^ 2) * exp (- ((A 1%nat 1%nat * (y O * y O) - 2 * A O 1%nat * (y O * y 1%nat) + A O O * (y 1%nat * y 1%nat)) / D / 2)).
Proof.
  intros P D. destruct (two_det A P) as (Sy & A0 & A1 & D0 & E). unfold gdens. rewrite E. fold D. f_equal. f_equal. f_equal. f_equal.
  unfold quad. rewrite !bsum_S, !bsum_0. rewrite !two_inv by (auto; lia). simpl. fold D. fold D in D0. field. lra.
Qed.
(** the joint density of two variables as that of one given the other times that of the other *)
Lemma gdens_chain A (y : nat -> R) : pos_def 2 A ->
  gdens 2 A y = normal_pdf (A O 1%nat / A 1%nat 1%nat * y 1%nat) (sqrt (A O O - A O 1%nat / A 1%nat 1%nat * A O 1%nat)) (y O) * normal_pdf 0 (sqrt (A 1%nat 1%nat)) (y 1%nat) /\
  gdens 2 A y = normal_pdf (A O 1%nat / A O O * y O) (sqrt (A 1%nat 1%nat - A O 1%nat / A O O * A O 1%nat)) (y 1%nat) * normal_pdf 0 (sqrt (A O O)) (y O).
Proof.
  intros P. pose proof PI_RGT_0. destruct (two_det A P) as (Sy & A0 & A1 & D & _). rewrite gdens_2 by auto. unfold normal_pdf.
  set (p := A O O) in *. set (q := A O 1%nat) in *. set (r := A 1%nat 1%nat) in *. set (u := y O). set (v := y 1%nat).
  assert (Sp : 0 < sqrt (2 * PI)) by (apply sqrt_lt_R0; lra).
  assert (G : forall p r u v, 0 < p -> 0 < r -> 0 < p * r - q * q ->
    1 / sqrt ((p * r - q * q) * (2 * PI) ^ 2) * exp (- ((r * (u * u) - 2 * q * (u * v) + p * (v * v)) / (p * r - q * q) / 2)) =
    1 / (sqrt (p - q / r * q) * sqrt (2 * PI)) * exp (- ((u - q / r * v) * (u - q / r * v) * (0.5 / (sqrt (p - q / r * q) * sqrt (p - q / r * q))))) *
    (1 / (sqrt r * sqrt (2 * PI)) * exp (- ((v - 0) * (v - 0) * (0.5 / (sqrt r * sqrt r)))))).
  { clear. intros p r u v A0 A1 D. pose proof PI_RGT_0.
    assert (C0 : 0 < p - q / r * q). { replace (p - q / r * q) with ((p * r - q * q) / r) by (field; lra). apply Rdiv_lt_0_compat; auto. }
    rewrite !sqrt_sqrt by lra.
    replace ((p * r - q * q) * (2 * PI) ^ 2) with (((p - q / r * q) * (2 * PI)) * (r * (2 * PI))) by (field; lra).
    rewrite sqrt_mult by (apply Rmult_le_pos; lra). rewrite (sqrt_mult (p - q / r * q) (2 * PI)), (sqrt_mult r (2 * PI)) by lra.
    replace (1 / (sqrt (p - q / r * q) * sqrt (2 * PI) * (sqrt r * sqrt (2 * PI)))) with (1 / (sqrt (p - q / r * q) * sqrt (2 * PI)) * (1 / (sqrt r * sqrt (2 * PI)))).
    2:{ field. repeat split; apply Rgt_not_eq, sqrt_lt_R0; lra. }
    match goal with |- ?a * ?b * exp ?x = ?a * exp ?y * (?b * exp ?z) => replace x with (y + z); [rewrite exp_plus; ring|] end.
    assert (p * r - q * q <> 0) by lra. assert (p - q / r * q <> 0) by lra. replace 0.5 with (1 / 2) by lra. field. splits; lra. }
  split. apply G; auto. rewrite <- (G r p v u) by (auto; lra). replace (r * p - q * q) with (p * r - q * q) by ring. do 2 f_equal. f_equal. f_equal. f_equal. ring.
Qed.

(** ** Uniqueness of the iterated integral *)
Lemma integrated_unique vs : forall F F' G H, (forall env, F env = F' env) -> integrated vs F G -> integrated vs F' H -> forall env, G env = H env.
Proof.
  induction vs as [|v vs IH]; intros F F' G H E IG IH' env.
  - inversion IG as [? ? E1|]; subst. inversion IH' as [? ? E2|]; subst. rewrite <- E1, <- E2. auto.
  - inversion IG as [|? ? ? G1 ? E1 K1]; subst. inversion IH' as [|? ? ? G2 ? E2 K2]; subst.
    apply (IH G1 G2 G H); auto. intros e. specialize (E1 e). specialize (E2 e).
    assert (E3 : is_RInt_gen (fun t => F' (upd e v t)) (Rbar_locally m_infty) (Rbar_locally p_infty) (G1 e)).
    { eapply is_RInt_gen_ext; [|exact E1]. apply filter_forall. intros [a b] t _. auto. }
    rewrite <- (is_RInt_gen_unique (V := R_CompleteNormedModule) _ _ E2), <- (is_RInt_gen_unique (V := R_CompleteNormedModule) _ _ E3). reflexivity.
Qed.

(** ** Conditioning *)
Lemma pair_list (l : list nat) : length l = 2%nat -> exists a b, l = [a; b].
Proof. destruct l as [|a [|b [|]]]; try discriminate. eauto. Qed.
Lemma made_1 v m s : 0 < s -> normal_nd [v] [m] [[s]] = Ok (made [v] [m] [[s]]) /\ forall env, at_env (NDist (made [v] [m] [[s]])) env = normal_pdf m (sqrt s) (env v).
Proof.
  intros H. split.
  - unfold normal_nd. replace (has_shape [[s]] (length [m]) (length [m])) with true by reflexivity. cbn iota zeta.
    assert (E0 : mdet (length [m]) (entry [[s]]) = s) by (simpl length; rewrite mdet_1; reflexivity).
    destruct (rle (mdet (length [m]) (entry [[s]])) 0) eqn:E; [|reflexivity]. b2p. lra.
  - intros env. rewrite at_made by auto. simpl length. rewrite gdens_1 by (unfold entry; simpl; auto). rewrite normal_pdf_shift. reflexivity.
Qed.
Lemma mat_I_1 c : 0 < c -> mat_I [[c]] = Ok [[/ c]].
Proof.
  intros H. unfold mat_I. simpl has_shape. cbn iota. simpl length. rewrite mdet_1. unfold entry at 1; simpl nth. destruct (req c 0) eqn:E; [b2p; lra|].
  unfold table. simpl. rewrite minv_1 by (unfold entry; simpl; lra). reflexivity.
Qed.
Lemma mat_mul_1 a b : mat_mul [[a]] [[b]] = Ok [[a * b]].
Proof. unfold mat_mul, table, cols, entry. simpl. unfold sum_list. simpl. rewrite Rplus_0_l. reflexivity. Qed.
Lemma normal_pdf_mass m s : 0 < s -> is_RInt_gen (normal_pdf m (sqrt s)) (Rbar_locally m_infty) (Rbar_locally p_infty) 1.
Proof.
  intros H. pose proof PI_RGT_0.
  assert (Hs : 0 < / s) by (apply Rinv_0_lt_compat; auto).
  pose proof (is_RInt_gen_scal (V := R_NormedModule) _ (1 / (sqrt s * sqrt (2 * PI))) _ (gauss_integral (/ s) (- m) Hs)) as G.
  replace 1 with (scal (1 / (sqrt s * sqrt (2 * PI))) (sqrt (2 * PI / / s))).
  - eapply is_RInt_gen_ext; [|exact G]. apply filter_forall. intros [u v] t _. unfold normal_pdf, scal; simpl; unfold mult; simpl. f_equal. f_equal. f_equal.
    rewrite sqrt_sqrt by lra. unfold Rsqr. replace 0.5 with (1 / 2) by lra. field. lra.
  - change (1 / (sqrt s * sqrt (2 * PI)) * sqrt (2 * PI / / s) = 1). replace (2 * PI / / s) with (2 * PI * s) by (field; lra). rewrite (sqrt_mult (2 * PI) s) by lra. field. split; apply Rgt_not_eq, sqrt_lt_R0; lra.
Qed.
Lemma cond_two vars mu Sg v w x : normal_params vars mu Sg -> length mu = 2%nat -> In v vars -> In w vars -> v <> w ->
  exists h, ndn_cond (made vars mu Sg) [v] [x] = Ok (NDist h) /\ g_vars h = [w] /\ integrated [w] (at_env (NDist h)) (fun _ => 1) /\
    forall marg, integrated [w] (at_env (NDist (made vars mu Sg))) marg ->
      forall env, env v = x -> at_env (NDist h) env * marg env = at_env (NDist (made vars mu Sg)) env.
Proof.
  intros NP L2 Iv Iw Nvw. pose proof NP as (N & L & LS & Rw & P). rewrite L2 in *.
  destruct (pair_list vars L) as (v0 & v1 & ->). destruct mu as [|m0 [|m1 [|]]]; try discriminate.
  destruct Sg as [|r0 [|r1 [|]]]; try discriminate. pose proof (Rw r0 ltac:(simpl; auto)) as R0'. pose proof (Rw r1 ltac:(simpl; auto)) as R1'.
  destruct r0 as [|a [|b [|]]]; try discriminate. destruct r1 as [|b' [|c [|]]]; try discriminate.
  destruct (two_det _ P) as (Sy & A0 & A1 & D & _). unfold entry in Sy, A0, A1, D; simpl in Sy, A0, A1, D. subst b'. clear LS Rw R0' R1' L L2.
  assert (Hn : v0 <> v1). { inversion N as [|? ? X _]; subst. simpl in X. intros ->. auto. }
  set (g := made [v0; v1] [m0; m1] [[a; b]; [b; c]]).
  assert (J : forall env, at_env (NDist g) env = gdens 2 (entry [[a; b]; [b; c]]) (fun i => env (nth i [v0; v1] O) - nth i [m0; m1] 0)) by (intros; apply at_made; auto).
  simpl in Iv, Iw. destruct Iv as [<-|[<-|[]]]; destruct Iw as [<-|[<-|[]]]; try congruence.
  - (* given v0 *)
    assert (C0 : 0 < c - b * / a * b). { replace (c - b * / a * b) with ((a * c - b * b) / a) by (field; lra). apply Rdiv_lt_0_compat; auto. }
    set (h := made [v1] [m1 + b * / a * (x - m0)] [[c - b * / a * b]]).
    destruct (made_1 v1 (m1 + b * / a * (x - m0)) (c - b * / a * b) C0) as [E1 E2]. fold h in E1, E2.
    exists h. splits.
    + unfold ndn_cond, g. cbn [made g_vars g_mu g_Sigma positions position]. unfold made; cbn [g_vars g_mu g_Sigma positions position].
      rewrite Nat.eqb_refl. cbn [rbind]. cbn [others length seq filter existsb Nat.eqb negb orb fancy rbind map nth pick].
      unfold entry at 1 2 3 4. cbn [nth rbind]. rewrite mat_I_1 by auto. cbn [rbind]. rewrite mat_mul_1. cbn [rbind broadcast map]. rewrite mat_mul_1. cbn [rbind nth broadcast map].
      rewrite mat_mul_1. cbn [rbind nth broadcast map]. rewrite E1. reflexivity.
    + reflexivity.
    + econstructor; [|constructor; intros; reflexivity]. intros env. eapply is_RInt_gen_ext; [|apply (normal_pdf_mass (m1 + b * / a * (x - m0)) (c - b * / a * b)); auto].
      apply filter_forall. intros [p q] t _. rewrite E2. unfold upd. rewrite Nat.eqb_refl. reflexivity.
    + intros marg Im env Ex. destruct (marginal_one [v0; v1] [m0; m1] [[a; b]; [b; c]] 0 [v1] NP) as (k & _ & Ik & Vk).
      { simpl; lia. }
      { constructor; [simpl; tauto|constructor]. }
      { intros u. simpl. split; [intros [<-|[]]; split; auto|intros [[<-|[<-|[]]] ?]; tauto]. }
      rewrite (integrated_unique [v1] _ _ marg _ (fun _ => eq_refl) Im Ik). rewrite Vk, E2, J.
      rewrite (proj2 (gdens_chain _ _ P)). unfold entry; simpl. rewrite !normal_pdf_shift, Ex.
      f_equal. rewrite <- (normal_pdf_shift (b / a * (x - m0))), <- (normal_pdf_shift (m1 + _)). f_equal. unfold Rdiv. ring.
  - (* given v1 *)
    assert (C0 : 0 < a - b * / c * b). { replace (a - b * / c * b) with ((a * c - b * b) / c) by (field; lra). apply Rdiv_lt_0_compat; auto. }
    set (h := made [v0] [m0 + b * / c * (x - m1)] [[a - b * / c * b]]).
    destruct (made_1 v0 (m0 + b * / c * (x - m1)) (a - b * / c * b) C0) as [E1 E2]. fold h in E1, E2.
    exists h. splits.
    + unfold ndn_cond, g. unfold made; cbn [g_vars g_mu g_Sigma positions position].
      replace (Nat.eqb v1 v0) with false by (symmetry; apply Nat.eqb_neq; auto). rewrite Nat.eqb_refl. cbn [option_map rbind]. cbn [others length seq filter existsb Nat.eqb negb orb fancy rbind map nth pick].
      unfold entry at 1 2 3 4. cbn [nth rbind]. rewrite mat_I_1 by auto. cbn [rbind]. rewrite mat_mul_1. cbn [rbind broadcast map]. rewrite mat_mul_1. cbn [rbind nth broadcast map].
      rewrite mat_mul_1. cbn [rbind nth broadcast map]. rewrite E1. reflexivity.
    + reflexivity.
    + econstructor; [|constructor; intros; reflexivity]. intros env. eapply is_RInt_gen_ext; [|apply (normal_pdf_mass (m0 + b * / c * (x - m1)) (a - b * / c * b)); auto].
      apply filter_forall. intros [p q] t _. rewrite E2. unfold upd. rewrite Nat.eqb_refl. reflexivity.
    + intros marg Im env Ex. destruct (marginal_one [v0; v1] [m0; m1] [[a; b]; [b; c]] 1 [v0] NP) as (k & _ & Ik & Vk).
      { simpl; lia. }
      { constructor; [simpl; tauto|constructor]. }
      { intros u. simpl. split; [intros [<-|[]]; split; auto|intros [[<-|[<-|[]]] ?]; tauto]. }
      rewrite (integrated_unique [v0] _ _ marg _ (fun _ => eq_refl) Im Ik). rewrite Vk, E2, J.
      rewrite (proj1 (gdens_chain _ _ P)). unfold entry; simpl. rewrite !normal_pdf_shift, Ex.
      f_equal. rewrite <- (normal_pdf_shift (b / c * (x - m1))), <- (normal_pdf_shift (m0 + _)). f_equal. unfold Rdiv. ring.
Qed.
