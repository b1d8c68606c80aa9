(** Main lemmas about functions of one random variable (C35). *)
From Coq Require Import Reals Lra List Bool Sorted Permutation FunctionalExtensionality.
From Coquelicot Require Import Coquelicot.
From Verif Require Import Base Bisect Seg Piecewise PiecewiseSpec PiecewiseFacts PiecewiseFacts2 PiecewiseFacts3 PiecewiseFacts4
  Integral IntegralFacts SegInt SegIntSpec SegIntFacts SubstFacts Transform TransformSpec TransformFacts TransformFacts2
  TransformFacts3 OperationFacts TransformFacts4 TransformFacts5 TransformMain PiecewiseMain Func FuncSpec FuncFacts FuncFacts2 FuncFacts3
  FuncFacts4 FuncFacts5.
Import List ListNotations.
Open Scope R_scope.

(** C35: exp(X).  Intervals keep their probability under exp, atoms move to their images, and at exp(x) the density
    is the one FuncDistr.pdf computes, f(log y) / |y|. *)
Lemma exp_exact_main :
  forall eps l, smooth eps l -> image_sep eps (lift exp (Finite 0) p_infty) l ->
  exists q, exp_distr eps l = Ok q /\ smooth eps (segs q) /\
    image_law true (lift exp (Finite 0) p_infty) m_infty p_infty l (segs q) /\
    image_density (lift exp (Finite 0) p_infty) ln (fun y => / Rabs y) l (segs q).
Proof.
  intros eps l G S. destruct (exp_law eps l G S) as (q & E & G' & L & D). exists q. split; auto. split; auto. split; auto.
  intros s x Hs Ds X N. destruct (D s x Hs Ds X N) as (t & T1 & T2 & T3 & T4). exists t. splits; auto.
  change (real (lift exp 0 p_infty x)) with (real (exp_f x)). rewrite T4. unfold exp_der, exp_inv. f_equal. f_equal. unfold Rdiv. ring.
Qed.

(** C35: log(X) for X with no piece below zero and no atom at or below zero. *)
Lemma log_exact_main :
  forall eps l, smooth eps l -> (forall s, In s l -> if isDirac s then Rbar_lt 0 (sa s) else Rbar_le 0 (sa s)) ->
  image_sep eps lift_ln l ->
  exists q, log_distr eps l = Ok q /\ smooth eps (segs q) /\ image_law true lift_ln 0 p_infty l (segs q).
Proof. exact log_law. Qed.

(** C35: the logarithm of a variable with a piece starting below zero, or with an atom at or below zero, is refused. *)
Lemma log_negative_main :
  forall eps l s, In s l -> (if isDirac s then Rbar_le (sa s) 0 else Rbar_lt (sa s) 0) -> log_distr eps l = Err EValue.
Proof.
  intros eps l s Hs H. unfold log_distr. destruct (is_nonneg l) eqn:E; auto. exfalso.
  pose proof (proj1 (nonneg_iff l) E s Hs) as K. destruct (isDirac s).
  - apply (Rbar_lt_irrefl (sa s)). eapply Rbar_le_lt_trans; eauto.
  - apply (Rbar_lt_irrefl (sa s)). eapply Rbar_lt_le_trans; eauto.
Qed.

(** C35: atan(X). *)
Lemma atan_exact_main :
  forall eps l, smooth eps l -> image_sep eps (lift atan (Finite (- PI / 2)) (Finite (PI / 2))) l ->
  exists q, atan_distr eps l = Ok q /\ smooth eps (segs q) /\
    image_law true (lift atan (Finite (- PI / 2)) (Finite (PI / 2))) m_infty p_infty l (segs q) /\
    image_density (lift atan (Finite (- PI / 2)) (Finite (PI / 2))) tan (fun y => 1 + tan y ^ 2) l (segs q).
Proof.
  intros eps l G S. destruct (atan_law eps l G S) as (q & E & G' & L & D). exists q. split; auto. split; auto. split; auto.
  intros s x Hs Ds X N. destruct (D s x Hs Ds X N) as (t & T1 & T2 & T3 & T4). exists t. splits; auto.
  change (real (lift atan (Finite (- PI / 2)) (Finite (PI / 2)) x)) with (real (atan_f x)). rewrite T4.
  rewrite atan_inv_in, atan_der_in by (simpl; apply atan_bound). f_equal. f_equal. ring.
Qed.

(** C35: tanh(X). *)
Lemma tanh_exact_main :
  forall eps l, smooth eps l -> image_sep eps (lift tanh (Finite (Ropp 1)) (Finite 1)) l ->
  exists q, tanh_distr eps l = Ok q /\ smooth eps (segs q) /\
    image_law true (lift tanh (Finite (Ropp 1)) (Finite 1)) m_infty p_infty l (segs q) /\
    image_density (lift tanh (Finite (Ropp 1)) (Finite 1)) (fun y => / 2 * ln ((1 + y) / (1 - y))) (fun y => / (1 - y ^ 2)) l (segs q).
Proof.
  intros eps l G S. destruct (tanh_law eps l G S) as (q & E & G' & L & D). exists q. split; auto. split; auto. split; auto.
  intros s x Hs Ds X N. destruct (D s x Hs Ds X N) as (t & T1 & T2 & T3 & T4). exists t. splits; auto.
  change (real (lift tanh (Finite (Ropp 1)) (Finite 1) x)) with (real (tanh_f x)). rewrite T4.
  assert (R : Ropp 1 < real (tanh_f x) < 1).
  { simpl. rewrite tanh_exp. pose proof (exp_pos (2 * x)). pose proof (inv_dec 1 (exp (2 * x) + 1)). pose proof (Rinv_0_lt_compat (exp (2 * x) + 1)).
    rewrite Rinv_1 in *. unfold Rdiv. lra. }
  rewrite tanh_inv_in, tanh_der_in by auto. unfold Rdiv. rewrite !Rmult_1_l. f_equal. f_equal. f_equal. ring.
Qed.

(** C35: the sigmoid 1/(1+exp(-X)), which the code computes by two formulas. *)
Lemma sigmoid_exact_main :
  forall eps l, smooth eps l -> image_sep eps (lift (fun x => / (1 + exp (- x))) (Finite 0) (Finite 1)) l ->
  exists q, sigm_distr eps l = Ok q /\ smooth eps (segs q) /\
    image_law true (lift (fun x => / (1 + exp (- x))) (Finite 0) (Finite 1)) m_infty p_infty l (segs q) /\
    image_density (lift (fun x => / (1 + exp (- x))) (Finite 0) (Finite 1)) (fun y => ln (y / (1 - y))) (fun y => / (y * (1 - y))) l (segs q).
Proof.
  assert (EE : sigm_f = lift (fun x => / (1 + exp (- x))) (Finite 0) (Finite 1)).
  { extensionality x. destruct x as [x| |]; auto. simpl. f_equal. rewrite sigm_exp. rewrite exp_Ropp. pose proof (exp_pos x).
    assert (exp x <> 0) by lra. field. repeat split; lra. }
  rewrite <- EE. intros eps l G S. destruct (sigm_law eps l G S) as (q & E & G' & L & D). exists q. split; auto. split; auto. split; auto.
  intros s x Hs Ds X N. destruct (D s x Hs Ds X N) as (t & T1 & T2 & T3 & T4). exists t. splits; auto. rewrite T4.
  assert (R : 0 < real (sigm_f x) < 1).
  { simpl. rewrite sigm_exp. pose proof (exp_pos x). pose proof (inv_dec 1 (exp x + 1)). pose proof (Rinv_0_lt_compat (exp x + 1)).
    rewrite Rinv_1 in *. unfold Rdiv. lra. }
  rewrite sigm_inv_in, sigm_der_in by auto. unfold Rdiv. rewrite !Rmult_1_l. reflexivity.
Qed.

(** C35: tan(X) for X confined to [A,B] strictly inside (-pi/2, pi/2). *)
Lemma tan_exact_main :
  forall eps A B l, - PI / 2 < A -> A < B -> B < PI / 2 -> smooth eps l -> Forall (within (Finite A) (Finite B)) l ->
  image_sep eps (lift tan m_infty p_infty) l ->
  exists q, tan_distr eps l = Ok q /\ smooth eps (segs q) /\ image_law true (lift tan m_infty p_infty) (Finite A) (Finite B) l (segs q) /\
    image_density (lift tan m_infty p_infty) atan (fun y => / (1 + y ^ 2)) l (segs q).
Proof.
  intros eps A B l HA AB HB G Wi S. destruct (tan_law eps A B l HA AB HB G Wi S) as (q & E & G' & L & D). exists q.
  split; auto. split; auto. split; auto.
  intros s x Hs Ds X N. destruct (D s x Hs Ds X N) as (t & T1 & T2 & T3 & T4). exists t. splits; auto.
  change (real (lift tan m_infty p_infty x)) with (real (tan_f x)). rewrite T4. unfold tan_inv, tan_der, Rdiv. rewrite Rmult_1_l.
  f_equal. f_equal. f_equal. ring.
Qed.

(** C35: X ** d for every exponent except the special ones 0, 1, -1, 2, and X as for log: computed as
    exp(d log X), it is the law of the power. *)
Lemma pow_exact_main :
  forall eps p d, d <> 0 -> d <> 1 -> d <> Ropp 1 -> d <> 2 -> smooth eps (segs p) ->
  (forall s, In s (segs p) -> if isDirac s then Rbar_lt 0 (sa s) else Rbar_le 0 (sa s)) ->
  image_sep eps lift_ln (segs p) -> image_sep eps (fun x => affine 0 d (lift_ln x)) (segs p) -> image_sep eps (power d) (segs p) ->
  exists q, pow_distr eps p d = Ok (PDistr q) /\ smooth eps (segs q) /\ image_law (rlt 0 d) (power d) 0 p_infty (segs p) (segs q).
Proof. exact pow_law. Qed.

(** C35: the special exponents: X ** 0 is the number 1, X ** 1 is X, X ** 2 the law of the square. *)
Lemma pow_special_main :
  forall eps p, 0 <= eps -> pow_distr eps p 0 = Ok (PNum 1) /\ pow_distr eps p 1 = Ok (PDistr p) /\
  (smooth eps (segs p) -> atoms_even_sep eps (fun x => x * x) (segs p) ->
   exists q, pow_distr eps p 2 = Ok (PDistr q) /\ even_law (fun x => x * x) (segs p) (segs q)).
Proof.
  intros eps p E0. unfold pow_distr. splits.
  - destruct (reqP 0 0); [auto|tauto].
  - destruct (reqP 1 0); [lra|]. destruct (reqP 1 1); [auto|tauto].
  - intros (O & W & DS & HI & C) S. destruct (reqP 2 0); [lra|]. destruct (reqP 2 1); [lra|]. destruct (reqP 2 (Ropp 1)); [lra|].
    destruct (reqP 2 2); [|tauto]. destruct (square_list eps (segs p)) as (q & E & _ & _ & L); auto.
    rewrite E. exists q. auto.
Qed.

(** C35: c ** X for c > 0, c <> 1, computed as exp(log(c) X); for the other bases: 1, 0 or an exception. *)
Lemma rpow_exact_main :
  forall eps p c, 0 < c -> c <> 1 -> smooth eps (segs p) ->
  image_sep eps (affine 0 (ln c)) (segs p) -> image_sep eps (expo c) (segs p) ->
  exists q, rpow_distr eps p c = Ok (PDistr q) /\ smooth eps (segs q) /\ image_law (rlt 1 c) (expo c) m_infty p_infty (segs p) (segs q).
Proof. exact rpow_law. Qed.
Lemma rpow_other_main :
  forall eps p c, (c = 1 -> rpow_distr eps p c = Ok (PNum 1)) /\ (c < 0 -> rpow_distr eps p c = Err EValue).
Proof.
  intros eps p c. unfold rpow_distr. split.
  - intros ->. destruct (reqP 1 0); [lra|]. destruct (reqP 1 1); [auto|tauto].
  - intros H. destruct (reqP c 0); [lra|]. destruct (reqP c 1); [lra|]. destruct (rltP c 0); [auto|tauto].
Qed.

(** C35: cos(X): the probability that X lies in the preimage of the interval inside [0, 2 pi]. *)
Lemma cos_exact_main :
  forall eps l, 0 <= eps -> smooth eps l ->
  (forall a b, In a (dirac_pos l) -> In b (dirac_pos l) -> cos a = cos b \/ eps < Rabs (cos a - cos b)) ->
  exists q, cos_distr eps l = Ok q /\ good eps (segs q) /\ Forall has_int (segs q) /\
    forall y z, Ropp 1 <= y -> y < z -> z <= 1 ->
      pprob (segs q) (Finite y) (Finite z) =
      pprob l (Finite (acos z)) (Finite (acos y)) + pprob l (Finite (2 * PI - acos y)) (Finite (2 * PI - acos z)).
Proof. exact cos_law. Qed.

(** C35 (finding): cos is only applied on [0, 2 pi]: for X uniform on [-1,1] half of the probability disappears. *)
Lemma cos_support_refuted_main :
  exists eps l, 0 < eps /\ smooth eps l /\ pprob l m_infty p_infty = 1 /\
  exists q, cos_distr eps l = Ok q /\ pprob (segs q) (Finite (Ropp 1)) (Finite 1) = 1 / 2.
Proof.
  assert (PP : 3 < PI) by (pose proof PI2_3_2; lra).
  assert (U : forall u v, Rbar_le u v -> pprob [ConstSeg (Ropp 1) 1 (1/2)] u v = Q (fun _ => 1/2) (clamp (ConstSeg (Ropp 1) 1 (1/2)) u) (clamp (ConstSeg (Ropp 1) 1 (1/2)) v)).
  { intros u v H. unfold pprob. cbn [map sumR fold_right]. rewrite prob_Q by (auto; simpl; lra). change (sf (ConstSeg (Ropp 1) 1 (1/2))) with (fun _ : R => 1/2). simpl. lra. }
  assert (K : smooth (1/1000) [ConstSeg (Ropp 1) 1 (1/2)]).
  { unfold smooth. splits; try (repeat constructor; fail).
    - constructor; [simpl; lra|constructor].
    - constructor; [|constructor]. intros _. apply (integrable_const (Ropp 1) 1); lra.
    - constructor; [|constructor]. intros x _ _. apply continuous_const. }
  exists (1/1000), [ConstSeg (Ropp 1) 1 (1/2)]. splits; [lra|exact K| |].
  - rewrite U by (simpl; auto). unfold clamp. cbn [sa sb]. rewrite (proj2 (blt_true m_infty (Ropp 1))) by (simpl; auto).
    rewrite (proj2 (blt_false p_infty (Ropp 1))) by (simpl; auto). rewrite (proj2 (blt_true 1 p_infty)) by (simpl; auto).
    rewrite Q_const. lra.
  - destruct (cos_law (1/1000) [ConstSeg (Ropp 1) 1 (1/2)]) as (q & E & _ & _ & L); [lra|exact K|intros a b []|].
    exists q. split; auto. rewrite L by lra. rewrite acos_1. replace (acos (Ropp 1)) with PI by (symmetry; rewrite acos_opp, acos_1; ring).
    rewrite !U by (simpl; lra). unfold clamp. cbn [sa sb].
    replace (blt (Finite 0) (Finite (Ropp 1))) with false by (symmetry; apply blt_false; simpl; lra).
    replace (blt (Finite 1) (Finite 0)) with false by (symmetry; apply blt_false; simpl; lra).
    replace (blt (Finite PI) (Finite (Ropp 1))) with false by (symmetry; apply blt_false; simpl; lra).
    replace (blt (Finite 1) (Finite PI)) with true by (symmetry; apply blt_true; simpl; lra).
    replace (blt (Finite (2 * PI - PI)) (Finite (Ropp 1))) with false by (symmetry; apply blt_false; simpl; lra).
    replace (blt (Finite 1) (Finite (2 * PI - PI))) with true by (symmetry; apply blt_true; simpl; lra).
    replace (blt (Finite (2 * PI - 0)) (Finite (Ropp 1))) with false by (symmetry; apply blt_false; simpl; lra).
    replace (blt (Finite 1) (Finite (2 * PI - 0))) with true by (symmetry; apply blt_true; simpl; lra).
    rewrite !Q_const. lra.
Qed.

(** C35: sin(X) is right for X confined to [-pi/2, pi/2). *)
Lemma sin_half_exact_main :
  forall eps l, 0 <= eps -> smooth eps l -> Forall (within (Finite (- PI / 2)) (Finite (PI / 2))) l -> ~ In (PI / 2) (dirac_pos l) ->
  (forall a b, In a (dirac_pos l) -> In b (dirac_pos l) -> sin a = sin b \/ eps < Rabs (sin a - sin b)) ->
  exists q, sin_distr eps l = Ok q /\ good eps (segs q) /\ Forall has_int (segs q) /\
    forall y z, Ropp 1 <= y -> y < z -> z <= 1 ->
      pprob (segs q) (Finite y) (Finite z) = pprob l (Finite (asin y)) (Finite (asin z)).
Proof. exact sin_law. Qed.

(** C35 (finding): the second branch of sin uses 2 pi - arccos(y), which is not an inverse of sin: its sine is
    -sqrt(1-y^2). *)
Lemma sin_second_inverse_main :
  forall y, Ropp 1 < y < 1 -> sin (two_pi_acos y) = - sqrt (1 - y * y).
Proof.
  intros y Y. unfold two_pi_acos. rewrite sin_2PI'. rewrite sin_acos by lra. unfold Rsqr. reflexivity.
Qed.

Lemma cont_r (f : R -> R) (x l : R) : continuous f x -> f x = l -> filterlim f (at_r (Finite x)) (locally l).
Proof. intros C <-. simpl. eapply filterlim_filter_le_1; [|exact C]. apply filter_le_within. Qed.
Lemma cont_l (f : R -> R) (x l : R) : continuous f x -> f x = l -> filterlim f (at_l (Finite x)) (locally l).
Proof. intros C <-. simpl. eapply filterlim_filter_le_1; [|exact C]. apply filter_le_within. Qed.
Definition sinD : list segment := [Seg (PI / 2) PI (fun x => - cos x)].
Lemma sinD_int : integrable (fun x => - cos x) (Finite (PI / 2)) (Finite PI) /\ Q (fun x => - cos x) (Finite (PI / 2)) (Finite PI) = 1.
Proof.
  pose proof PI_RGT_0. destruct (ftc (fun x => - cos x) (fun x => - sin x) (Finite (PI / 2)) (Finite PI) (Ropp 1) 0) as (A & B).
  - simpl; lra.
  - intros x _. auto_derive; auto. ring.
  - intros x _. apply der_cont. auto_derive; auto.
  - apply cont_r; [apply der_cont; auto_derive; auto|rewrite sin_PI2; ring].
  - apply cont_l; [apply der_cont; auto_derive; auto|rewrite sin_PI; ring].
  - split; auto. rewrite B. lra.
Qed.

Lemma sinD_smooth eps : smooth eps sinD.
Proof.
  pose proof PI_RGT_0. unfold smooth, sinD. splits; try (repeat constructor; fail).
  - constructor; [simpl; lra|constructor].
  - constructor; [|constructor]. intros _. apply sinD_int.
  - constructor; [|constructor]. intros x _ _. apply der_cont. change (ex_derive (fun x => - cos x) x). auto_derive; auto.
Qed.
Lemma one_seg eps s : wf_seg s -> exists p, addAll eps empty_pwf [s] = Ok p /\ segs p = [s].
Proof. intros W. destruct (addAll_ordered eps [s]) as (p & E & Es & _); try (repeat constructor; auto; fail). eauto. Qed.
Lemma split_one pts a b f : (forall x, In x pts -> Rbar_le x (Finite a) \/ Rbar_le (Finite b) x) -> split_seg pts (Seg a b f) = [Seg a b f].
Proof.
  intros H. unfold split_seg. cbn [sa sb].
  replace (filter (fun x => (blt (Finite a) x && blt x (Finite b))%bool) pts) with (@nil Rbar); [reflexivity|].
  symmetry. induction pts as [|x r IH]; auto. simpl.
  replace (blt (Finite a) x && blt x (Finite b))%bool with false; [apply IH; intros; apply H; simpl; auto|].
  symmetry. apply andb_false_iff. destruct (H x (or_introl eq_refl)); [left|right]; apply blt_false; auto.
Qed.
Definition sinfn : R -> R := prob_comp (fun x => - cos x) two_pi_acos arc_der.
Lemma sinfn_eq y : 0 < y < 1 -> sinfn y = - (y / sqrt (1 - y * y)).
Proof.
  intros Y. unfold sinfn, prob_comp, two_pi_acos, arc_der. rewrite cos_2PI, cos_acos by lra.
  assert (0 < sqrt (1 - y * y)) by (apply sqrt_lt_R0; nra). rewrite Rabs_right; [field; lra|].
  apply Rle_ge, Rlt_le, Rdiv_lt_0_compat; lra.
Qed.
Lemma sinfn_int : integrable sinfn (Finite 0) (Finite 1) /\ Q sinfn (Finite 0) (Finite 1) = Ropp 1.
Proof.
  assert (A : integrable (fun y => - (y / sqrt (1 - y * y))) (Finite 0) (Finite 1) /\ Q (fun y => - (y / sqrt (1 - y * y))) (Finite 0) (Finite 1) = 0 - 1).
  { apply (ftc _ (fun y => sqrt (1 - y * y))).
    - simpl; lra.
    - intros y (Y1 & Y2). simpl in *. assert (0 < 1 - y * y) by nra. assert (0 < sqrt (1 - y * y)) by (apply sqrt_lt_R0; lra).
      auto_derive; [lra|]. replace (1 + - (y * y)) with (1 - y * y) by ring. field. lra.
    - intros y (Y1 & Y2). simpl in *. assert (0 < 1 - y * y) by nra. assert (0 < sqrt (1 - y * y)) by (apply sqrt_lt_R0; lra).
      apply der_cont. auto_derive. replace (1 + - (y * y)) with (1 - y * y) by ring. repeat split; lra.
    - apply cont_r; [|rewrite Rmult_0_l, Rminus_0_r; apply sqrt_1].
      apply (continuous_comp (fun y => 1 - y * y) sqrt); [apply der_cont; auto_derive; auto|apply continuous_sqrt].
    - apply cont_l; [|rewrite Rmult_1_l, Rminus_eq_0; apply sqrt_0].
      apply (continuous_comp (fun y => 1 - y * y) sqrt); [apply der_cont; auto_derive; auto|apply continuous_sqrt]. }
  destruct A as (A & B). split.
  - eapply integrable_ext; [|exact A]. intros y (Y1 & Y2). simpl in *. symmetry. apply sinfn_eq; auto.
  - rewrite (Q_ext _ (fun y => - (y / sqrt (1 - y * y)))); [rewrite B; ring|simpl; lra|]. intros y (Y1 & Y2). simpl in *. apply sinfn_eq; auto.
Qed.

(** C35 (finding): so sin is wrong beyond pi/2.  For X on [pi/2, pi] with density -cos x (total probability one) the
    result gives the interval (0,1), which carries everything, the "probability" -1. *)
Lemma sin_law_refuted_main :
  exists eps l q, 0 < eps /\ smooth eps l /\ Forall (within (Finite (PI / 2)) (Finite PI)) l /\
  pprob l (Finite (PI / 2)) (Finite PI) = 1 /\
  sin_distr eps l = Ok q /\ pprob (segs q) (Finite 0) (Finite 1) = Ropp 1.
Proof.
  pose proof PI_RGT_0 as PP. pose proof (sinD_smooth (1/1000)) as G.
  assert (W : wf_seg (Seg (PI / 2) PI (fun x => - cos x))) by (simpl; lra).
  assert (W1 : wf_seg (Seg 0 1 sinfn)) by (simpl; lra).
  assert (SP : forall p, restrictToInterval (1/1000) sinD (Finite (- PI / 2)) (Finite (PI / 2)) = Ok p -> segs p = []).
  { intros p E. destruct G as (O & Wf & DS & _). destruct (restrict_ok (1/1000) sinD (Finite (- PI / 2)) (Finite (PI / 2))) as (r & Er & Es); auto; [simpl; lra|].
    rewrite E in Er. injection Er as <-. rewrite Es. unfold split_all, sinD. cbn [flat_map app].
    rewrite split_one. 2:{ intros x [<-|[<-|[]]]; left; simpl; lra. }
    cbn [app filter]. unfold restrict_keep. cbn [isDirac sa sb]. rewrite (proj2 (ble_false (Finite PI) (Finite (PI / 2)))) by (simpl; lra).
    rewrite andb_false_r. reflexivity. }
  destruct (restrict_law (1/1000) sinD (- PI / 2) (PI / 2)) as (r1 & E1 & _); auto; [lra|].
  assert (X2 : exists r2, restrictToInterval (1/1000) sinD (Finite (PI / 2)) (Finite (3 * PI / 2)) = Ok r2 /\ segs r2 = sinD).
  { destruct G as (O & Wf & DS & _). destruct (restrict_ok (1/1000) sinD (Finite (PI / 2)) (Finite (3 * PI / 2))) as (r & Er & Es); auto; [simpl; lra|].
    exists r. split; auto. rewrite Es. unfold split_all, sinD. cbn [flat_map app].
    rewrite split_one. 2:{ intros x [<-|[<-|[]]]; [left|right]; simpl; lra. }
    cbn [app filter]. unfold restrict_keep. cbn [isDirac sa sb]. rewrite (proj2 (ble_true (Finite (PI / 2)) (Finite (PI / 2)))) by (simpl; lra).
    rewrite (proj2 (ble_true (Finite PI) (Finite (3 * PI / 2)))) by (simpl; lra). reflexivity. }
  destruct X2 as (r2 & E2 & Es2).
  assert (C : exists c, copyComposition (1/1000) sinD sin_f two_pi_acos arc_der false = Ok c /\ segs c = [Seg 0 1 sinfn]).
  { unfold copyComposition. unfold splitByPoints, sinD. cbn [flat_map app].
    rewrite split_one by (intros x [<-|[]]; left; simpl; lra). cbn [app].
    destruct (one_seg (1/1000) _ W) as (p & Ep & Es). rewrite Ep. cbn [rbind]. rewrite Es. cbn [addMap].
    assert (EP : probComposition sin_f two_pi_acos arc_der false (Seg (PI / 2) PI (fun x => - cos x)) = Ok (Seg 0 1 sinfn)).
    { unfold probComposition. cbn [sa sb sf]. unfold sin_f, ext. rewrite sin_PI, sin_PI2. cbn [isinf].
      rewrite (proj2 (blt_false (Finite 1) (Finite 0))) by (simpl; lra). destruct (beqP (Finite 1) (Finite 0)) as [H|_]; [injection H; lra|].
      rewrite andb_false_r. reflexivity. }
    rewrite EP. cbn [rbind]. destruct (one_seg (1/1000) _ W1) as (c & Ec & Es1). exists c. split; auto. }
  destruct C as (c & Ec & Esc).
  assert (Gc : good (1/1000) (segs c)) by (rewrite Esc; unfold good; splits; repeat constructor; simpl; lra).
  assert (Hc : Forall has_int (segs c)) by (rewrite Esc; constructor; [intros _; apply sinfn_int|constructor]).
  destruct (sum_probability_main (1/1000) (segs empty_pwf) (segs empty_pwf)) as (h1 & Eh1 & Gh1 & Hh1 & Ph1);
    [lra|apply empty_good|apply empty_good|intros a m b k []|constructor|constructor|].
  assert (Nh : forall a m, ~ In (DiracSeg a m) (segs h1)).
  { destruct (operation_atoms_main (1/1000) Rplus [] []) as (h & Eh & _ & A);
      [lra|apply SSorted_nil|apply SSorted_nil|apply Forall_nil|apply Forall_nil|apply FOP_nil|apply FOP_nil|intros a m b k []|].
    change (segs empty_pwf) with (@nil segment) in Eh1. rewrite Eh in Eh1. injection Eh1 as <-. intros a m Ha. apply A in Ha. simpl in Ha. clear - Ha.
    destruct Ha as [(? & ? & [] & _)|[([] & _)|([] & _)]]. }
  destruct (sum_probability_main (1/1000) (segs h1) (segs c)) as (q & Eq & _ & _ & Pq); auto; [lra|intros a m b k Ha; destruct (Nh a m Ha)|].
  exists (1/1000), sinD, q. splits.
  - lra.
  - exact G.
  - constructor; [split; simpl; lra|constructor].
  - unfold pprob, sinD. cbn [map sumR fold_right]. rewrite prob_Q by (auto; simpl; lra). rewrite !clamp_id by (simpl; lra).
    change (sf (Seg (PI / 2) PI (fun x => - cos x))) with (fun x => - cos x). rewrite (proj2 sinD_int). simpl. lra.
  - unfold sin_distr, copyCompositionNoninjective, sin_branches. cbn [noninj]. rewrite E1. cbn [rbind]. rewrite (SP r1 E1), copyComposition_nil. cbn [rbind].
    rewrite Eh1. cbn [rbind]. rewrite E2. cbn [rbind]. rewrite Es2, Ec. cbn [rbind]. rewrite Eq. reflexivity.
  - rewrite Pq by (simpl; lra). rewrite Ph1 by (simpl; lra). rewrite Esc. unfold pprob. cbn [map sumR fold_right segs empty_pwf].
    rewrite prob_Q by (auto; simpl; lra). rewrite !clamp_id by (simpl; lra). change (sf (Seg 0 1 sinfn)) with sinfn. rewrite (proj2 sinfn_int). simpl. lra.
Qed.
