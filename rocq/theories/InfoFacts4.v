(** Bounds on the entropy and the entropy of named distributions. *)
From Coq Require Import Reals Lra Lia List Bool Sorted Permutation.
From Coquelicot Require Import Coquelicot.
From Verif Require Import Base Bisect Seg Piecewise PiecewiseSpec PiecewiseFacts PiecewiseFacts2 PiecewiseFacts3 PiecewiseFacts4 Integral IntegralFacts SegInt SegIntSpec SegIntFacts SegIntMain CumintFacts IndepSpec AtomFacts AtomFacts2 AtomFacts3 ExtrFacts2 TransformSpec TransformFacts TransformFacts2 OperationFacts CondFacts ConvolFacts IndepAsm CondFacts2 Std StdSpec StdFacts StdFacts2 StdFacts3.
From Verif Require Import MomSpec Mom MomFacts3 MStdSpec MStdFacts MStdFacts2 MStdFacts3 Info InfoSpec InfoFacts InfoFacts2 InfoFacts3.
Import List ListNotations.
Open Scope R_scope.

(** - p ln p <= p ln L + (1/L - p) *)
Lemma eta_upper p L : 0 < L -> 0 <= p -> eta p <= p * ln L + (/ L - p).
Proof.
  intros HL Hp. unfold eta. assert (0 < / L) by (apply Rinv_0_lt_compat; auto).
  destruct (Rlt_dec 0 p) as [K|K]; [|replace p with 0 by lra; lra].
  pose proof (rel_lower p (/ L) Hp (Rlt_le _ _ H) (fun _ => H)) as X. unfold rel in X. destruct (Rlt_dec 0 p); [|lra].
  replace (p / / L) with (p * L) in X by (field; lra). rewrite ln_mult in X by auto. lra.
Qed.
Lemma eta_nonneg p : 0 <= p <= 1 -> 0 <= eta p.
Proof.
  intros (H1 & H2). unfold eta. destruct (Rlt_dec 0 p) as [K|K]; [|lra].
  assert (ln p <= 0) by (rewrite <- ln_1; destruct (Req_dec p 1) as [->|]; [lra|apply Rlt_le, ln_increasing; lra]). nra.
Qed.

(** discrete distributions *)
Lemma discrete_entropy eps big l : 0 <= eps -> good eps l -> (forall s, In s l -> isDirac s = true) -> pos_atoms l -> total_mass l = 1 ->
  exists h, entropy eps big l = Ok h /\ 0 <= h <= ln (INR (length l)).
Proof.
  intros He G D PA T. rewrite entropy_pieces by auto. eexists; split; [reflexivity|].
  assert (LE : forall s, In s l -> mass s <= 1).
  { intros s Hs. rewrite <- T. unfold total_mass. destruct (in_split _ _ Hs) as (l1 & l2 & ->). rewrite map_app, sumR_app. cbn [map]. rewrite sumR_cons.
    assert (P : forall k, incl k (l1 ++ s :: l2) -> 0 <= sumR (map mass k)).
    { induction k as [|t k IH]; intros I0; [simpl; lra|]. cbn [map]. rewrite sumR_cons. apply Rplus_le_le_0_compat.
      - assert (Ht : In t (l1 ++ s :: l2)) by (apply I0; left; auto). pose proof (D t Ht). destruct t; try discriminate. simpl. apply Rlt_le. eapply PA; eauto.
      - apply IH. intros x Hx. apply I0. right; auto. }
    assert (0 <= sumR (map mass l1)) by (apply P; intros x Hx; apply in_or_app; auto).
    assert (0 <= sumR (map mass l2)) by (apply P; intros x Hx; apply in_or_app; simpl; auto). lra. }
  assert (NE : l <> []) by (intros ->; unfold total_mass in T; simpl in T; lra).
  set (n := INR (length l)). assert (Hn : 0 < n) by (apply lt_0_INR; destruct l; [congruence|simpl; lia]).
  assert (K : forall k, incl k l -> 0 <= sumR (map ent_piece k) <= sumR (map mass k) * ln n + (INR (length k) * / n - sumR (map mass k))).
  { induction k as [|s k IH]; intros I0; [simpl; lra|]. cbn [map]. rewrite !sumR_cons. change (length (s :: k)) with (S (length k)). rewrite S_INR.
    assert (Hs : In s l) by (apply I0; left; auto). pose proof (D s Hs) as Ds. pose proof (LE s Hs) as L1. destruct s as [| | | |a m|]; try discriminate.
    simpl mass in *. cbn [ent_piece]. pose proof (PA a m Hs) as Pm. specialize (IH (fun x H => I0 x (or_intror H))).
    pose proof (eta_upper m n Hn (Rlt_le _ _ Pm)). pose proof (eta_nonneg m (conj (Rlt_le _ _ Pm) L1)). lra. }
  destruct (K l (incl_refl l)) as (K1 & K2). split; auto. unfold total_mass in T. rewrite T in K2. fold n in K2. rewrite Rinv_r in K2 by lra. lra.
Qed.

(** distributions on an interval *)
Lemma interval_entropy eps big l (a b : R) : 0 <= eps -> good eps l -> (forall s, In s l -> isDirac s = false) -> Forall integrable_piece l -> Forall nonneg_piece l -> total_mass l = 1 ->
  a < b -> (forall s, In s l -> Rbar_le a (sa s) /\ Rbar_le (sb s) b) ->
  (forall s, In s l -> integrable (fun x => eta (sf s x)) (sa s) (sb s)) ->
  exists h, entropy eps big l = Ok h /\ h <= ln (b - a).
Proof.
  intros He G D HI NN T AB IN IE. rewrite entropy_pieces by (auto; intros x m Hm; apply D in Hm; discriminate). eexists; split; [reflexivity|].
  set (L := b - a). assert (HL : 0 < L) by (unfold L; lra). destruct G as (O & W & _).
  assert (K : forall k (c : R), ordered k -> Forall wf_seg k -> incl k l -> a <= c -> c <= b -> (forall s, In s k -> Rbar_le c (sa s)) ->
     sumR (map ent_piece k) <= sumR (map mass k) * ln L + ((b - c) / L - sumR (map mass k))).
  { induction k as [|s k IH]; intros c Ok Wk I0 C1 C2 C3.
    - simpl. assert (0 <= (b - c) / L) by (apply Rmult_le_pos; [lra|apply Rlt_le, Rinv_0_lt_compat; auto]). lra.
    - cbn [map]. rewrite !sumR_cons. assert (Hs : In s l) by (apply I0; left; auto). apply StronglySorted_inv in Ok. destruct Ok as (Ok & Fk). inversion Wk; subst.
      destruct (IN s Hs) as (A1 & A2). pose proof (C3 s (or_introl eq_refl)) as A3. pose proof (D s Hs) as Ds.
      assert (LT : Rbar_lt (sa s) (sb s)) by (destruct s; auto; discriminate).
      destruct (sa s) as [p| |] eqn:Ep; [|destruct (sb s); simpl in LT, A1, A2, A3; tauto|simpl in A1; tauto].
      destruct (sb s) as [q| |] eqn:Eq; [|simpl in A2; tauto|simpl in LT; tauto]. simpl in LT, A1, A2, A3.
      assert (IHk := IH q Ok H2 (fun x H => I0 x (or_intror H)) ltac:(lra) ltac:(lra)).
      assert (Q1 : forall s0, In s0 k -> Rbar_le q (sa s0)). { intros s0 H0. rewrite Forall_forall in Fk. destruct (Fk s0 H0) as (B & _). rewrite Eq in B. auto. }
      specialize (IHk Q1).
      assert (E1 : ent_piece s = Q (fun x => eta (sf s x)) p q).
      { rewrite Q_RInt_gen by auto. destruct s; try discriminate; cbn [ent_piece]; rewrite ?Ep, ?Eq; simpl in Ep, Eq; try injection Ep as ->; try injection Eq as ->; try discriminate; reflexivity. }
      pose proof (IE s Hs) as J1. rewrite Ep, Eq in J1.
      assert (J2 : integrable (sf s) p q). { rewrite Forall_forall in HI. pose proof (piece_has_int s (HI s Hs) Ds) as J. rewrite Ep, Eq in J. auto. }
      assert (E2 : mass s = Q (sf s) p q). { rewrite mass_Q by auto. rewrite Ep, Eq. auto. }
      assert (J3 : integrable (fun x => (ln L - 1) * sf s x + / L) p q) by (apply integrable_plus; [apply integrable_scal; auto|apply integrable_const; auto]).
      assert (J4 : integrable (fun x => ((ln L - 1) * sf s x + / L) + -1 * eta (sf s x)) p q) by (apply integrable_plus; [auto|apply integrable_scal; auto]).
      pose proof (Q_nonneg _ _ _ J4) as X. rewrite Q_plus, Q_plus, !Q_scal, Q_const in X; auto; try (apply integrable_scal; auto); [|apply integrable_const; auto].
      assert (X' : 0 <= (ln L - 1) * Q (sf s) p q + / L * (q - p) + -1 * Q (fun x => eta (sf s x)) p q).
      { apply X. intros x (X1 & X2). assert (N0 : 0 <= sf s x).
        { rewrite Forall_forall in NN. pose proof (NN s Hs) as N0. destruct s; try discriminate; apply N0; rewrite ?Ep, ?Eq; auto. }
        pose proof (eta_upper (sf s x) L HL N0). lra. }
      rewrite E1, E2.
      assert (X2 : / L * (q - p) <= (q - c) / L). { unfold Rdiv. rewrite (Rmult_comm (q - c)). apply Rmult_le_compat_l; [apply Rlt_le, Rinv_0_lt_compat; auto|lra]. }
      replace ((b - c) / L) with ((b - q) / L + (q - c) / L) by (field; lra). lra. }
  specialize (K l a O W (incl_refl l) (Rle_refl a) ltac:(lra) (fun s H => proj1 (IN s H))).
  unfold total_mass in T. rewrite T in K. replace ((b - a) / L) with 1 in K by (unfold L; field; unfold L in HL; lra). lra.
Qed.

(** ** distributions given by a formula *)
Lemma path_good eps l a b : Forall (fun s => isDirac s = false) l -> Forall wf_seg l -> path a l b -> good eps l.
Proof.
  intros D W P. split; [eapply path_ordered; eauto|split; auto]. apply dirac_sep_pos.
  replace (dirac_pos l) with (@nil R); [constructor|]. clear - D. induction D as [|s l H F IH]; auto. simpl. rewrite <- IH. destruct s; auto; discriminate.
Qed.

Lemma entropy_of r f a b v : pieces r f a b -> has_val (fun x => eta (f x)) a b v -> has_entropy entropy r v.
Proof.
  intros (q & E & C & P) HV. exists q. split; auto. intros eps big He.
  assert (D : Forall (fun s => isDirac s = false) (segs q)) by (eapply Forall_impl; [|exact C]; intros s H; apply H).
  assert (W : Forall wf_seg (segs q)) by (eapply Forall_impl; [|exact C]; intros s H; apply H).
  rewrite entropy_pieces; auto.
  - f_equal. set (g := fun x => if Rlt_dec 0 (f x) then - ln (f x) else 0).
    assert (EG : forall x, g x * f x = eta (f x)) by (intros x; unfold g, eta; destruct (Rlt_dec 0 (f x)); ring).
    destruct (tiles_expect g f a b (segs q) v C P) as (_ & K). { eapply ii_ext; [|exact HV]. intros x _. symmetry. apply EG. }
    rewrite <- K, expect_contrib. apply sumR_ext. intros s Hs.
    rewrite Forall_forall in C, W. destruct (C s Hs) as (D1 & W1 & V1 & _). rewrite contrib_Q by auto.
    assert (LT : Rbar_lt (sa s) (sb s)) by (destruct s; auto; discriminate).
    transitivity (Q (fun x => eta (sf s x)) (sa s) (sb s)).
    + rewrite Q_RInt_gen by auto. destruct s; try discriminate; reflexivity.
    + apply Q_ext; auto. intros x X. rewrite (V1 x X). symmetry. apply EG.
  - eapply path_good; eauto.
  - intros x m H. rewrite Forall_forall in D. apply D in H. discriminate.
Qed.

Lemma eta_pos p : 0 < p -> eta p = - (p * ln p).
Proof. intros H. unfold eta. destruct (Rlt_dec 0 p); [auto|lra]. Qed.

Lemma uniform_entropy eps (a b : R) : a < b -> has_entropy entropy (uniform_init eps a b) (ln (b - a)).
Proof.
  intros L. apply (entropy_of _ (fun _ => 1 / (b - a)) a b).
  - unfold uniform_init. destruct (reqP (b - a) 0); [lra|].
    apply pieces_add; [|simpl; auto]. apply Forall_cons; [|apply Forall_nil]. repeat split; simpl; auto. discriminate.
  - assert (P : 0 < 1 / (b - a)) by (apply Rdiv_lt_0_compat; lra).
    split; [apply integrable_const; auto|]. rewrite Q_const, eta_pos by auto. unfold Rdiv. rewrite Rmult_1_l, ln_Rinv by lra. field. lra.
Qed.

Lemma normal_entropy eps mu sigma : 0 < sigma -> has_entropy entropy (normal_init eps mu sigma) (ln (sigma * sqrt (2 * PI)) + 1 / 2).
Proof.
  intros S0. destruct (normal_ints mu sigma S0) as (I0 & _ & I2).
  apply (entropy_of _ (normal_pdf mu sigma) m_infty p_infty).
  - unfold normal_init. destruct (rleP sigma 0); [lra|]. cbv zeta. apply pieces_add; [carr; lra|simpl; auto].
  - assert (P0 : 0 < sqrt (2 * PI)) by (apply sqrt_lt_R0; pose proof PI_RGT_0; lra).
    set (c := sigma * sqrt (2 * PI)). assert (C : 0 < c) by (apply Rmult_lt_0_compat; auto).
    pose proof (ii_plus _ _ _ _ _ _ (ii_scal (ln c) _ _ _ _ I0) (ii_scal (/ (2 * sigma ^ 2)) _ _ _ _ I2)) as K.
    eapply ii_val; [eapply ii_ext; [|exact K]|field; lra]. intros x _. simpl.
    assert (P : 0 < normal_pdf mu sigma x). { unfold normal_pdf. fold c. apply Rmult_lt_0_compat; [apply Rdiv_lt_0_compat; lra|apply exp_pos]. }
    rewrite eta_pos by auto.
    assert (E : ln (normal_pdf mu sigma x) = - ln c - / (2 * sigma ^ 2) * (x - mu) ^ 2).
    { unfold normal_pdf. fold c. rewrite ln_mult; [|apply Rdiv_lt_0_compat; lra|apply exp_pos]. rewrite ln_exp. unfold Rdiv. rewrite Rmult_1_l, ln_Rinv by auto.
      replace 0.5 with (1 / 2) by lra. field. lra. }
    rewrite E. simpl. ring.
Qed.

Lemma expo_entropy eps lmbda : 0 < lmbda -> has_entropy entropy (expo_init eps lmbda) (1 - ln lmbda).
Proof.
  intros L. apply (entropy_of _ (expo_pdf lmbda) 0 p_infty).
  - unfold expo_init. cbv zeta. apply pieces_add; [carr; lra|simpl; auto].
  - apply (ii_ext (fun x => lmbda * exp (- lmbda * x) * (lmbda * x - ln lmbda))).
    { intros x (X & _). simpl in X. unfold expo_pdf. destruct (rltP x 0); [lra|]. rewrite eta_pos by (apply Rmult_lt_0_compat; [auto|apply exp_pos]).
      rewrite ln_mult, ln_exp; auto; [|apply exp_pos]. ring. }
    set (G := fun x => - (exp (- lmbda * x) * (lmbda * x + (1 - ln lmbda)))).
    apply (ii_ftc _ G 0 p_infty (- (1 - ln lmbda)) 0); simpl; auto.
    + intros x _. unfold G. auto_derive; auto. ring.
    + intros x _. apply der_cont. auto_derive. auto.
    + apply lim_r_cont; [unfold G; auto_derive; auto|]. unfold G. rewrite Rmult_0_r, exp_0. ring.
    + assert (LX : filterlim (fun x => lmbda * x) (Rbar_locally p_infty) (Rbar_locally p_infty)) by (apply (lim_aff_pp _ (fun x => x) _ 0 lmbda); [intros; ring|auto|apply lim_id_p]).
      assert (L1 : filterlim (fun x => Rpower (lmbda * x) 1 * exp (- (lmbda * x))) (Rbar_locally p_infty) (locally 0)).
      { apply (filterlim_comp _ _ _ (fun x => lmbda * x) (fun y => Rpower y 1 * exp (- y)) _ (Rbar_locally p_infty)); [auto|apply lim_pow_exp]. }
      assert (L2 : filterlim (fun x => exp (- lmbda * x)) (Rbar_locally p_infty) (locally 0)).
      { apply (lim_exp_m (Rbar_locally p_infty)). apply (lim_aff_pm _ (fun x => x) _ 0 (- lmbda)); [intros; ring|lra|apply lim_id_p]. }
      assert (L3 : filterlim (fun x => - ((Rpower (lmbda * x) 1 * exp (- (lmbda * x))) + (1 - ln lmbda) * exp (- lmbda * x))) (Rbar_locally p_infty) (locally (- (0 + (1 - ln lmbda) * 0)))).
      { apply (filterlim_comp _ _ _ _ Ropp _ (locally (0 + (1 - ln lmbda) * 0))); [|apply (filterlim_opp (V := R_NormedModule))].
        eapply filterlim_comp_2; [exact L1| |apply (filterlim_plus (V := R_NormedModule))].
        apply (filterlim_comp _ _ _ _ (fun y => (1 - ln lmbda) * y) _ (locally 0)); [exact L2|]. apply (filterlim_scal_r (V := R_NormedModule)). }
      replace (- (0 + (1 - ln lmbda) * 0)) with 0 in L3 by ring.
      eapply filterlim_ext_loc; [|exact L3]. exists 0. intros x X. unfold G. rewrite Rpower_1 by (apply Rmult_lt_0_compat; auto).
      replace (- (lmbda * x)) with (- lmbda * x) by ring. ring.
    + ring.
Qed.
