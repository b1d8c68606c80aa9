(** Variable transforms are exact. *)
From Coq Require Import Reals Lra List Bool.
From Coquelicot Require Import Coquelicot.
From Verif Require Import Base Integral IntegralFacts SubstFacts Vt VtSpec.
Import List ListNotations.
Open Scope R_scope.

Lemma mk_exact v a b sg : (sg = 1 \/ sg = -1) ->
  (forall x : R, Rbar_lt a x -> Rbar_lt x b -> vmin v < vchange v x < vmax v /\ vinv v (vchange v x) = x) ->
  (forall t : R, vmin v < t < vmax v -> Rbar_lt a (vinv v t) /\ Rbar_lt (vinv v t) b /\ vchange v (vinv v t) = t) ->
  (forall x y : R, Rbar_lt a x -> x < y -> Rbar_lt y b -> 0 < sg * (vchange v y - vchange v x)) ->
  (forall t : R, vmin v < t < vmax v -> 0 < vderiv v t /\ is_derive (vinv v) t (sg * vderiv v t) /\ continuous (vderiv v) t) ->
  vmin v < vmax v -> (forall t, In t (vinf v) -> t = vmin v \/ t = vmax v) -> exact_transform v a b sg.
Proof.
  intros S H1 H2 H3 H5 H6 H7. unfold exact_transform. splits; auto.
  intros t u T TU U. destruct (H2 t) as (A & A' & E); [lra|]. destruct (H2 u) as (B & B' & E'); [lra|].
  destruct (Rtotal_order (vinv v t) (vinv v u)) as [L|[L|L]].
  - pose proof (H3 _ _ A L B'). rewrite E, E' in H. destruct S as [-> | ->]; lra.
  - rewrite L, E' in E. lra.
  - pose proof (H3 _ _ B L A'). rewrite E, E' in H. destruct S as [-> | ->]; lra.
Qed.
Lemma opp_in a b (x : R) : Rbar_lt (Rbar_opp b) x -> Rbar_lt x (Rbar_opp a) -> Rbar_lt a (- x) /\ Rbar_lt (- x) b.
Proof. destruct a, b; simpl; auto; try tauto; lra. Qed.
Lemma opp_in' a b (x : R) : Rbar_lt a x -> Rbar_lt x b -> Rbar_lt (Rbar_opp b) (- x) /\ Rbar_lt (- x) (Rbar_opp a).
Proof. destruct a, b; simpl; auto; try tauto; lra. Qed.
Lemma loc_open (a b t : R) : a < t < b -> locally t (fun u => a < u < b).
Proof.
  intros H. assert (D : 0 < Rmin (t - a) (b - t)) by (apply Rmin_pos; lra). exists (mkposreal _ D). intros u U.
  unfold ball in U; simpl in U; unfold AbsRing_ball, abs, minus, plus, opp in U; simpl in U. apply Rabs_def2 in U.
  pose proof (Rmin_l (t - a) (b - t)). pose proof (Rmin_r (t - a) (b - t)). lra.
Qed.
Lemma exact_same v w a b sg : vmin w = vmin v -> vmax w = vmax v -> vinf w = vinf v -> (sg = 1 \/ sg = -1) ->
  (forall x : R, Rbar_lt a x -> Rbar_lt x b -> vchange w x = vchange v x) ->
  (forall t : R, vmin v < t < vmax v -> vinv w t = vinv v t /\ vderiv w t = vderiv v t) ->
  exact_transform v a b sg -> exact_transform w a b sg.
Proof.
  intros M1 M2 M3 S E1 E2 (H1 & H2 & H3 & H4 & H5 & H6 & H7). rewrite <- M1, <- M2 in *. apply mk_exact; auto.
  - intros x A B. rewrite E1 by auto. destruct (H1 x A B) as (P & Q). split; auto. rewrite (proj1 (E2 _ P)). auto.
  - intros t T. rewrite (proj1 (E2 t T)). destruct (H2 t T) as (A & B & C). splits; auto. rewrite E1; auto.
  - intros x y A L B. assert (A2 : Rbar_lt a y) by (eapply Rbar_lt_trans; [exact A|]; auto). assert (B2 : Rbar_lt x b) by (eapply Rbar_lt_trans; [|exact B]; auto).
    rewrite !E1; auto.
  - intros t T. destruct (H5 t T) as (A & B & C). rewrite (proj2 (E2 t T)). splits; auto.
    + eapply is_derive_ext_loc; [|exact B]. generalize (loc_open _ _ _ T). apply filter_imp. intros u U. symmetry. apply E2; auto.
    + eapply continuous_ext_loc; [|exact C]. generalize (loc_open _ _ _ T). apply filter_imp. intros u U. symmetry. apply E2; auto.
  - rewrite M3. auto.
Qed.
Lemma exact_flip v w a b sg : vmin w = vmin v -> vmax w = vmax v -> vinf w = vinf v -> (sg = 1 \/ sg = -1) ->
  (forall x : R, Rbar_lt (Rbar_opp b) x -> Rbar_lt x (Rbar_opp a) -> vchange w x = vchange v (- x)) ->
  (forall t : R, vmin v < t < vmax v -> vinv w t = - vinv v t /\ vderiv w t = vderiv v t) ->
  exact_transform v a b sg -> exact_transform w (Rbar_opp b) (Rbar_opp a) (- sg).
Proof.
  intros M1 M2 M3 S E1 E2 (H1 & H2 & H3 & H4 & H5 & H6 & H7). rewrite <- M1, <- M2 in *. apply mk_exact; auto.
  - destruct S as [-> | ->]; [right|left]; lra.
  - intros x A B. rewrite E1 by auto. destruct (opp_in a b x A B) as (A' & B'). destruct (H1 _ A' B') as (P & Q). split; auto. rewrite (proj1 (E2 _ P)), Q. ring.
  - intros t T. rewrite (proj1 (E2 t T)). destruct (H2 t T) as (A & B & C). destruct (opp_in' a b _ A B) as (A' & B'). splits; auto. rewrite E1, Ropp_involutive; auto.
  - intros x y A L B.
    assert (A2 : Rbar_lt (Rbar_opp b) y) by (eapply Rbar_lt_trans; [exact A|]; auto). assert (B2 : Rbar_lt x (Rbar_opp a)) by (eapply Rbar_lt_trans; [|exact B]; auto).
    rewrite !E1; auto. destruct (opp_in a b x A B2) as (P1 & P2), (opp_in a b y A2 B) as (Q1 & Q2).
    assert (L' : - y < - x) by lra. pose proof (H3 _ _ Q1 L' P2). lra.
  - intros t T. destruct (H5 t T) as (A & B & C). rewrite (proj2 (E2 t T)). splits; auto.
    + eapply is_derive_ext_loc; [|replace (- sg * vderiv v t) with (- (sg * vderiv v t)) by ring; exact (is_derive_opp (V := R_NormedModule) _ _ _ B)].
      generalize (loc_open _ _ _ T). apply filter_imp. intros u U. symmetry. rewrite (proj1 (E2 u U)). reflexivity.
    + eapply continuous_ext_loc; [|exact C]. generalize (loc_open _ _ _ T). apply filter_imp. intros u U. symmetry. apply E2; auto.
  - rewrite M3. auto.
Qed.

(** ** Integration through an exact transform *)
Lemma apply_inside v b f t : (forall u, In u (vinf v) -> u = vmin v \/ u = vmax v) -> vmin v < t < vmax v ->
  apply_vt v b f t = if b then f (vinv v t) * vderiv v t else f (vinv v t).
Proof.
  intros H T. unfold apply_vt. replace (existsb (req t) (vinf v)) with false; auto. symmetry.
  apply not_true_iff_false. rewrite existsb_exists. intros (u & U & E). apply req_true in E. subst u. destruct (H t U); lra.
Qed.
Lemma exact_onto v a b sg : exact_transform v a b sg -> Rbar_lt a b -> (sg = 1 \/ sg = -1) ->
  (sg = 1 /\ inc_onto (vinv v) (vmin v) (vmax v) a b) \/ (sg = -1 /\ dec_onto (vinv v) (vmin v) (vmax v) a b).
Proof.
  intros (H1 & H2 & H3 & H4 & H5 & H6 & H7) AB [-> | ->]; [left|right]; split; auto; unfold inc_onto, dec_onto, RbarIn; splits; auto.
  - intros y (Y1 & Y2). destruct (H2 y) as (A & B & _); auto.
  - intros y z (Y1 & Y2) (Z1 & Z2) L. pose proof (H4 y z Y1 L Z2). lra.
  - intros x (X1 & X2). destruct (H1 x X1 X2) as (A & B). exists (vchange v x). split; auto.
  - intros y (Y1 & Y2). destruct (H2 y) as (A & B & _); auto.
  - intros y z (Y1 & Y2) (Z1 & Z2) L. pose proof (H4 y z Y1 L Z2). lra.
  - intros x (X1 & X2). destruct (H1 x X1 X2) as (A & B). exists (vchange v x). split; auto.
Qed.
Lemma integrate_exact_vt v a b sg f : exact_transform v a b sg -> (sg = 1 \/ sg = -1) ->
  integrable f a b -> (forall x : R, RbarIn a b x -> continuous f x) ->
  integrable (apply_vt v true f) (vmin v) (vmax v) /\ integrate_vt v f = Q f a b.
Proof.
  intros E S HI C. destruct (integrable_prim _ _ _ HI) as (G & P). assert (AB : Rbar_lt a b) by apply HI.
  pose proof (exact_onto v a b sg E AB S) as O. destruct E as (H1 & H2 & H3 & H4 & H5 & H6 & H7).
  assert (HQ : integrable (fun t => f (vinv v t) * Rabs (sg * vderiv v t)) (vmin v) (vmax v) /\
               Q (fun t => f (vinv v t) * Rabs (sg * vderiv v t)) (vmin v) (vmax v) = G b - G a).
  { assert (D : forall y : R, RbarIn (vmin v) (vmax v) y -> is_derive (vinv v) y (sg * vderiv v y) /\ continuous (fun t => sg * vderiv v t) y).
    { intros y (Y1 & Y2). destruct (H5 y) as (_ & K1 & K2); auto. split; auto. apply (continuous_scal_r (V := R_NormedModule) sg (vderiv v)); auto. }
    destruct O as [(_ & O)|(_ & O)]; [apply (subst_inc f a b G (vinv v) (fun t => sg * vderiv v t))|apply (subst_dec f a b G (vinv v) (fun t => sg * vderiv v t))]; auto. }
  destruct HQ as (I1 & I2).
  assert (EQ : forall t : R, RbarIn (vmin v) (vmax v) t -> f (vinv v t) * Rabs (sg * vderiv v t) = apply_vt v true f t).
  { intros t (T1 & T2). rewrite apply_inside by auto. destruct (H5 t) as (K & _); auto. f_equal.
    rewrite Rabs_mult, (Rabs_right (vderiv v t)) by lra. destruct S as [-> | ->]; [rewrite Rabs_R1|rewrite Rabs_left by lra]; ring. }
  split.
  - eapply integrable_ext; [exact EQ|auto].
  - unfold integrate_vt. rewrite <- (Q_ext _ _ _ _ (proj1 I1) EQ), I2. symmetry.
    apply (prim_Q f a b G a b P); auto using Rbar_le_refl, Rbar_lt_le.
Qed.

(** ** The algebraic transforms *)
Lemma alg_p_exact L c : 0 < c -> exact_transform (alg_p L c) L p_infty 1.
Proof.
  intros C. apply mk_exact; cbn [alg_p vmin vmax vchange vinv vderiv vinf]; auto.
  - intros x A _. simpl in A. assert (D : 0 < x - L + c) by lra. split.
    + split; [apply (Rmult_lt_reg_r (x - L + c))|apply (Rmult_lt_reg_r (x - L + c))]; auto; unfold Rdiv; rewrite Rmult_assoc, Rinv_l by lra; lra.
    + field. lra.
  - intros t T. splits; [|simpl; auto|field; lra].
    simpl. assert (0 < c * (1 + t) / (1 - t)) by (apply Rdiv_lt_0_compat; nra). lra.
  - intros x y A XY _. simpl in A. rewrite Rmult_1_l.
    replace ((y - L - c) / (y - L + c) - (x - L - c) / (x - L + c)) with (2 * c * (y - x) / ((y - L + c) * (x - L + c))) by (field; lra).
    apply Rdiv_lt_0_compat; nra.
  - intros t T. splits.
    + apply Rdiv_lt_0_compat; [lra|]. apply pow_lt. lra.
    + auto_derive; [lra|]. field. lra.
    + apply (ex_derive_continuous (V := R_NormedModule)). auto_derive. apply Rgt_not_eq. nra.
  - lra.
  - intros t [<-|[]]; auto.
Qed.
Lemma alg_m_exact U c : 0 < c -> exact_transform (alg_m U c) m_infty U (-1).
Proof.
  intros C. pose proof (alg_p_exact (- U) c C) as E.
  replace (-1) with (- (1)) by ring. replace (Finite U) with (Rbar_opp (- U)) by (simpl; f_equal; ring). change m_infty with (Rbar_opp p_infty).
  eapply exact_flip; [..|exact E]; auto.
  - intros x _ _. cbn. f_equal; ring.
  - intros t T. cbn. split; auto. ring.
Qed.
Lemma hyp_pos c x : 0 < c -> 0 < c * c + x * x.
Proof. nra. Qed.
Lemma alg_pm_exact c : 0 < c -> exact_transform (alg_pm c) m_infty p_infty 1.
Proof.
  intros C. apply mk_exact; cbn [alg_pm vmin vmax vchange vinv vderiv vinf]; auto.
  - intros x _ _. pose proof (hyp_pos c x C) as H. pose proof (sqrt_lt_R0 _ H) as S. pose proof (sqrt_sqrt _ (Rlt_le _ _ H)) as SS. set (s := sqrt (c * c + x * x)) in *.
    assert (B : -1 < x / s < 1).
    { split; apply (Rmult_lt_reg_r s); auto; unfold Rdiv; rewrite Rmult_assoc, Rinv_l by lra; nra. }
    split; auto. replace (1 - x / s * (x / s)) with (Rsqr (c / s)).
    + rewrite sqrt_Rsqr by (apply Rlt_le, Rdiv_lt_0_compat; lra). field. lra.
    + unfold Rsqr. replace (c / s * (c / s)) with (c * c / (s * s)) by (field; lra). replace (1 - x / s * (x / s)) with ((s * s - x * x) / (s * s)) by (field; lra). f_equal. lra.
  - intros t T. splits; [simpl; auto|simpl; auto|]. assert (H : 0 < 1 - t * t) by nra. pose proof (sqrt_lt_R0 _ H) as S. pose proof (sqrt_sqrt _ (Rlt_le _ _ H)) as SS. set (s := sqrt (1 - t * t)) in *.
    replace (c * c + c * t / s * (c * t / s)) with (Rsqr (c / s)).
    + rewrite sqrt_Rsqr by (apply Rlt_le, Rdiv_lt_0_compat; lra). field. lra.
    + unfold Rsqr. replace (c / s * (c / s)) with (c * c / (s * s)) by (field; lra). replace (c * c + c * t / s * (c * t / s)) with (c * c * (s * s + t * t) / (s * s)) by (field; lra). rewrite SS. f_equal. ring.
  - intros x y _ XY _. rewrite Rmult_1_l.
    assert (M : forall x : R, is_derive (fun x : R => x / sqrt (c * c + x * x)) x (c * c / (sqrt (c * c + x * x)) ^ 3)).
    { intros z. pose proof (hyp_pos c z C) as H. pose proof (sqrt_lt_R0 _ H) as S. pose proof (sqrt_sqrt _ (Rlt_le _ _ H)) as SS.
      auto_derive; [split; auto; split; auto; apply Rgt_not_eq; auto|]. set (s := sqrt (c * c + z * z)) in *.
      replace (c * c) with (s * s - z * z) by lra. field. lra. }
    destruct (MVT_gen (fun x => x / sqrt (c * c + x * x)) x y (fun x => c * c / (sqrt (c * c + x * x)) ^ 3)) as (z & _ & E).
    + intros z _. apply M.
    + intros z _. apply continuity_pt_filterlim. apply (ex_derive_continuous (V := R_NormedModule) (fun x => x / sqrt (c * c + x * x)) z). exists (c * c / (sqrt (c * c + z * z)) ^ 3). apply M.
    + rewrite E. apply Rmult_lt_0_compat; [|lra]. pose proof (hyp_pos c z C) as H. apply Rdiv_lt_0_compat; [nra|]. apply pow_lt. apply sqrt_lt_R0; auto.
  - intros t T. assert (H : 0 < 1 - t * t) by nra. pose proof (sqrt_lt_R0 _ H) as S. pose proof (sqrt_sqrt _ (Rlt_le _ _ H)) as SS.
    assert (CU : forall u, 0 < 1 - u * u -> sqrt ((1 - u * u) ^ 3) = (1 - u * u) * sqrt (1 - u * u)).
    { intros u U. replace ((1 - u * u) ^ 3) with (Rsqr (1 - u * u) * (1 - u * u)) by (unfold Rsqr; ring).
      rewrite sqrt_mult_alt by apply Rle_0_sqr. rewrite sqrt_Rsqr by lra. auto. }
    splits.
    + apply Rmult_lt_0_compat; auto. rewrite CU by auto. assert (0 <= t * t / ((1 - t * t) * sqrt (1 - t * t))) by (apply Rmult_le_pos; [nra|]; apply Rlt_le, Rinv_0_lt_compat; nra).
      assert (0 < 1 / sqrt (1 - t * t)) by (apply Rdiv_lt_0_compat; lra). lra.
    + rewrite CU by auto. auto_derive; [split; [lra|]; split; auto; apply Rgt_not_eq; auto|]. set (s := sqrt (1 - t * t)) in *.
      fold (1 - t * t). replace (1 + - (t * t)) with (1 - t * t) by ring. fold s. replace (1 - t * t) with (s * s) by lra. field. lra.
    + apply (ex_derive_continuous (V := R_NormedModule)). auto_derive. assert (K : 0 < (1 + - (t * t)) * ((1 + - (t * t)) * ((1 + - (t * t)) * 1))) by (repeat apply Rmult_lt_0_compat; lra).
      splits; auto; try lra; apply Rgt_not_eq; apply sqrt_lt_R0; auto; lra.
  - lra.
  - intros t [<-|[<-|[]]]; auto.
Qed.

(** ** The reciprocal transform of the whole line *)
Lemma rec_inv_derive t : -1 < t < 1 -> is_derive (fun u : R => u / (1 - Rabs u)) t (1 / ((1 - Rabs t) * (1 - Rabs t))).
Proof.
  intros T. destruct (Rtotal_order t 0) as [L|[-> |L]].
  - eapply (is_derive_ext_loc (fun u : R => u / (1 + u))).
    + assert (T' : -1 < t < 0) by lra. generalize (loc_open _ _ _ T'). apply filter_imp. intros u U. rewrite Rabs_left by lra. f_equal. ring.
    + rewrite Rabs_left by lra. auto_derive; [lra|]. field. lra.
  - apply is_derive_Reals. rewrite Rabs_R0. intros e He. assert (D : 0 < Rmin (1 / 2) (e / 2)) by (apply Rmin_pos; lra). exists (mkposreal _ D). intros h H0 Hh. simpl in Hh.
    pose proof (Rmin_l (1 / 2) (e / 2)). pose proof (Rmin_r (1 / 2) (e / 2)). rewrite Rplus_0_l, Rabs_R0.
    assert (A : 0 < Rabs h) by (apply Rabs_pos_lt; auto).
    replace ((h / (1 - Rabs h) - 0 / (1 - 0)) / h - 1 / ((1 - 0) * (1 - 0))) with (Rabs h / (1 - Rabs h)) by (field; lra).
    rewrite Rabs_right by (apply Rle_ge, Rlt_le, Rdiv_lt_0_compat; lra).
    apply (Rmult_lt_reg_r (1 - Rabs h)); [lra|]. unfold Rdiv. rewrite Rmult_assoc, Rinv_l by lra. nra.
  - eapply (is_derive_ext_loc (fun u : R => u / (1 - u))).
    + assert (T' : 0 < t < 1) by lra. generalize (loc_open _ _ _ T'). apply filter_imp. intros u U. rewrite Rabs_right by lra. auto.
    + rewrite Rabs_right by lra. auto_derive; [lra|]. field. lra.
Qed.
Lemma rec_pm_exact : exact_transform rec_pm m_infty p_infty 1.
Proof.
  apply mk_exact; cbn [rec_pm vmin vmax vchange vinv vderiv vinf]; auto.
  - intros x _ _. destruct (Rle_lt_dec 0 x) as [L|L].
    + rewrite (Rabs_right x) by lra. assert (B : 0 <= x / (1 + x) < 1).
      { split; [apply Rmult_le_pos; [lra|]; apply Rlt_le, Rinv_0_lt_compat; lra|]. apply (Rmult_lt_reg_r (1 + x)); [lra|]. unfold Rdiv; rewrite Rmult_assoc, Rinv_l by lra. lra. }
      split; [lra|]. rewrite Rabs_right by lra. field. split; try lra.
    + rewrite (Rabs_left x) by lra. assert (B : -1 < x / (1 + - x) < 0).
      { split; apply (Rmult_lt_reg_r (1 + - x)); try lra; unfold Rdiv; rewrite Rmult_assoc, Rinv_l by lra; lra. }
      split; [lra|]. rewrite Rabs_left by lra. field. split; try lra.
  - intros t T. splits; [simpl; auto|simpl; auto|]. destruct (Rle_lt_dec 0 t) as [L|L].
    + rewrite (Rabs_right t) by lra. rewrite (Rabs_right (t / (1 - t))) by (apply Rle_ge, Rmult_le_pos; [lra|]; apply Rlt_le, Rinv_0_lt_compat; lra). field. lra.
    + rewrite (Rabs_left t) by lra. rewrite (Rabs_left (t / (1 - - t))). field. split; lra.
      apply (Rmult_lt_reg_r (1 - - t)); try lra; unfold Rdiv; rewrite Rmult_assoc, Rinv_l by lra; lra.
  - intros x y _ L _. rewrite Rmult_1_l. pose proof (Rabs_pos x). pose proof (Rabs_pos y).
    replace (y / (1 + Rabs y) - x / (1 + Rabs x)) with ((y * (1 + Rabs x) - x * (1 + Rabs y)) / ((1 + Rabs y) * (1 + Rabs x))) by (field; lra).
    apply Rdiv_lt_0_compat; [|nra]. destruct (Rle_lt_dec 0 x); [rewrite !Rabs_right by lra; nra|]. rewrite (Rabs_left x) by lra.
    destruct (Rle_lt_dec 0 y); [rewrite !Rabs_right by lra|rewrite !Rabs_left by lra]; nra.
  - intros t T. assert (Rabs t < 1) by (apply Rabs_def1; lra). splits.
    + apply Rdiv_lt_0_compat; [lra|]. apply Rmult_lt_0_compat; lra.
    + rewrite Rmult_1_l. apply rec_inv_derive; auto.
    + assert (C1 : continuous (fun u : R => 1 - Rabs u) t) by (apply (continuous_minus (V := R_NormedModule)); [apply continuous_const|apply continuous_Rabs]).
      apply (continuous_mult (K := R_AbsRing) (fun _ : R => 1) (fun u : R => / ((1 - Rabs u) * (1 - Rabs u)))); [apply continuous_const|].
      apply (continuous_comp (fun u : R => (1 - Rabs u) * (1 - Rabs u)) Rinv).
      * apply (continuous_mult (K := R_AbsRing)); auto.
      * apply continuous_Rinv. apply Rgt_not_eq. apply Rmult_lt_0_compat; lra.
  - lra.
  - intros t [<-|[<-|[]]]; auto.
Qed.

(** ** The one-sided reciprocal transforms *)
Lemma offset_pos L : 0 < offset L.
Proof. unfold offset. destruct (reqP L 0); [lra|]. assert (0 < Rabs L) by (apply Rabs_pos_lt; auto). lra. Qed.
Lemma offset_opp L : offset (- L) = offset L.
Proof. unfold offset. rewrite Rabs_Ropp. destruct (reqP L 0), (reqP (- L) 0); auto; exfalso; lra. Qed.
Lemma Rpower_lt1 w p : 0 < w < 1 -> 0 < p -> 0 < Rpower w p < 1.
Proof.
  intros W P. unfold Rpower. split; [apply exp_pos|]. rewrite <- exp_0. apply exp_increasing.
  assert (ln w < 0) by (rewrite <- ln_1; apply ln_increasing; lra). nra.
Qed.
Lemma Rpower_inc w z p : 0 < w < z -> 0 < p -> Rpower w p < Rpower z p.
Proof. intros W P. unfold Rpower. apply exp_increasing. assert (ln w < ln z) by (apply ln_increasing; lra). nra. Qed.
Lemma Rpower_root w p : 0 < w -> p <> 0 -> Rpower (Rpower w (1 / p)) p = w.
Proof. intros W P. rewrite Rpower_mult. replace (1 / p * p) with 1 by (field; auto). apply Rpower_1; auto. Qed.
Lemma Rpower_root' w p : 0 < w -> p <> 0 -> Rpower (Rpower w p) (1 / p) = w.
Proof. intros W P. rewrite Rpower_mult. replace (p * (1 / p)) with 1 by (field; auto). apply Rpower_1; auto. Qed.
Lemma Rpower_2 w : 0 < w -> Rpower w 2 = w * w.
Proof. intros W. replace 2 with (1 + 1) by ring. rewrite Rpower_plus, !Rpower_1; auto. Qed.

Definition core_p (o L p : R) : vt :=
  VT (fun x => Rpower (o / (x - L + o)) (1 / p)) (fun t => L - o + o / Rpower t p) (fun t => o * p / Rpower t (p + 1)) 0 1 [0].
Lemma core_w o L x : 0 < o -> L < x -> 0 < o / (x - L + o) < 1.
Proof.
  intros O H. split; [apply Rdiv_lt_0_compat; lra|]. apply (Rmult_lt_reg_r (x - L + o)); [lra|]. unfold Rdiv; rewrite Rmult_assoc, Rinv_l by lra; lra.
Qed.
Lemma core_p_exact o L p : 0 < o -> 0 < p -> exact_transform (core_p o L p) L p_infty (-1).
Proof.
  intros O P. apply mk_exact; cbn [core_p vmin vmax vchange vinv vderiv vinf]; auto.
  - intros x A _. simpl in A. pose proof (core_w o L x O A) as W. split.
    + apply Rpower_lt1; auto. apply Rdiv_lt_0_compat; lra.
    + rewrite Rpower_root by lra. field. lra.
  - intros t T. pose proof (Rpower_lt1 t p T P) as W. splits; [|simpl; auto|].
    + simpl. assert (o < o / Rpower t p); [|lra]. apply (Rmult_lt_reg_r (Rpower t p)); [lra|]. unfold Rdiv; rewrite Rmult_assoc, Rinv_l by lra; nra.
    + replace (o / (L - o + o / Rpower t p - L + o)) with (Rpower t p) by (field; lra). apply Rpower_root'; lra.
  - intros x y A XY _. simpl in A. pose proof (core_w o L x O A) as W. assert (B : L < y) by lra. pose proof (core_w o L y O B) as W'.
    assert (o / (y - L + o) < o / (x - L + o)).
    { unfold Rdiv. apply Rmult_lt_compat_l; auto. apply Rinv_lt_contravar; nra. }
    assert (0 < 1 / p) by (apply Rdiv_lt_0_compat; lra). pose proof (Rpower_inc (o / (y - L + o)) (o / (x - L + o)) (1 / p)). lra.
  - intros t T. assert (D : forall u : R, 0 < u -> forall q, is_derive (fun z : R => Rpower z q) u (q * Rpower u (q - 1))) by (intros u U q; apply is_derive_Reals; apply derivable_pt_lim_power; auto).
    splits.
    + apply Rdiv_lt_0_compat; [nra|]. apply exp_pos.
    + eapply (is_derive_ext_loc (fun u : R => L - o + o * Rpower u (- p))).
      * generalize (loc_open _ _ _ T). apply filter_imp. intros u U. rewrite Rpower_Ropp. reflexivity.
      * replace (-1 * (o * p / Rpower t (p + 1))) with (plus (zero : R) (scal o ((- p) * Rpower t (- p - 1)))).
        -- apply (is_derive_plus (V := R_NormedModule) (fun _ : R => L - o) (fun u : R => o * Rpower u (- p))); [apply @is_derive_const|].
           apply (is_derive_scal (fun u : R => Rpower u (- p))). apply D; lra.
        -- unfold plus, zero, scal; simpl; unfold mult; simpl. replace (- p - 1) with (- (p + 1)) by ring. rewrite Rpower_Ropp. field. apply Rgt_not_eq, exp_pos.
    + apply (continuous_mult (K := R_AbsRing) (fun _ : R => o * p) (fun u : R => / Rpower u (p + 1))); [apply continuous_const|].
      apply (continuous_comp (fun u : R => Rpower u (p + 1)) Rinv).
      * apply (ex_derive_continuous (V := R_NormedModule) (fun u : R => Rpower u (p + 1))). eexists. apply D; lra.
      * apply continuous_Rinv. apply Rgt_not_eq, exp_pos.
  - lra.
  - intros t [<-|[]]; auto.
Qed.
Lemma rp_change_core L p x : 0 < p -> L < x -> rp_change L p x = vchange (core_p (offset L) L p) x.
Proof.
  intros P X. unfold rp_change, core_p; cbn [vchange]. pose proof (core_w (offset L) L x (offset_pos L) X) as W.
  destruct (reqP p 1) as [-> |]; [replace (1 / 1) with 1 by field; rewrite Rpower_1; lra|].
  destruct (reqP p 2) as [-> |]; auto. rewrite <- Rpower_sqrt by lra. f_equal. lra.
Qed.
Lemma rp_inv_core L p t : 0 < t -> rp_inv L p t = vinv (core_p (offset L) L p) t /\ r_deriv L p t = vderiv (core_p (offset L) L p) t.
Proof.
  intros T. unfold rp_inv, r_deriv, core_p; cbn [vinv vderiv]. destruct (reqP p 1) as [-> |]; auto.
  rewrite Rpower_1 by auto. replace (1 + 1) with 2 by ring. rewrite Rpower_2, Rmult_1_r by auto. auto.
Qed.
Lemma rec_p_exact L p : 0 < p -> exact_transform (rec_p L p None) L p_infty (-1).
Proof.
  intros P. eapply exact_same; [..|exact (core_p_exact (offset L) L p (offset_pos L) P)]; auto.
  - intros x A _. apply rp_change_core; auto.
  - intros t T. simpl in T. apply rp_inv_core; lra.
Qed.
Lemma rm_change_flip U p x : x < U -> rm_change U p x = rp_change (- U) p (- x).
Proof.
  intros X. unfold rm_change, rp_change. rewrite offset_opp. pose proof (offset_pos U).
  replace (- offset U / (x - U - offset U)) with (offset U / (- x - - U + offset U)) by (field; lra).
  replace (Rabs (x - U - offset U)) with (- x - - U + offset U) by (rewrite Rabs_left by lra; ring). auto.
Qed.
Lemma rm_inv_flip U p t : 0 < t -> rm_inv U p t = - rp_inv (- U) p t /\ r_deriv U p t = r_deriv (- U) p t.
Proof.
  intros T. unfold rm_inv, rp_inv, r_deriv. rewrite offset_opp. split; auto.
  destruct (reqP p 1) as [-> |]; [ring|]. destruct (reqP p 2) as [-> |]; [rewrite Rpower_2 by auto|]; ring.
Qed.
Lemma rec_m_exact U p : 0 < p -> exact_transform (rec_m U p None) m_infty U 1.
Proof.
  intros P. replace 1 with (- (-1)) by ring. replace (Finite U) with (Rbar_opp (- U)) by (simpl; f_equal; ring). change m_infty with (Rbar_opp p_infty).
  eapply exact_flip; [..|exact (rec_p_exact (- U) p P)]; auto.
  - intros x _ B. simpl in B. apply rm_change_flip. lra.
  - intros t T. simpl in T. apply rm_inv_flip; lra.
Qed.
(** cutting an exact transform at an inner point *)
Lemma cut_p v (a u : R) w : exact_transform v a p_infty (-1) -> a < u ->
  vchange w = vchange v -> vinv w = vinv v -> vderiv w = vderiv v -> vmin w = vchange v u -> vmax w = vmax v -> vinf w = [] ->
  exact_transform w a u (-1).
Proof.
  intros (H1 & H2 & H3 & H4 & H5 & H6 & H7) AU E1 E2 E3 E4 E5 E6. destruct (H1 u) as (U1 & U2); [auto|simpl; auto|].
  apply mk_exact; auto; rewrite ?E1, ?E2, ?E3, ?E4, ?E5, ?E6.
  - intros x A B. destruct (H1 x) as (X1 & X2); [auto|simpl; auto|]. split; auto. pose proof (H3 x u A B I). lra.
  - intros t T. destruct (H2 t) as (A & _ & C); [lra|]. splits; auto. simpl. assert (T1 : vmin v < vchange v u) by lra. pose proof (H4 _ t T1). rewrite U2 in H. lra.
  - intros x y A L B. apply H3; simpl; auto.
  - intros t T. apply H5. lra.
  - lra.
  - intros t [].
Qed.
Lemma cut_m v (b l : R) w : exact_transform v m_infty b 1 -> l < b ->
  vchange w = vchange v -> vinv w = vinv v -> vderiv w = vderiv v -> vmin w = vchange v l -> vmax w = vmax v -> vinf w = [] ->
  exact_transform w l b 1.
Proof.
  intros (H1 & H2 & H3 & H4 & H5 & H6 & H7) AU E1 E2 E3 E4 E5 E6. destruct (H1 l) as (U1 & U2); [simpl; auto|simpl; auto|].
  apply mk_exact; auto; rewrite ?E1, ?E2, ?E3, ?E4, ?E5, ?E6.
  - intros x A B. destruct (H1 x) as (X1 & X2); [simpl; auto|auto|]. split; auto. pose proof (H3 l x I A B). lra.
  - intros t T. destruct (H2 t) as (_ & A & C); [lra|]. splits; auto. simpl. assert (T1 : vmin v < vchange v l) by lra. pose proof (H4 _ t T1). rewrite U2 in H. lra.
  - intros x y A L B. apply H3; simpl; auto.
  - intros t T. apply H5. lra.
  - lra.
  - intros t [].
Qed.
Lemma rec_p_cut L p u : 0 < p -> L < u -> exact_transform (rec_p L p (Some u)) L u (-1).
Proof. intros P H. eapply cut_p; [exact (rec_p_exact L p P)|..]; auto. Qed.
Lemma rec_m_cut U p l : 0 < p -> l < U -> exact_transform (rec_m U p (Some l)) l U 1.
Proof. intros P H. eapply cut_m; [exact (rec_m_exact U p P)|..]; auto. Qed.
(** the finite end *)
Lemma rp_end L p : 0 < p -> rp_change L p L = 1 /\ rp_inv L p 1 = L.
Proof.
  intros P. pose proof (offset_pos L) as O. unfold rp_change, rp_inv. replace (offset L / (L - L + offset L)) with 1 by (field; lra).
  assert (E : forall q, Rpower 1 q = 1) by (intros q; unfold Rpower; rewrite ln_1, Rmult_0_r; apply exp_0).
  rewrite sqrt_1, !E. destruct (req p 1), (req p 2); split; auto; lra.
Qed.
Lemma rm_end U p : 0 < p -> rm_change U p U = 1 /\ rm_inv U p 1 = U.
Proof.
  intros P. pose proof (offset_pos U) as O. unfold rm_change, rm_inv. replace (- offset U / (U - U - offset U)) with 1 by (field; lra).
  replace (offset U / Rabs (U - U - offset U)) with 1 by (rewrite Rabs_left by lra; field; lra).
  assert (E : forall q, Rpower 1 q = 1) by (intros q; unfold Rpower; rewrite ln_1, Rmult_0_r; apply exp_0).
  rewrite sqrt_1, !E. destruct (req p 1), (req p 2); split; auto; lra.
Qed.

(** ** The power substitution at poles *)
Lemma pw_derive t N (c d : R) : 0 < t -> is_derive (fun u : R => Rpower u N * c + d) t (N * c * Rpower t (N - 1)).
Proof.
  intros T. replace (N * c * Rpower t (N - 1)) with (plus (scal c (N * Rpower t (N - 1))) (zero : R)) by (unfold plus, zero, scal; simpl; unfold mult; simpl; ring).
  apply (is_derive_plus (V := R_NormedModule) (fun u : R => Rpower u N * c) (fun _ : R => d)); [|apply @is_derive_const].
  eapply is_derive_ext; [|apply (is_derive_scal (fun u : R => Rpower u N) t c); apply is_derive_Reals, derivable_pt_lim_power; auto].
  intros u. unfold scal; simpl; unfold mult; simpl. ring.
Qed.
Lemma pw_cont t N (c : R) : 0 < t -> continuous (fun u : R => c * Rpower u (N - 1)) t.
Proof.
  intros T. apply (continuous_scal_r (V := R_NormedModule) c (fun u : R => Rpower u (N - 1))).
  apply (ex_derive_continuous (V := R_NormedModule) (fun u : R => Rpower u (N - 1))). eexists. apply is_derive_Reals, derivable_pt_lim_power; auto.
Qed.
Lemma xnp_exact ue N f (a b : R) : 0 < N -> integrable f (edgeP ue a) b -> (forall x : R, RbarIn (edgeP ue a) b x -> continuous f x) ->
  fejer2_XnP ue N f a b = Q f (edgeP ue a) b.
Proof.
  intros HN HI C. destruct (integrable_prim _ _ _ HI) as (G & P). assert (AB : edgeP ue a < b) by exact (proj1 HI). unfold fejer2_XnP. set (a' := edgeP ue a) in *.
  assert (S : inc_onto (fun t => Rpower t N * (b - a') + a') 0 1 a' b).
  { unfold inc_onto, RbarIn. splits; [simpl; lra|simpl; lra| | |].
    - intros y (Y1 & Y2). simpl in *. pose proof (Rpower_lt1 y N (conj Y1 Y2) HN). split; nra.
    - intros y z (Y1 & _) _ L. simpl in *. pose proof (Rpower_inc y z N (conj Y1 L) HN). nra.
    - intros x (X1 & X2). simpl in *. assert (W : 0 < (x - a') / (b - a') < 1).
      { split; [apply Rdiv_lt_0_compat; lra|]. apply (Rmult_lt_reg_r (b - a')); [lra|]. unfold Rdiv; rewrite Rmult_assoc, Rinv_l by lra; lra. }
      exists (Rpower ((x - a') / (b - a')) (1 / N)). split; [apply Rpower_lt1; auto; apply Rdiv_lt_0_compat; lra|].
      rewrite Rpower_root by lra. field. lra. }
  destruct (subst_inc f a' b G (fun t => Rpower t N * (b - a') + a') (fun t => N * (b - a') * Rpower t (N - 1)) 0 1 P S) as (_ & E); auto.
  { intros y (Y1 & Y2). simpl in *. split; [apply pw_derive|apply pw_cont]; lra. }
  transitivity (G b - G a'); [|symmetry; apply (prim_Q f a' b G a' b P); auto using Rbar_le_refl, Rbar_lt_le].
  rewrite <- E. apply Q_ext; [simpl; lra|]. intros t (T1 & T2). simpl in *. rewrite Rabs_right; [ring|]. apply Rle_ge. pose proof (exp_pos ((N - 1) * ln t)). unfold Rpower. apply Rmult_le_pos; nra.
Qed.
Lemma xnn_exact ue N f (a b : R) : 0 < N -> integrable f a (edgeN ue b) -> (forall x : R, RbarIn a (edgeN ue b) x -> continuous f x) ->
  fejer2_XnN ue N f a b = Q f a (edgeN ue b).
Proof.
  intros HN HI C. destruct (integrable_prim _ _ _ HI) as (G & P). assert (AB : a < edgeN ue b) by exact (proj1 HI). unfold fejer2_XnN. set (b' := edgeN ue b) in *.
  assert (S : dec_onto (fun t => Rpower t N * (- (b' - a)) + b') 0 1 a b').
  { unfold dec_onto, RbarIn. splits; [simpl; lra|simpl; lra| | |].
    - intros y (Y1 & Y2). simpl in *. pose proof (Rpower_lt1 y N (conj Y1 Y2) HN). split; nra.
    - intros y z (Y1 & _) _ L. simpl in *. pose proof (Rpower_inc y z N (conj Y1 L) HN). nra.
    - intros x (X1 & X2). simpl in *. assert (W : 0 < (b' - x) / (b' - a) < 1).
      { split; [apply Rdiv_lt_0_compat; lra|]. apply (Rmult_lt_reg_r (b' - a)); [lra|]. unfold Rdiv; rewrite Rmult_assoc, Rinv_l by lra; lra. }
      exists (Rpower ((b' - x) / (b' - a)) (1 / N)). split; [apply Rpower_lt1; auto; apply Rdiv_lt_0_compat; lra|].
      rewrite Rpower_root by lra. field. lra. }
  destruct (subst_dec f a b' G (fun t => Rpower t N * (- (b' - a)) + b') (fun t => N * (- (b' - a)) * Rpower t (N - 1)) 0 1 P S) as (_ & E); auto.
  { intros y (Y1 & Y2). simpl in *. split; [apply pw_derive|apply pw_cont]; lra. }
  transitivity (G b' - G a); [|symmetry; apply (prim_Q f a b' G a b' P); auto using Rbar_le_refl, Rbar_lt_le].
  rewrite <- E. apply Q_ext; [simpl; lra|]. intros t (T1 & T2). simpl in *. pose proof (exp_pos ((N - 1) * ln t)).
  replace (Rabs (N * - (b' - a) * Rpower t (N - 1))) with (N * (b' - a) * Rpower t (N - 1)).
  - replace (Rpower t N * - (b' - a) + b') with (b' - Rpower t N * (b' - a)) by ring. ring.
  - unfold Rpower in *. rewrite Rabs_left1; [ring|]. assert (0 <= N * (b' - a) * exp ((N - 1) * ln t)) by (apply Rmult_le_pos; nra). nra.
Qed.
