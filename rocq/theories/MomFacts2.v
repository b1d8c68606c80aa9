(** Tail formula for the mean of a density. *)
From Coq Require Import Reals Lra Lia List Bool.
From Coquelicot Require Import Coquelicot.
From Verif Require Import Base Seg Piecewise PiecewiseSpec Integral IntegralFacts SegIntSpec SegIntFacts TransformSpec TransformFacts SubstFacts StdFacts9 MomSpec MomFacts.
Import List ListNotations.
Open Scope R_scope.

Definition tail_of (p : Rbar -> Rbar -> R) (E : R) : Prop :=
  exists (M : R) (P : R -> R),
    (forall u v : R, u < v -> is_RInt (fun x : R => p m_infty x) u v (P v - P u)) /\
    (forall u v : R, u < v -> is_RInt (fun x : R => p x p_infty) u v (M * v - P v - (M * u - P u))) /\
    filterlim P (Rbar_locally m_infty) (locally 0) /\
    filterlim (fun x => M * x - P x) (Rbar_locally p_infty) (locally E).

Lemma is_RInt_cont (h P : R -> R) (x : R) : (forall u v : R, u < v -> is_RInt h u v (P v - P u)) -> continuous P x.
Proof.
  intros H.
  assert (K : continuous (fun t => minus (P t) (P (x - 1))) x).
  { apply (continuous_RInt_1 (V := R_NormedModule) h (x - 1) x (fun t => minus (P t) (P (x - 1)))).
    exists (mkposreal 1 Rlt_0_1). intros y Y. change (Rabs (y - x) < 1) in Y. apply Rabs_def2 in Y. apply H. lra. }
  apply (continuous_ext (fun t => plus (minus (P t) (P (x - 1))) (P (x - 1)))); [intros t; unfold plus, minus, plus, opp; simpl; ring|].
  apply (continuous_plus (V := R_NormedModule)); auto. apply continuous_const.
Qed.

Lemma tail_law p E : tail_of p E -> law_mean p E.
Proof.
  intros (M & P & H1 & H2 & H3 & H4).
  assert (S1 : forall u v : R, is_RInt (fun x : R => p m_infty x) u v (P v - P u)).
  { intros u v. destruct (Rtotal_order u v) as [L|[->|L]]; auto.
    - replace (P v - P v) with 0 by ring. apply (is_RInt_point (V := R_NormedModule)).
    - replace (P v - P u) with (opp (P u - P v)) by (unfold opp; simpl; ring). apply (is_RInt_swap (V := R_NormedModule)); auto. }
  assert (A1 : prim (fun x : R => p m_infty x) m_infty 0 (fun t => match t with Finite r => P r | _ => 0 end)).
  { split; [exact I|]. splits.
    - intros u v _ _. apply S1.
    - intros [x| |] X1 X2; try contradiction. apply filterlim_at_l_cont. apply (is_RInt_cont _ _ _ H1).
    - intros [x| |] X1 X2; try contradiction.
      + apply filterlim_at_r_cont. apply (is_RInt_cont _ _ _ H1).
      + exact H3. }
  set (R0 := fun x => M * x - P x).
  assert (S2 : forall u v : R, is_RInt (fun x : R => p x p_infty) u v (R0 v - R0 u)).
  { intros u v. destruct (Rtotal_order u v) as [L|[->|L]]; [apply H2; auto| |].
    - replace (R0 v - R0 v) with 0 by ring. apply (is_RInt_point (V := R_NormedModule)).
    - replace (R0 v - R0 u) with (opp (R0 u - R0 v)) by (unfold opp; simpl; ring). apply (is_RInt_swap (V := R_NormedModule)). apply H2; auto. }
  assert (A2 : prim (fun x : R => p x p_infty) 0 p_infty (fun t => match t with Finite r => R0 r | _ => E end)).
  { split; [exact I|]. splits.
    - intros u v _ _. apply S2.
    - intros [x| |] X1 X2; try contradiction.
      + apply filterlim_at_l_cont. apply (is_RInt_cont _ _ _ H2).
      + exact H4.
    - intros [x| |] X1 X2; try contradiction. apply filterlim_at_r_cont. apply (is_RInt_cont _ _ _ H2). }
  split; [eapply prim_integrable; eauto|]. split; [eapply prim_integrable; eauto|].
  rewrite (prim_Q _ _ _ _ 0 p_infty A2) by (simpl; auto; lra).
  rewrite (prim_Q _ _ _ _ m_infty 0 A1) by (simpl; auto; lra). unfold R0. ring.
Qed.

Lemma tail_zero : tail_of (fun _ _ => 0) 0.
Proof.
  exists 0, (fun _ => 0). splits.
  - intros u v _. replace (0 - 0) with 0 by ring. apply is_RInt_zero.
  - intros u v _. replace (0 * v - 0 - (0 * u - 0)) with 0 by ring. apply is_RInt_zero.
  - apply filterlim_const.
  - apply (filterlim_ext (fun _ => 0)); [intros; ring|apply filterlim_const].
Qed.

Lemma lim_plus (F : (R -> Prop) -> Prop) {FF : Filter F} (f g : R -> R) (l m : R) :
  filterlim f F (locally l) -> filterlim g F (locally m) -> filterlim (fun x => f x + g x) F (locally (l + m)).
Proof. intros A B. apply (filterlim_comp_2 (G := locally l) (H := locally m)); auto. apply (filterlim_plus (V := R_NormedModule)). Qed.

Lemma tail_plus p q E E' : tail_of p E -> tail_of q E' -> tail_of (fun u v => p u v + q u v) (E + E').
Proof.
  intros (M & P & H1 & H2 & H3 & H4) (M' & P' & H1' & H2' & H3' & H4'). exists (M + M'), (fun x => P x + P' x). splits.
  - intros u v L. replace (P v + P' v - (P u + P' u)) with (plus (P v - P u) (P' v - P' u)) by (unfold plus; simpl; ring).
    apply (is_RInt_plus (V := R_NormedModule)); auto.
  - intros u v L.
    replace ((M + M') * v - (P v + P' v) - ((M + M') * u - (P u + P' u))) with (plus (M * v - P v - (M * u - P u)) (M' * v - P' v - (M' * u - P' u))) by (unfold plus; simpl; ring).
    apply (is_RInt_plus (V := R_NormedModule)); auto.
  - replace 0 with (0 + 0) by ring. apply lim_plus; [apply Rbar_locally_filter|auto|auto].
  - apply (filterlim_ext (fun x => (M * x - P x) + (M' * x - P' x))); [intros; ring|].
    apply lim_plus; [apply Rbar_locally_filter|auto|auto].
Qed.

(** an atom *)
Lemma prob_d_below (a m x : R) : prob (DiracSeg a m) m_infty x = if Rlt_dec a x then m else 0.
Proof. unfold prob. destruct (Rbar_lt_dec m_infty a) as [_|N]; [|destruct N; exact I]. destruct (Rbar_lt_dec a x) as [A|A]; destruct (Rlt_dec a x) as [B|B]; auto; simpl in A; lra. Qed.
Lemma prob_d_above (a m x : R) : prob (DiracSeg a m) x p_infty = if Rlt_dec x a then m else 0.
Proof. unfold prob. destruct (Rbar_lt_dec a p_infty) as [_|N]; [|destruct N; exact I]. destruct (Rbar_lt_dec x a) as [A|A]; destruct (Rlt_dec x a) as [B|B]; auto; simpl in A; lra. Qed.
Lemma tail_dirac (a m : R) : tail_of (prob (DiracSeg a m)) (a * m).
Proof.
  exists m, (fun x => m * Rmax 0 (x - a)).
  assert (S1 : forall u v : R, u < v -> is_RInt (fun x : R => prob (DiracSeg a m) m_infty x) u v (m * Rmax 0 (v - a) - m * Rmax 0 (u - a))).
  { assert (K1 : forall u v : R, u <= v -> v <= a -> is_RInt (fun x : R => prob (DiracSeg a m) m_infty x) u v 0).
    { intros u v L V. apply (is_RInt_ext (fun _ => 0)); [|apply is_RInt_zero]. rewrite Rmin_left, Rmax_right by lra.
      intros x X. rewrite prob_d_below. destruct (Rlt_dec a x); auto; lra. }
    assert (K2 : forall u v : R, u <= v -> a <= u -> is_RInt (fun x : R => prob (DiracSeg a m) m_infty x) u v (m * (v - u))).
    { intros u v L V. apply (is_RInt_ext (fun _ => m)); [|apply is_RInt_cst]. rewrite Rmin_left, Rmax_right by lra.
      intros x X. rewrite prob_d_below. destruct (Rlt_dec a x); auto; lra. }
    intros u v L. destruct (Rle_lt_dec v a) as [V|V].
    - rewrite !Rmax_left by lra. replace (m * 0 - m * 0) with 0 by ring. apply K1; lra.
    - destruct (Rle_lt_dec a u) as [U|U].
      + rewrite !Rmax_right by lra. replace (m * (v - a) - m * (u - a)) with (m * (v - u)) by ring. apply K2; lra.
      + rewrite Rmax_right, Rmax_left by lra. replace (m * (v - a) - m * 0) with (plus 0 (m * (v - a))) by (unfold plus; simpl; ring).
        apply (is_RInt_Chasles (V := R_NormedModule) _ u a v); [apply K1|apply K2]; lra. }
  splits; auto.
  - intros u v L.
    apply (is_RInt_ext (fun x : R => minus m (prob (DiracSeg a m) m_infty x + (if Req_EM_T x a then m else 0)))).
    { intros x _. rewrite prob_d_below, prob_d_above. unfold minus, plus, opp. simpl. destruct (Rlt_dec a x), (Rlt_dec x a), (Req_EM_T x a); lra. }
    replace (m * v - m * Rmax 0 (v - a) - (m * u - m * Rmax 0 (u - a))) with (minus (m * (v - u)) (m * Rmax 0 (v - a) - m * Rmax 0 (u - a) + 0)) by (unfold minus, plus, opp; simpl; ring).
    apply (is_RInt_minus (V := R_NormedModule)); [apply is_RInt_cst|]. apply (is_RInt_plus (V := R_NormedModule)); auto.
    assert (Z : forall p q : R, p <= q -> q <= a \/ a <= p -> is_RInt (fun x => if Req_EM_T x a then m else 0) p q 0).
    { intros p q PQ O. apply (is_RInt_ext (fun _ => 0)); [|apply is_RInt_zero]. rewrite Rmin_left, Rmax_right by lra.
      intros x X. destruct (Req_EM_T x a); auto; lra. }
    destruct (Rle_lt_dec v a) as [V|V]; [apply Z; lra|]. destruct (Rle_lt_dec a u) as [U|U]; [apply Z; lra|].
    assert (Z0 : plus 0 0 = 0) by (unfold plus; simpl; ring). rewrite <- Z0.
    apply (is_RInt_Chasles (V := R_NormedModule) _ u a v 0 0); rewrite ?Z0; apply Z; lra.
  - apply (filterlim_ext_loc (fun _ => 0)); [|apply filterlim_const]. exists a. intros x X. rewrite Rmax_left by lra. ring.
  - apply (filterlim_ext_loc (fun _ => a * m)); [|apply filterlim_const]. exists a. intros x X. rewrite Rmax_right by lra. ring.
Qed.

Lemma squeeze (F : (R -> Prop) -> Prop) {FF : Filter F} (f g h : R -> R) (l : R) : F (fun x => f x <= g x <= h x) ->
  filterlim f F (locally l) -> filterlim h F (locally l) -> filterlim g F (locally l).
Proof.
  intros H A B P (e & HP).
  assert (LE : locally l (fun y => Rabs (y - l) < e)) by (exists e; intros y Y; exact Y).
  specialize (A _ LE). specialize (B _ LE). unfold filtermap in *.
  generalize (filter_and _ _ H (filter_and _ _ A B)). apply filter_imp. intros x (X1 & X2 & X3). apply HP.
  change (Rabs (g x - l) < e). apply Rabs_def2 in X2. apply Rabs_def2 in X3. apply Rabs_def1; lra.
Qed.

(** a continuous piece *)
Lemma tail_piece s : isDirac s = false -> wf_seg s -> has_int s -> nonneg_piece s -> cont_inside s ->
  integrable (fun x => x * sf s x) (sa s) (sb s) ->
  tail_of (prob s) (RInt_gen (fun x => x * sf s x) (at_r (sa s)) (at_l (sb s))).
Proof.
  intros D W HI NN C HM. pose proof (wf_lt s D W) as L. pose proof (Rbar_lt_le _ _ L) as Le.
  destruct (integrable_prim _ _ _ (HI D)) as (G & PG). destruct (integrable_prim _ _ _ HM) as (H & PH).
  assert (NN' : forall x : R, RbarIn (sa s) (sb s) x -> 0 <= sf s x).
  { intros x (X1 & X2). destruct s; try discriminate; apply NN; auto. }
  set (a := sa s) in *. set (b := sb s) in *.
  rewrite (prim_RInt_gen _ _ _ _ a b PH) by (auto; apply Rbar_le_refl).
  assert (E1 : forall x : R, prob s m_infty x = G (clamp s x) - G a).
  { intros x. rewrite (prob_Q s m_infty x) by (auto; exact I). rewrite (clamp_low s m_infty) by (auto; destruct (sa s); simpl; auto).
    pose proof (clamp_in s x Le) as (C1 & C2). apply (prim_Q _ _ _ _ _ _ PG); auto; apply Rbar_le_refl. }
  assert (E2 : forall x : R, prob s x p_infty = G b - G (clamp s x)).
  { intros x. rewrite (prob_Q s x p_infty) by (auto; exact I). rewrite (clamp_high s p_infty) by (auto; destruct (sb s); simpl; auto).
    pose proof (clamp_in s x Le) as (C1 & C2). apply (prim_Q _ _ _ _ _ _ PG); auto; apply Rbar_le_refl. }
  set (P := fun x : R => x * (G (clamp s x) - G a) - (H (clamp s x) - H a)).
  pose proof (clamp_cont s D W G _ PG) as CG. pose proof (clamp_cont s D W H _ PH) as CH.
  assert (CG' : forall x, continuous (fun t : R => G (clamp s t) - G a) x).
  { intros x. apply (continuous_minus (V := R_NormedModule)); auto. apply continuous_const. }
  assert (CP : forall x, continuous P x).
  { intros x. unfold P. apply (continuous_minus (V := R_NormedModule)).
    - apply (continuous_mult (K := R_AbsRing)); [apply continuous_id|apply CG'].
    - apply (continuous_minus (V := R_NormedModule)); auto. apply continuous_const. }
  assert (DP : forall x : R, ~ In x [real a; real b] -> is_derive P x (G (clamp s x) - G a)).
  { intros x N.
    assert (Na : Finite x <> a) by (intros E; apply N; rewrite <- E; simpl; auto).
    assert (Nb : Finite x <> b) by (intros E; apply N; rewrite <- E; simpl; auto).
    pose proof (clamp_der s D W G _ PG x (fun X => C x D X) Na Nb) as D1.
    pose proof (clamp_der s D W H (fun t => t * sf s t) PH x (fun X => continuous_mult (K := R_AbsRing) (fun t => t) (sf s) x (continuous_id x) (C x D X)) Na Nb) as D2.
    cbv beta in D2. fold a b in D1, D2.
    set (g := if Rbar_lt_dec a x then if Rbar_lt_dec x b then sf s x else 0 else 0) in *.
    assert (E : (if Rbar_lt_dec a x then if Rbar_lt_dec x b then x * sf s x else 0 else 0) = x * g).
    { unfold g. destruct (Rbar_lt_dec a x); [destruct (Rbar_lt_dec x b)|]; ring. }
    assert (D2q : is_derive (fun t : R => H (clamp s t)) x (x * g)) by (rewrite <- E; exact D2). unfold P.
    evar_last.
    - apply (is_derive_minus (V := R_NormedModule)).
      + apply (is_derive_mult (fun t : R => t) (fun t : R => G (clamp s t) - G a) x 1 (g - 0)).
        * apply (is_derive_id (K := R_AbsRing)).
        * apply (is_derive_minus (V := R_NormedModule)); [exact D1|apply (is_derive_const (V := R_NormedModule))].
        * intros; apply Rmult_comm.
      + apply (is_derive_minus (V := R_NormedModule)); [exact D2q|apply (is_derive_const (V := R_NormedModule))].
    - unfold minus, plus, opp, zero, mult; simpl. ring. }
  assert (S1 : forall u v : R, u < v -> is_RInt (fun x : R => G (clamp s x) - G a) u v (P v - P u)).
  { intros u v UV. apply (pieces_RInt _ P CG' CP [real a; real b]); auto. }
  exists (G b - G a), P. splits.
  - intros u v UV. apply (is_RInt_ext (fun x : R => G (clamp s x) - G a)); auto.
  - intros u v UV. apply (is_RInt_ext (fun x : R => minus (G b - G a) (G (clamp s x) - G a))).
    { intros x _. rewrite E2. unfold minus, plus, opp; simpl. ring. }
    replace ((G b - G a) * v - P v - ((G b - G a) * u - P u)) with (minus ((G b - G a) * (v - u)) (P v - P u)) by (unfold minus, plus, opp; simpl; ring).
    apply (is_RInt_minus (V := R_NormedModule)); [apply is_RInt_cst|auto].
  - destruct (Rbar_lt_le_dec m_infty a) as [A|A].
    + apply (filterlim_ext_loc (fun _ => 0)); [|apply filterlim_const].
      generalize (open_Rbar_lt' m_infty a A). apply filter_imp. intros x X. unfold P. rewrite (clamp_low s x) by (auto; apply Rbar_lt_le; auto). fold a. ring.
    + assert (A' : a = m_infty) by (destruct a; simpl in A; tauto).
      pose proof (prim_lim_r _ _ _ _ PH) as LH. rewrite A' in LH.
      apply (squeeze _ (fun _ => 0) P (fun x : R => - (H x - H a))).
      * assert (O : Rbar_locally m_infty (fun x : R => Rbar_lt x b)) by (apply open_Rbar_lt'; rewrite <- A'; auto).
        assert (O0 : Rbar_locally m_infty (fun x : R => x < 0)) by (exists 0; auto).
        generalize (filter_and _ _ O O0). apply filter_imp. intros x (X & X0).
        assert (AX : Rbar_lt a x) by (rewrite A'; exact I).
        assert (CX : clamp s x = x) by (apply clamp_id; auto; apply Rbar_lt_le; auto). unfold P. rewrite CX.
        assert (PGx : prim (sf s) a x G) by (apply (prim_sub _ a b); auto; [apply Rbar_le_refl|apply Rbar_lt_le; auto]).
        assert (PHx : prim (fun t => t * sf s t) a x H) by (apply (prim_sub _ a b); auto; [apply Rbar_le_refl|apply Rbar_lt_le; auto]).
        assert (K1 : 0 <= G x - G a).
        { rewrite <- (prim_Q _ _ _ _ a x PG) by (auto; try apply Rbar_le_refl; apply Rbar_lt_le; auto).
          apply Q_nonneg; [eapply prim_integrable; eauto|]. intros t (T1 & T2). apply NN'. split; auto. apply (Rbar_lt_trans _ x); auto. }
        assert (K2 : 0 <= x * (G x - G a) + -1 * (H x - H a)).
        { rewrite <- (prim_Q _ _ _ _ a x PG) by (auto; try apply Rbar_le_refl; apply Rbar_lt_le; auto).
          rewrite <- (prim_Q _ _ _ _ a x PH) by (auto; try apply Rbar_le_refl; apply Rbar_lt_le; auto).
          rewrite <- !Q_scal by (eapply prim_integrable; eauto).
          rewrite <- Q_plus by (apply integrable_scal; eapply prim_integrable; eauto).
          apply Q_nonneg.
          - apply integrable_plus; apply integrable_scal; eapply prim_integrable; eauto.
          - intros t (T1 & T2). assert (0 <= sf s t) by (apply NN'; split; auto; apply (Rbar_lt_trans _ x); auto). simpl in T2. nra. }
        nra.
      * apply filterlim_const.
      * replace 0 with (- (H a - H a)) by ring.
        apply (filterlim_comp _ _ _ (fun x : R => H x - H a) Ropp _ (locally (H a - H a))); [|apply (filterlim_opp (V := R_NormedModule))].
        apply (lim_plus _ (fun x : R => H x) (fun _ => - H a) (H a) (- H a)); [rewrite A'; exact LH|apply filterlim_const].
  - destruct (Rbar_lt_le_dec b p_infty) as [B|B].
    + apply (filterlim_ext_loc (fun _ => H b - H a)); [|apply filterlim_const].
      generalize (open_Rbar_gt' p_infty b B). apply filter_imp. intros x X. unfold P. rewrite (clamp_high s x) by (auto; apply Rbar_lt_le; auto). fold b. ring.
    + assert (B' : b = p_infty) by (destruct b; simpl in B; tauto).
      pose proof (prim_lim_l _ _ _ _ PH) as LH. rewrite B' in LH.
      apply (squeeze _ (fun x : R => H x - H a) _ (fun _ => H b - H a)).
      * assert (O : Rbar_locally p_infty (fun x : R => Rbar_lt a x)) by (apply open_Rbar_gt'; rewrite <- B'; auto).
        assert (O0 : Rbar_locally p_infty (fun x : R => 0 < x)) by (exists 0; auto).
        generalize (filter_and _ _ O O0). apply filter_imp. intros x (X & X0).
        assert (BX : Rbar_lt x b) by (rewrite B'; exact I).
        assert (CX : clamp s x = x) by (apply clamp_id; auto; apply Rbar_lt_le; auto). unfold P. rewrite CX.
        assert (PGx : prim (sf s) x b G) by (apply (prim_sub _ a b); auto; [apply Rbar_lt_le; auto|apply Rbar_le_refl]).
        assert (PHx : prim (fun t => t * sf s t) x b H) by (apply (prim_sub _ a b); auto; [apply Rbar_lt_le; auto|apply Rbar_le_refl]).
        assert (K1 : 0 <= G b - G x).
        { rewrite <- (prim_Q _ _ _ _ x b PG) by (auto; try apply Rbar_le_refl; apply Rbar_lt_le; auto).
          apply Q_nonneg; [eapply prim_integrable; eauto|]. intros t (T1 & T2). apply NN'. split; auto. apply (Rbar_lt_trans _ x); auto. }
        assert (K2 : 0 <= (- x) * (G b - G x) + 1 * (H b - H x)).
        { rewrite <- (prim_Q _ _ _ _ x b PG) by (auto; try apply Rbar_le_refl; apply Rbar_lt_le; auto).
          rewrite <- (prim_Q _ _ _ _ x b PH) by (auto; try apply Rbar_le_refl; apply Rbar_lt_le; auto).
          rewrite <- !Q_scal by (eapply prim_integrable; eauto).
          rewrite <- Q_plus by (apply integrable_scal; eapply prim_integrable; eauto).
          apply Q_nonneg.
          - apply integrable_plus; apply integrable_scal; eapply prim_integrable; eauto.
          - intros t (T1 & T2). assert (0 <= sf s t) by (apply NN'; split; auto; apply (Rbar_lt_trans _ x); auto). simpl in T1. nra. }
        nra.
      * apply (lim_plus _ (fun x : R => H x) (fun _ => - H a) (H b) (- H a)); [rewrite B'; exact LH|apply filterlim_const].
      * apply filterlim_const.
Qed.

Lemma tail_ext p q E : (forall u v, p u v = q u v) -> tail_of p E -> tail_of q E.
Proof.
  intros H (M & P & H1 & H2 & H3 & H4). exists M, P. splits; auto.
  - intros u v L. apply (is_RInt_ext (fun x : R => p m_infty x)); auto.
  - intros u v L. apply (is_RInt_ext (fun x : R => p x p_infty)); auto.
Qed.

Lemma tail_list l : Forall wf_seg l -> Forall has_int l -> Forall nonneg_piece l -> Forall cont_inside l -> has_expect (fun x => x) l ->
  tail_of (pprob l) (expect (fun x => x) l).
Proof.
  induction l as [|s l IH]; intros W HI NN C HE.
  - apply (tail_ext (fun _ _ => 0)); [reflexivity|exact tail_zero].
  - inversion W; inversion HI; inversion NN; inversion C; subst.
    apply (tail_ext (fun u v => prob s u v + pprob l u v)); [reflexivity|]. unfold expect. cbn [map]. rewrite AtomFacts.sumR_cons.
    apply tail_plus; [|apply IH; auto; intros t T; apply HE; simpl; auto].
    destruct (isDirac s) eqn:D.
    + destruct s; try discriminate. apply tail_dirac.
    + pose proof (tail_piece s D) as K. specialize (HE s (or_introl eq_refl) D). destruct s; try discriminate; apply K; auto.
Qed.
