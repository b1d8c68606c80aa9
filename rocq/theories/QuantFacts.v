(** Facts about inverse_scalar. *)
From Coq Require Import Reals List Bool Arith Lra Lia Sorted.
From Coquelicot Require Import Coquelicot.
From Verif Require Import Base Bisect Seg SegInt Integral Piecewise PiecewiseSpec PiecewiseFacts2 SegIntSpec CumintFacts CumintFacts2 Root RootMain Quant QuantSpec.
Import List ListNotations.
Open Scope R_scope.

Lemma lim_m_eps f v e : filterlim f (Rbar_locally m_infty) (locally v) -> 0 < e -> exists M, forall x, x < M -> Rabs (f x - v) < e.
Proof.
  intros H He. destruct (H (fun y => Rabs (y - v) < e)) as (M & HM).
  - exists (mkposreal e He). intros y Hy. exact Hy.
  - exists M. exact HM.
Qed.
Lemma lim_p_eps f v e : filterlim f (Rbar_locally p_infty) (locally v) -> 0 < e -> exists M, forall x, M < x -> Rabs (f x - v) < e.
Proof.
  intros H He. destruct (H (fun y => Rabs (y - v) < e)) as (M & HM).
  - exists (mkposreal e He). intros y Hy. exact Hy.
  - exists M. exact HM.
Qed.
Lemma abs_lt a e : Rabs a < e -> - e < a < e.
Proof. unfold Rabs. destruct (Rcase_abs a); lra. Qed.

(** the breaks of pieces that follow one another *)
Lemma path_breaks a l b : Forall (fun s => Rbar_lt (sa s) (sb s)) l -> path a l b ->
  StronglySorted Rbar_lt (a :: map sb l) /\ (forall x, l <> [] -> (In x (map sa l ++ map sb l) <-> In x (a :: map sb l))).
Proof.
  revert a. induction l as [|s l IH]; intros a W P.
  - split; [repeat constructor|]. intros x H. congruence.
  - inversion W as [|? ? W1 W2]; subst. destruct P as (E & P). destruct (IH _ W2 P) as (S1 & S2). split.
    + simpl. constructor; auto. rewrite <- E. constructor; auto.
      apply StronglySorted_inv in S1. destruct S1 as (S1 & S3). rewrite Forall_forall in S3 |- *. intros x Hx.
      apply (Rbar_lt_trans _ (sb s)); auto.
    + intros x _. destruct l as [|t l].
      * simpl in *. rewrite <- E. intuition.
      * specialize (S2 x ltac:(discriminate)). cbn [map] in *. cbn [app]. cbn [In]. rewrite in_app_iff in *. cbn [In] in *. subst a. intuition.
Qed.
Lemma getBreaks_path a l b : l <> [] -> Forall (fun s => Rbar_lt (sa s) (sb s)) l -> path a l b -> getBreaks l = a :: map sb l.
Proof.
  intros N W P. destruct (path_breaks a l b W P) as (S1 & S2). apply sorted_ext; auto.
  - apply np_unique_sorted.
  - intros x. unfold getBreaks. rewrite np_unique_In. apply S2; auto.
Qed.

Lemma cont_call s (x : R) : continuous_piece s -> Rbar_le (sa s) x -> Rbar_le x (sb s) -> seg_call s x = sf s x.
Proof.
  intros (D & _) A B. apply ble_true in A. apply ble_true in B.
  destruct s; try discriminate; simpl in *; rewrite A, B; reflexivity.
Qed.

Section Generic.
Variable vinf : segment -> R.
Variable solve : (R -> R) -> R -> R -> res R.
Variable F : R -> R.
Variable L : list segment.
Variable y : R.
Hypothesis Y : 0 <= y <= 1.
Hypothesis HS : exact_solver solve.
Hypothesis HM : forall u v, u <= v -> F u <= F v.
Hypothesis HC : Forall continuous_piece L.
Hypothesis HP : path m_infty L p_infty.
Hypothesis HH : forall t, In t L -> exists h, continuity h /\
  (forall x : R, Rbar_le (sa t) x -> Rbar_le x (sb t) -> sf t x = h x) /\
  (forall x : R, covers t x -> h x = F x).
Hypothesis HV : end_limits vinf L.
Hypothesis HV0 : forall t, In t L -> isMInf t = true -> vinf t = 0.
Hypothesis HV1 : forall t, In t L -> isPInf t = true -> vinf t = 1.

Definition lo t := end_val vinf t (sa t).
Definition hi t := end_val vinf t (sb t).

Lemma HCt t : In t L -> isDirac t = false /\ Rbar_lt (sa t) (sb t).
Proof.
  intros I. rewrite Forall_forall in HC. destruct (HC t I) as (D & W). split; auto. destruct t; auto; discriminate.
Qed.
Lemma HCc t : In t L -> continuous_piece t.
Proof. intros I. rewrite Forall_forall in HC. auto. Qed.

(** a continuous function that is at most c left of b is at most c at b *)
Lemma left_le h a b c : continuity h -> a < b -> (forall x, a <= x < b -> h x <= c) -> h b <= c.
Proof.
  intros H Lt A. destruct (Rle_dec (h b) c) as [|N]; auto. exfalso.
  destruct (H b (h b - c)) as (d & D1 & D2); [lra|].
  set (x := Rmax a (b - d / 2)).
  assert (X : a <= x /\ b - d / 2 <= x /\ x < b) by (unfold x, Rmax; destruct (Rle_dec a (b - d/2)); lra).
  specialize (A x ltac:(lra)). specialize (D2 x). simpl in D2. unfold R_dist in D2.
  assert (X2 : Rabs (h x - h b) < h b - c).
  { apply D2. split; [split; [exact Logic.I|lra]|]. rewrite Rabs_minus_sym, Rabs_pos_eq; lra. }
  apply abs_lt in X2. lra.
Qed.
Lemma left_ge h a b c : continuity h -> a < b -> (forall x, a <= x < b -> c <= h x) -> c <= h b.
Proof.
  intros H Lt A. destruct (Rle_dec c (h b)) as [|N]; auto. exfalso.
  destruct (H b (c - h b)) as (d & D1 & D2); [lra|].
  set (x := Rmax a (b - d / 2)).
  assert (X : a <= x /\ b - d / 2 <= x /\ x < b) by (unfold x, Rmax; destruct (Rle_dec a (b - d/2)); lra).
  specialize (A x ltac:(lra)). specialize (D2 x). simpl in D2. unfold R_dist in D2.
  assert (X2 : Rabs (h x - h b) < c - h b).
  { apply D2. split; [split; [exact Logic.I|lra]|]. rewrite Rabs_minus_sym, Rabs_pos_eq; lra. }
  apply abs_lt in X2. lra.
Qed.

(** some point of the piece right of a given one left of its end *)
Lemma some_point t (x : R) : In t L -> Rbar_lt x (sb t) -> exists x' : R, x <= x' /\ covers t x'.
Proof.
  intros I B. destruct (HCt t I) as (_ & W). destruct (sa t) as [a| |] eqn:Ea.
  - exists (Rmax a x). split; [apply Rmax_r|]. unfold covers. rewrite Ea. split.
    + simpl. apply Rmax_l.
    + unfold Rmax. destruct (Rle_dec a x); auto.
  - destruct (sb t); simpl in *; tauto.
  - exists x. split; [lra|]. unfold covers. rewrite Ea. split; [simpl; auto|auto].
Qed.

Lemma hi_finite t (b : R) : In t L -> sb t = b -> (forall x, x < b -> F x <= hi t) /\ hi t <= F b /\ hi t = sf t b.
Proof.
  intros I Eb. destruct (HCt t I) as (D & W). destruct (HH t I) as (h & H1 & H2 & H3).
  assert (E : hi t = sf t b).
  { unfold hi. rewrite Eb. simpl. apply cont_call; [apply HCc; auto| |rewrite Eb; apply Rbar_le_refl].
    rewrite <- Eb. apply Rbar_lt_le; auto. }
  assert (E2 : sf t b = h b).
  { apply H2; [rewrite <- Eb; apply Rbar_lt_le; auto|rewrite Eb; apply Rbar_le_refl]. }
  splits; auto.
  - intros x Hx. destruct (some_point t x I) as (x' & X1 & X2); [rewrite Eb; auto|].
    apply Rle_trans with (F x'); auto. rewrite <- (H3 x' X2). rewrite E, E2. destruct X2 as (X2 & X3). rewrite Eb in X3. simpl in X3.
    apply (left_ge h x' b); auto. intros z Hz. assert (C : covers t z).
    { split; [|rewrite Eb; simpl; lra]. apply (Rbar_le_trans _ x'); auto. simpl; lra. }
    rewrite !H3; auto. apply HM; lra. split; auto. rewrite Eb; auto.
  - rewrite E, E2. destruct (some_point t (b - 1) I) as (x' & X1 & X2); [rewrite Eb; simpl; lra|].
    pose proof X2 as (X3 & X4). rewrite Eb in X4. simpl in X4.
    apply (left_le h x' b); auto. intros z Hz. rewrite H3; [apply HM; lra|].
    split; [|rewrite Eb; simpl; lra]. apply (Rbar_le_trans _ x'); auto. simpl; lra.
Qed.
Lemma lo_finite t (a : R) : In t L -> sa t = a -> lo t = F a /\ lo t = sf t a.
Proof.
  intros I Ea. destruct (HCt t I) as (D & W). destruct (HH t I) as (h & H1 & H2 & H3).
  assert (C : covers t a) by (split; rewrite ?Ea; [apply Rbar_le_refl|rewrite <- Ea; auto]).
  assert (E : lo t = sf t a).
  { unfold lo. rewrite Ea. simpl. apply cont_call; [apply HCc; auto|apply C|apply Rbar_lt_le, C]. }
  split; auto. rewrite E, H2; [auto|apply C|apply Rbar_lt_le, C].
Qed.
Lemma sf_F t (x : R) : In t L -> covers t x -> sf t x = F x.
Proof. intros I C. destruct (HH t I) as (h & H1 & H2 & H3). rewrite H2; [auto|apply C|apply Rbar_lt_le, C]. Qed.

Lemma sb_pinf t : In t L -> sb t = p_infty -> isPInf t = true.
Proof. intros I E. destruct (HCt t I) as (D & _). destruct t; simpl in *; try discriminate; auto. Qed.
Lemma sa_minf t : In t L -> sa t = m_infty -> isMInf t = true.
Proof. intros I E. destruct (HCt t I) as (D & _). destruct t; simpl in *; try discriminate; auto. Qed.
Lemma isM t : isMInf t = true -> exists b f, t = MInfSeg b f.
Proof. destruct t; try discriminate; eauto. Qed.
Lemma isP t : isPInf t = true -> exists a f, t = PInfSeg a f.
Proof. destruct t; try discriminate; eauto. Qed.

Lemma lo_minf t : In t L -> isMInf t = true -> lo t = 0.
Proof. intros I E. rewrite <- (HV0 t I E). destruct (isM t E) as (b & f & ->). reflexivity. Qed.
Lemma hi_pinf t : In t L -> isPInf t = true -> hi t = 1.
Proof. intros I E. rewrite <- (HV1 t I E). destruct (isP t E) as (b & f & ->). reflexivity. Qed.

Lemma lo_le_hi t : In t L -> lo t <= hi t.
Proof.
  intros I. destruct (HCt t I) as (D & W).
  assert (A : forall x, covers t x -> lo t <= F x).
  { intros x C. destruct (sa t) as [a| |] eqn:Ea.
    - rewrite (proj1 (lo_finite t a I Ea)). apply HM. destruct C as (C & _). rewrite Ea in C. exact C.
    - destruct (sb t); simpl in W; tauto.
    - pose proof (sa_minf t I Ea) as M. pose proof (proj1 (HV t I) M) as H. rewrite (lo_minf t I M). rewrite (HV0 t I M) in H.
      apply Rnot_lt_le. intros N. destruct (lim_m_eps _ _ (0 - F x) H) as (K & HK); [lra|].
      set (z := Rmin (K - 1) x). assert (Z : z <= K - 1 /\ z <= x) by (split; [apply Rmin_l|apply Rmin_r]).
      specialize (HK z ltac:(lra)). rewrite (sf_F t z I) in HK.
      + apply abs_lt in HK. specialize (HM z x ltac:(lra)). lra.
      + split; [rewrite Ea; simpl; auto|]. apply (Rbar_le_lt_trans _ x); [simpl; lra|apply C]. }
  assert (B : forall x, covers t x -> F x <= hi t).
  { intros x C. destruct (sb t) as [b| |] eqn:Eb.
    - apply (proj1 (hi_finite t b I Eb)). destruct C as (_ & C). rewrite Eb in C. exact C.
    - pose proof (sb_pinf t I Eb) as M. pose proof (proj2 (HV t I) M) as H. rewrite (hi_pinf t I M). rewrite (HV1 t I M) in H.
      apply Rnot_lt_le. intros N. destruct (lim_p_eps _ _ (F x - 1) H) as (K & HK); [lra|].
      set (z := Rmax (K + 1) x). assert (Z : K + 1 <= z /\ x <= z) by (split; [apply Rmax_l|apply Rmax_r]).
      specialize (HK z ltac:(lra)). rewrite (sf_F t z I) in HK.
      + apply abs_lt in HK. specialize (HM x z ltac:(lra)). lra.
      + split; [|rewrite Eb; simpl; auto]. apply (Rbar_le_trans _ x); [apply C|simpl; lra].
    - destruct (sa t); simpl in W; tauto. }
  assert (P : exists x : R, covers t x).
  { destruct (sb t) as [b| |] eqn:Eb.
    - destruct (some_point t (b - 1) I) as (x & _ & X); [rewrite Eb; simpl; lra|eauto].
    - destruct (some_point t 0 I) as (x & _ & X); [rewrite Eb; simpl; auto|eauto].
    - destruct (sa t); simpl in W; tauto. }
  destruct P as (x & C). specialize (A x C). specialize (B x C). lra.
Qed.

(** a point of a piece where its function is y is a y-quantile *)
Lemma point_quantile t (x : R) : In t L -> Rbar_le (sa t) x -> Rbar_le x (sb t) -> sf t x = y -> is_quantile F y x.
Proof.
  intros I A B E. destruct (Rbar_le_lt_or_eq_dec _ _ B) as [Lt|Eq].
  - assert (C : covers t x) by (split; auto). rewrite (sf_F t x I C) in E. split; [intros u Hu; rewrite <- E; apply HM; lra|lra].
  - symmetry in Eq. destruct (hi_finite t x I Eq) as (H1 & H2 & H3). rewrite H3, E in *. split; auto.
Qed.

Definition qgood (q : qv) : Prop :=
  match q with
  | QNone => True | QNan => False
  | QAt (Finite x) => is_quantile F y x
  | QAt m_infty => y = 0
  | QAt p_infty => y = 1
  end.

Definition sel t : Prop := lo t <= y <= hi t.
Lemma sel_bool t : In t L -> ((rle (lo t) y && rle y (hi t)) || (rle y (lo t) && rle (hi t) y))%bool = true <-> sel t.
Proof.
  intros I. pose proof (lo_le_hi t I) as H. unfold sel. rewrite orb_true_iff, !andb_true_iff, !rle_true. lra.
Qed.

Lemma findinv_piece t (a b : R) : In t L -> a < b -> Rbar_le (sa t) a -> Rbar_le b (sb t) -> sf t a <= y <= sf t b ->
  exists x, findinv solve (sf t) a b y = Ok x /\ is_quantile F y x.
Proof.
  intros I Lt A B V. destruct (HH t I) as (h & H1 & H2 & H3).
  destruct (HS (fun x => sf t x - y) a b Lt) as (r & R1 & R2 & R3).
  - exists (fun x => h x - y). split.
    + apply continuity_minus; auto. apply continuity_const. intros u v; reflexivity.
    + intros x Hx. rewrite H2; auto; [apply (Rbar_le_trans _ a)|apply (Rbar_le_trans _ b)]; simpl; auto; lra.
  - nra.
  - exists r. split; auto. apply (point_quantile t); auto; [apply (Rbar_le_trans _ a)|apply (Rbar_le_trans _ b)|]; simpl; auto; lra.
Qed.

Lemma inv_piece_ok t : In t L -> sel t ->
  exists N, forall fuel, (N <= fuel)%nat -> exists x, inv_piece solve fuel t y = Ok x /\ qgood x /\ x <> QNone.
Proof.
  intros I (S1 & S2). destruct (HCt t I) as (D & W).
  assert (FIN : forall a b : R, sa t = a -> sb t = b -> exists x, rmap (fun x => QAt (Finite x)) (findinv solve (sf t) (real (sa t)) (real (sb t)) y) = Ok x /\ qgood x /\ x <> QNone).
  { intros a b Ea Eb. rewrite Ea, Eb in *. simpl real.
    destruct (lo_finite t a I Ea) as (_ & E1). destruct (hi_finite t b I Eb) as (_ & _ & E2). rewrite E1 in S1. rewrite E2 in S2.
    destruct (findinv_piece t a b I) as (x & X1 & X2); auto; try (rewrite ?Ea, ?Eb; apply Rbar_le_refl).
    rewrite X1. exists (QAt x). splits; auto. discriminate. }
  destruct t as [a b f|a b c|b f|a f|a m|a b f l]; try discriminate.
  - exists O. intros fuel _. apply (FIN a b); auto.
  - exists O. intros fuel _. apply (FIN a b); auto.
  - unfold inv_piece. destruct (reqP y 0) as [E|E].
    + exists O. intros fuel _. exists (QAt m_infty). splits; auto. discriminate.
    + destruct (hi_finite (MInfSeg b f) b I eq_refl) as (_ & _ & E2). rewrite E2 in S2. simpl in S2.
      pose proof (proj1 (HV _ I) eq_refl) as Lim. rewrite (HV0 _ I eq_refl) in Lim. simpl in Lim.
      destruct (minf_bracket_main f b y S2) as (N & HN).
      { destruct (lim_m_eps _ _ y Lim) as (K & HK); [destruct Y as [[Y1|Y1] _]; [exact Y1|congruence]|]. exists K. intros x Hx. specialize (HK x Hx). apply abs_lt in HK. cbn [sf] in HK. lra. }
      exists N. intros fuel Hf. destruct (HN fuel Hf) as (a' & b' & E3 & E4 & E5). rewrite E3. simpl of_search.
      destruct (findinv_piece (MInfSeg b f) a' b' I) as (x & X1 & X2); [lra|simpl; try lra; auto|simpl; try lra; auto|simpl; lra|].
      simpl in X1. rewrite X1. exists (QAt x). splits; auto. discriminate.
  - unfold inv_piece. destruct (reqP y 1) as [E|E].
    + exists O. intros fuel _. exists (QAt p_infty). splits; auto. discriminate.
    + destruct (lo_finite (PInfSeg a f) a I eq_refl) as (_ & E2). rewrite E2 in S1. simpl in S1.
      pose proof (proj2 (HV _ I) eq_refl) as Lim. rewrite (HV1 _ I eq_refl) in Lim. simpl in Lim.
      destruct (pinf_bracket_main f a y S1) as (N & HN).
      { destruct (lim_p_eps _ _ (1 - y) Lim) as (K & HK); [destruct Y as [_ [Y1|Y1]]; [lra|congruence]|]. exists K. intros x Hx. specialize (HK x Hx). apply abs_lt in HK. cbn [sf] in HK. lra. }
      exists N. intros fuel Hf. destruct (HN fuel Hf) as (a' & b' & E3 & E4 & E5). rewrite E3. simpl of_search.
      destruct (findinv_piece (PInfSeg a f) a' b' I) as (x & X1 & X2); [lra|simpl; try lra; auto|simpl; try lra; auto|simpl; lra|].
      simpl in X1. rewrite X1. exists (QAt x). splits; auto. discriminate.
  - exists O. intros fuel _. apply (FIN a b); auto.
Qed.

Lemma inv_cont_ok l : incl l L ->
  exists N, forall fuel, (N <= fuel)%nat -> forall x, qgood x ->
  exists x', inv_cont solve fuel l (getSegVals vinf l) y x = Ok x' /\ qgood x' /\ (x <> QNone -> x' <> QNone) /\ (Exists sel l -> x' <> QNone).
Proof.
  induction l as [|s l IH]; intros HI.
  - exists O. intros fuel _ x G. exists x. simpl. splits; auto. intros E; inversion E.
  - assert (I : In s L) by (apply HI; left; auto).
    destruct IH as (N1 & IH); [intros t Ht; apply HI; right; auto|].
    destruct ((rle (lo s) y && rle y (hi s)) || (rle y (lo s) && rle (hi s) y))%bool eqn:E.
    + destruct (inv_piece_ok s I) as (N2 & H2); [apply sel_bool; auto|].
      exists (max N1 N2). intros fuel Hf x G. destruct (H2 fuel) as (x1 & X1 & X2 & X3); [lia|].
      destruct (IH fuel ltac:(lia) x1 X2) as (x2 & Z1 & Z2 & Z3 & Z4).
      exists x2. cbn [getSegVals map inv_cont fst snd]. fold (lo s) (hi s). rewrite E, X1. simpl. splits; auto.
    + exists N1. intros fuel Hf x G. destruct (IH fuel Hf x G) as (x2 & Z1 & Z2 & Z3 & Z4).
      exists x2. cbn [getSegVals map inv_cont fst snd]. fold (lo s) (hi s). rewrite E. simpl. splits; auto.
      intros X. apply Z4. apply Exists_cons in X. destruct X as [X|X]; auto. apply (sel_bool s I) in X. congruence.
Qed.

(** two neighbours with y between the end of the first and the start of the second *)
Inductive jump : list segment -> Prop :=
| jump_here s t l : hi s <= y <= lo t -> jump (s :: t :: l)
| jump_later s l : jump l -> jump (s :: l).

Lemma path_next l1 s t l2 : L = l1 ++ s :: t :: l2 -> exists r : R, sb s = r /\ sa t = r.
Proof.
  intros E. pose proof HP as P. rewrite E in P. apply path_app_inv in P. destruct P as (c & _ & P). simpl in P. destruct P as (P1 & P2 & P3).
  assert (I1 : In s L) by (rewrite E; apply in_or_app; right; left; auto).
  assert (I2 : In t L) by (rewrite E; apply in_or_app; right; right; left; auto).
  destruct (HCt s I1) as (_ & W1). destruct (HCt t I2) as (_ & W2). rewrite P2 in *.
  destruct (sb s) as [r| |]; [eauto| |].
  - destruct (sb t); simpl in W2; tauto.
  - destruct (sa s); simpl in W1; tauto.
Qed.

Lemma inv_jump_ok l2 : forall l1 x, L = l1 ++ l2 -> qgood x ->
  exists x', inv_jump (length l1) (getSegVals vinf l2) (getBreaks L) y x = Ok x' /\ qgood x' /\ (x <> QNone -> x' <> QNone) /\
    ((exists r : R, x = QAt r) \/ jump l2 -> exists r : R, x' = QAt r).
Proof.
  induction l2 as [|s l2 IH]; intros l1 x E G.
  - exists x. simpl. splits; auto. intros [H|H]; auto. inversion H.
  - destruct l2 as [|t l2].
    { exists x. simpl. splits; auto. intros [H|H]; auto. inversion H; subst. inversion H1. }
    cbn [getSegVals map inv_jump fst snd]. fold (getSegVals vinf l2). fold (hi s) (lo t).
    change ((end_val vinf t (sa t), end_val vinf t (sb t)) :: getSegVals vinf l2) with (getSegVals vinf (t :: l2)).
    destruct (path_next l1 s t l2 E) as (r & Er1 & Er2).
    assert (Is : In s L) by (rewrite E; apply in_or_app; right; left; auto).
    assert (It : In t L) by (rewrite E; apply in_or_app; right; right; left; auto).
    assert (E' : L = (l1 ++ [s]) ++ t :: l2) by (rewrite <- app_assoc; auto).
    assert (Ln : length (l1 ++ [s]) = S (length l1)) by (rewrite app_length; simpl; lia).
    destruct (rle (hi s) y && rle y (lo t))%bool eqn:B.
    + apply andb_true_iff in B. rewrite !rle_true in B.
      assert (Br : nth_error (getBreaks L) (S (length l1)) = Some (Finite r)).
      { rewrite (getBreaks_path m_infty L p_infty); auto.
        - simpl. rewrite E, map_app, nth_error_app2; rewrite map_length; auto. rewrite Nat.sub_diag. simpl. rewrite Er1; auto.
        - rewrite E. destruct l1; discriminate.
        - apply Forall_forall. intros u Hu. apply HCt; auto. }
      rewrite Br. simpl rbind.
      assert (G' : qgood (QAt r)).
      { simpl. destruct (hi_finite s r Is Er1) as (H1 & H2 & H3). destruct (lo_finite t r It Er2) as (H4 & _).
        split; [|lra]. intros u Hu. specialize (H1 u Hu). lra. }
      destruct (IH (l1 ++ [s]) (QAt r) E' G') as (x' & X1 & X2 & X3 & X4). rewrite Ln in X1.
      exists x'. splits; auto; [intros _; apply X3; discriminate|]. intros _. apply X4. left; eauto.
    + simpl rbind. destruct (IH (l1 ++ [s]) x E' G) as (x' & X1 & X2 & X3 & X4). rewrite Ln in X1.
      exists x'. splits; auto. intros [H|H]; [apply X4; auto|]. inversion H; subst.
      * exfalso. apply andb_false_iff in B. rewrite !rle_false in B. destruct B; lra.
      * apply X4; auto.
Qed.

Lemma found a l : forall b, incl l L -> l <> [] -> path a l b -> (forall s l', l = s :: l' -> lo s <= y) -> (forall s l', l = l' ++ [s] -> y <= hi s) -> Exists sel l \/ jump l.
Proof.
  revert a. induction l as [|s l IH]; intros a b HI N P H1 H2; [congruence|]. specialize (H1 s l eq_refl).
  destruct (Rle_dec y (hi s)) as [Le|Gt]; [left; left; split; auto|].
  destruct l as [|t l]; [exfalso; apply Gt, (H2 s []); auto|].
  destruct (Rle_dec y (lo t)) as [Le2|Gt2]; [right; constructor; lra|].
  destruct (IH (sb s) b) as [X|X].
  - intros u Hu; apply HI; right; auto.
  - discriminate.
  - apply P.
  - intros s' l' E. injection E as <- <-. lra.
  - intros s' l' E. apply (H2 s' (s :: l')). rewrite E. auto.
  - left. right. auto.
  - right. apply jump_later; auto.
Qed.

Lemma HLne : L <> [].
Proof. intros E. rewrite E in HP. discriminate. Qed.

Lemma inverse_ok : exists N, forall fuel, (N <= fuel)%nat ->
  exists x, inverse_scalar vinf solve fuel L y = Ok x /\ qgood x /\ x <> QNone /\ (jump L -> exists r : R, x = QAt r).
Proof.
  destruct (inv_cont_ok L) as (N & HN); [intros t; auto|]. exists N. intros fuel Hf.
  destruct (HN fuel Hf QNone Logic.I) as (x1 & X1 & X2 & X3 & X4).
  destruct (inv_jump_ok L [] x1 eq_refl X2) as (x2 & Z1 & Z2 & Z3 & Z4).
  assert (NE : x2 <> QNone).
  { destruct (found m_infty L p_infty) as [X|X]; auto.
    - intros t; auto.
    - apply HLne.
    - intros s l' E. assert (I : In s L) by (rewrite E; left; auto). rewrite (lo_minf s I); [lra|].
      apply sa_minf; auto. pose proof HP as P. rewrite E in P. apply P.
    - intros s l' E. assert (I : In s L) by (rewrite E; apply in_or_app; right; left; auto). rewrite (hi_pinf s I); [lra|].
      apply sb_pinf; auto. pose proof HP as P. rewrite E in P. apply path_app_inv in P. destruct P as (c & _ & P). apply P.
    - destruct (Z4 (or_intror X)) as (r & ->). discriminate. }
  exists x2. unfold inverse_scalar. rewrite X1. simpl rbind. change 0%nat with (length (@nil segment)). rewrite Z1. simpl rbind.
  splits; auto. destruct x2; try reflexivity. congruence.
Qed.

End Generic.
