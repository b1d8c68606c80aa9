(** Median absolute deviation, inter-quantile range, mode and range: the proofs. *)
From Coq Require Import Reals Lra List Bool Sorted Permutation Lia.
From Coquelicot Require Import Coquelicot.
From Verif Require Import Base Seg Piecewise PiecewiseSpec PiecewiseFacts PiecewiseFacts2 PiecewiseFacts3 PiecewiseFacts4 Integral IntegralFacts SegInt SegIntSpec
  CumintFacts Transform TransformSpec TransformFacts TransformFacts2 TransformFacts3 TransformFacts4 TransformFacts5 OperationFacts IndepSpec AtomFacts CondFacts
  Root Quant QuantSpec QuantFacts QuantFacts2 QuantMain TransformMain Summ SummSpec SummFacts SummFacts2 SummFacts3.
Import List ListNotations.
Open Scope R_scope.

Lemma density_path l : density l -> exists A B, path A l B.
Proof. intros (N & _ & _ & _ & C). destruct l as [|s l]; [congruence|]. destruct (chained_path (s :: l) s l eq_refl C) as (B & P). eauto. Qed.

(** the law of |X - m| as the code builds it *)
Lemma folded_density eps l (m : R) : 0 <= eps -> density l -> Forall nonneg_piece l -> Forall cont_inside l -> total_mass l = 1 -> dirac_sep eps l ->
  dists_sep eps m l -> is_quantile (cdf_spec l) (1 / 2) m ->
  exists f1 f2 f3, copyShiftedAndScaled eps l (- m) 1 = Ok f1 /\ splitByPoints eps (segs f1) [Finite 0] = Ok f2 /\ copyAbsComposition eps (segs f2) = Ok f3 /\
    density (segs f3) /\ Forall nonneg_piece (segs f3) /\ total_mass (segs f3) = 1 /\
    (forall y, y <= 0 -> pprob (segs f3) m_infty (Finite y) = 0) /\
    (forall e, 0 < e -> pprob (segs f3) m_infty (Finite e) = pprob l (Finite (m - e)) (Finite (m + e))).
Proof.
  intros E0 DL NN C T DS XS Q. pose proof DL as (_ & W & _ & O & _). pose proof (density_has_int l DL) as HI.
  destruct (density_path l DL) as (A & B & P). destruct (path_hull l W A B P) as (AB & H).
  destruct (median_in_hull l DL A B m T H Q) as (MA & MB).
  destruct (shift_list eps m l O W HI C NN DS) as (l1 & f1 & F1 & S1 & O1 & W1 & HI1 & C1 & N1 & D1 & R1 & P1).
  assert (S0 : StronglySorted Rbar_lt [Finite 0]) by (constructor; constructor).
  destruct (splitByPoints_ok eps l1 [Finite 0] S0 O1 W1 D1) as (f2 & F2 & S2 & _).
  destruct (split_all_ordered [Finite 0] l1 S0 O1 W1) as (O2 & W2 & P2). set (L := split_all [Finite 0] l1) in *.
  assert (HI2 : Forall has_int L) by (apply (split_all_prob [Finite 0] l1 0 0); auto using Rbar_le_refl).
  assert (PR : forall u v, Rbar_le u v -> pprob L u v = pprob l1 u v) by (intros; apply split_all_prob; auto).
  assert (C2 : Forall cont_inside L) by (apply split_all_cont; auto).
  assert (N2 : Forall nonneg_piece L).
  { rewrite Forall_forall in N1 |- *. intros u Hu. destruct (split_all_shape [Finite 0] l1 S0 W1 u Hu) as (s & Hs & _ & _ & _ & _ & HH & _). auto. }
  assert (D2 : dirac_sep eps L) by (apply dirac_sep_pos; rewrite P2; apply dirac_sep_pos; auto).
  assert (DA : forall a k, In (DiracSeg a k) L -> In (DiracSeg (a + m) k) l).
  { intros a k Ha. assert (HH : In (DiracSeg a k) (getDiracs L)) by (apply filter_In; auto). unfold L in HH. rewrite split_diracs in HH; auto.
    apply filter_In in HH. destruct HH as (HH & _). destruct (Forall2_in_r _ _ _ _ R1 HH) as (s & Hs & _ & _ & _ & K). rewrite (K a k eq_refl) in Hs. auto. }
  assert (A2 : atoms_even_sep eps Rabs L).
  { intros a k b j Ha Hb. apply DA in Ha. apply DA in Hb. destruct (XS _ _ _ _ Ha Hb) as [X|X]; replace (a + m - m) with a in X by ring;
      replace (b + m - m) with b in X by ring; auto. }
  assert (T2 : total_mass L = 1).
  { rewrite total_mass_pprob by auto. rewrite PR by (simpl; auto). rewrite <- T, total_mass_pprob by auto. 
    rewrite <- (P1 m_infty p_infty) by (simpl; auto). unfold sh, affine. destruct (Rlt_dec 0 1); [auto|lra]. }
  assert (Z1 : Rbar_le (sh m A) 0). { replace (Finite 0) with (sh m m) by (unfold sh, affine; f_equal; ring). apply sh_le; auto. }
  assert (Z2 : Rbar_le 0 (sh m B)). { replace (Finite 0) with (sh m m) by (unfold sh, affine; f_equal; ring). apply sh_le; auto. }
  destruct (fold_density eps L (sh m A) (sh m B) E0 O2 W2 HI2 C2 N2 D2 A2) as (f3 & F3 & DD & ND & TD & (L1 & L2 & L3)); auto.
  { unfold in_hull in *. rewrite Forall_forall in H |- *. intros u Hu. destruct (split_all_shape [Finite 0] l1 S0 W1 u Hu) as (t & Ht & _ & U1 & U2 & _).
    destruct (Forall2_in_r _ _ _ _ R1 Ht) as (s & Hs & V1 & V2 & _). destruct (H s Hs) as (H1 & H2). rewrite V1 in U1. rewrite V2 in U2.
    split; [apply (Rbar_le_trans _ (sh m (sa s))); auto|apply (Rbar_le_trans _ (sh m (sb s))); auto]; apply sh_le; auto. }
  { intros x X Y.
    assert (EX : sh m (Finite (x + m)) = Finite x) by (unfold sh, affine; f_equal; ring).
    assert (X' : Rbar_lt A (x + m)). { apply Rbar_not_le. intros K. apply (sh_le m) in K. rewrite EX in K. apply (Rbar_lt_not_le _ _ X K). }
    assert (Y' : Rbar_lt (x + m) B). { apply Rbar_not_le. intros K. apply (sh_le m) in K. rewrite EX in K. apply (Rbar_lt_not_le _ _ Y K). }
    destruct (path_covers l W A B (x + m) P (Rbar_lt_le _ _ X') Y') as (s & Hs & Ds & (Cs1 & Cs2)).
    destruct (Forall2_in_l _ _ _ _ R1 Hs) as (t & Ht & V1 & V2 & V3 & _).
    apply (split_all_covers [Finite 0] l1 x t); auto; [congruence|]. unfold covers. rewrite V1, V2, <- EX. split; [apply sh_le|apply sh_lt]; auto. }
  exists f1, f2, f3. rewrite S1. rewrite S2. split; [exact F1|]. split; [exact F2|]. split; [exact F3|].
  split; [exact DD|]. split; [exact ND|]. split; [exact TD|]. split.
  - intros y Y. apply L1; simpl; auto.
  - intros e E. pose proof (L3 m_infty e) as K. simpl in K. rewrite Rabs_pos_eq in K by lra. rewrite K; auto.
    rewrite PR by (simpl; lra). rewrite <- (P1 (m - e) (m + e)) by (simpl; lra). f_equal; unfold sh, affine; f_equal; ring.
Qed.

Lemma medianad_ok eps l vinf solve : 0 <= eps -> density l -> Forall nonneg_piece l -> Forall cont_inside l -> total_mass l = 1 -> dirac_sep eps l ->
  (forall m, is_quantile (cdf_spec l) (1 / 2) m -> dists_sep eps m l) -> exact_solver solve ->
  (forall k q, density k -> cumint eps k = Ok q -> end_limits vinf (segs q)) ->
  exists N m d, is_quantile (cdf_spec l) (1 / 2) m /\ abs_dev_median l m d /\
    forall fuel, (N <= fuel)%nat -> median vinf solve fuel eps l = Ok (QAt (Finite m)) /\ medianad vinf solve fuel eps l = Ok (QAt (Finite d)).
Proof.
  intros E0 DL NN C T DS XS SV EL.
  destruct (quantile_brackets_main eps l vinf solve (1 / 2) DL NN T SV) as (N1 & Q1); [intros q; apply EL; auto|lra|].
  destruct (Q1 N1 (le_n _)) as (m & M1 & M2).
  destruct (folded_density eps l m E0 DL NN C T DS (XS m M2) M2) as (f1 & f2 & f3 & F1 & F2 & F3 & D3 & NN3 & T3 & Z & P).
  destruct (quantile_brackets_main eps (segs f3) vinf solve (1 / 2) D3 NN3 T3 SV) as (N2 & Q2); [intros q; apply EL; auto|lra|].
  destruct (Q2 N2 (le_n _)) as (d & K1 & K2 & K3).
  exists (N1 + N2)%nat, m, d. split; [exact M2|]. split.
  - assert (d0 : 0 <= d).
    { apply Rnot_lt_le. intros L. pose proof (cdf_below (segs f3) D3 NN3 d 0 L) as X. rewrite Z in X by lra. lra. }
    split; [exact d0|]. split.
    + intros e E L. rewrite <- P by auto. pose proof (below_cdf (segs f3) D3 NN3 e) as X. specialize (K2 e L). lra.
    + intros e L. rewrite <- P by lra. pose proof (cdf_below (segs f3) D3 NN3 d e L). lra.
  - intros fuel HF.
    assert (M : median vinf solve fuel eps l = Ok (QAt (Finite m))) by (apply (quantile_more vinf solve N1 fuel); auto; lia).
    split; auto. unfold medianad. rewrite M. cbn [rbind]. rewrite F1. cbn [rbind]. rewrite F2. cbn [rbind]. rewrite F3. cbn [rbind].
    apply (quantile_more vinf solve N2 fuel); auto. lia.
Qed.

(** ** Inter-quantile range *)
Lemma iqrange_ok eps l vinf solve level : density l -> Forall nonneg_piece l -> total_mass l = 1 -> exact_solver solve ->
  (forall q, cumint eps l = Ok q -> end_limits vinf (segs q)) -> 0 < level < 1 / 2 ->
  exists N, forall fuel, (N <= fuel)%nat -> exists a b : R,
    quantile vinf solve fuel eps l level = Ok (QAt (Finite a)) /\ quantile vinf solve fuel eps l (1 - level) = Ok (QAt (Finite b)) /\ a <= b /\
    iqrange vinf solve fuel eps l level = Ok (QAt (Finite (b - a))) /\ iqrange vinf solve fuel eps l (1 - level) = Ok (QAt (Finite (a - b))) /\
    (forall t, t < a -> 1 - 2 * level <= cdf_spec l b - cdf_spec l t).
Proof.
  intros DL NN T SV EL LV.
  destruct (interval_mass_main eps l vinf solve (1 - 2 * level) DL NN T SV EL) as (N & H); [lra|]. exists N. intros fuel HF.
  destruct (H fuel HF) as (a & b & I & AB & M & _). exists a, b. unfold interval in I.
  replace ((1 - (1 - 2 * level)) / 2) with level in I by field.
  destruct (quantile vinf solve fuel eps l level) as [u|] eqn:E1; simpl in I; [|discriminate].
  destruct (quantile vinf solve fuel eps l (1 - level)) as [v|] eqn:E2; simpl in I; [|discriminate].
  injection I as -> ->. splits; auto.
  - unfold iqrange. rewrite E1, E2. simpl. reflexivity.
  - unfold iqrange. replace (1 - (1 - level)) with level by ring. rewrite E1, E2. simpl. reflexivity.
Qed.

(** ** Mode *)
Lemma neg_neg f a b : unimodal f a b -> unimodal (fun x => - (- f x)) a b.
Proof.
  intros (c & H1 & H2 & H3). exists c. split; auto. split; intros x y X Y Z; rewrite !Ropp_involutive; auto.
Qed.
Lemma minf_limit f v c : (forall x y, x <= y -> y <= c -> f x <= f y) -> filterlim f (Rbar_locally m_infty) (locally v) -> forall x, x <= c -> v <= f x.
Proof.
  intros M L x X. apply Rnot_lt_le. intros K. destruct (lim_m_eps f v (v - f x) L) as (M0 & H); [lra|].
  specialize (H (Rmin (M0 - 1) x)). pose proof (Rmin_l (M0 - 1) x). pose proof (Rmin_r (M0 - 1) x).
  assert (J : Rabs (f (Rmin (M0 - 1) x) - v) < v - f x) by (apply H; lra). apply abs_lt in J. specialize (M (Rmin (M0 - 1) x) x). lra.
Qed.
Lemma pinf_limit f v c : (forall x y, c <= x -> x <= y -> f y <= f x) -> filterlim f (Rbar_locally p_infty) (locally v) -> forall x, c <= x -> v <= f x.
Proof.
  intros M L x X. apply Rnot_lt_le. intros K. destruct (lim_p_eps f v (v - f x) L) as (M0 & H); [lra|].
  specialize (H (Rmax (M0 + 1) x)). pose proof (Rmax_l (M0 + 1) x). pose proof (Rmax_r (M0 + 1) x).
  assert (J : Rabs (f (Rmax (M0 + 1) x) - v) < v - f x) by (apply H; lra). apply abs_lt in J. specialize (M x (Rmax (M0 + 1) x)). lra.
Qed.

Lemma seg_max_ok fmin far vinf s : exact_min fmin -> one_hump far vinf s ->
  exists x : R, seg_maximum fmin far vinf s = (Finite x, sf s x) /\ Rbar_le (sa s) x /\ Rbar_le x (sb s) /\
    forall y : R, Rbar_le (sa s) y -> Rbar_le y (sb s) -> sf s y <= sf s x.
Proof.
  intros EM OH. destruct s as [a b f|a b c|b f|a f|a m|a b f p]; simpl in OH; try contradiction.
  - destruct OH as (L & U). destruct (EM (fun x => - f x) a b L (neg_neg f a b U)) as (B1 & B2).
    exists (fmin (fun x => - f x) a b). simpl. splits; auto; try apply B1. intros y Y1 Y2. specialize (B2 y (conj Y1 Y2)). simpl in B2. lra.
  - assert (U : unimodal (fun _ => - - c) a b) by (exists a; split; [lra|]; split; intros x y _ _ _; lra).
    destruct (EM (fun x => - c) a b OH U) as (B1 & B2).
    exists (fmin (fun x => - c) a b). simpl. splits; auto; try apply B1. intros y _ _. lra.
  - destruct OH as (L & U & M & LM & VB). destruct (EM (fun x => - f x) (far (MInfSeg b f)) b L (neg_neg _ _ _ U)) as (B1 & B2).
    set (fa := far (MInfSeg b f)) in *. set (xi := fmin (fun x => - f x) fa b) in *. set (v := vinf (MInfSeg b f)) in *.
    assert (VL : v <= f fa) by (apply (minf_limit f v fa M LM); lra).
    assert (X1 : f fa <= f xi) by (specialize (B2 fa); simpl in B2; lra).
    assert (X2 : f b <= f xi) by (specialize (B2 b); simpl in B2; lra).
    assert (ALL : forall y, y <= b -> f y <= f xi).
    { intros y Y. destruct (Rle_dec y fa) as [J|J]; [specialize (M y fa); lra|]. specialize (B2 y). simpl in B2. lra. }
    unfold seg_maximum. fold fa v xi. cbn [sa sb sf]. destruct (rleP v (f b)) as [J|J]; [|simpl in J; fold v in VB; lra].
    + destruct (rltP (f b) (f xi)) as [K|K]; [exists xi|exists b]; simpl; splits; auto; try lra. intros y _ Y. specialize (ALL y Y). lra.
  - destruct OH as (L & U & M & LM & VB). destruct (EM (fun x => - f x) a (far (PInfSeg a f)) L (neg_neg _ _ _ U)) as (B1 & B2).
    set (fa := far (PInfSeg a f)) in *. set (xi := fmin (fun x => - f x) a fa) in *. set (v := vinf (PInfSeg a f)) in *.
    assert (VL : v <= f fa) by (apply (pinf_limit f v fa M LM); lra).
    assert (X1 : f fa <= f xi) by (specialize (B2 fa); simpl in B2; lra).
    assert (X2 : f a <= f xi) by (specialize (B2 a); simpl in B2; lra).
    assert (ALL : forall y, a <= y -> f y <= f xi).
    { intros y Y. destruct (Rle_dec fa y) as [J|J]; [specialize (M fa y); lra|]. specialize (B2 y). simpl in B2. lra. }
    unfold seg_maximum. fold fa v xi. cbn [sa sb sf]. destruct (rleP v (f a)) as [J|J]; [|simpl in J; fold v in VB; lra].
    + destruct (rltP (f a) (f xi)) as [K|K]; [exists xi|exists a]; simpl; splits; auto; try lra. intros y Y _. specialize (ALL y Y). lra.
Qed.

Lemma max_loop_ok fmin far vinf : exact_min fmin -> forall l acc, Forall (one_hump far vinf) l -> 
  exists r, max_loop fmin far vinf l acc = r /\
    (acc = None -> l <> [] -> r <> None) /\
    (forall p, r = Some p -> (acc = Some p \/ exists s x, In s l /\ p = (Finite x, sf s x) /\ Rbar_le (sa s) x /\ Rbar_le x (sb s))) /\
    (forall p, acc = Some p -> exists p', r = Some p' /\ snd p <= snd p') /\
    (forall p, r = Some p -> forall s y, In s l -> Rbar_le (sa s) (Finite y) -> Rbar_le (Finite y) (sb s) -> sf s y <= snd p).
Proof.
  intros EM. induction l as [|s l IH]; intros acc H.
  - exists acc. simpl. splits; auto; try congruence; try tauto. intros p E. exists p. split; auto. lra.
  - inversion H as [|? ? H1 H2]; subst. destruct (seg_max_ok fmin far vinf s EM H1) as (x & E & X1 & X2 & X3). cbn [max_loop]. rewrite E. cbn [snd].
    set (acc' := match acc with None => Some (Finite x, sf s x) | Some a => if rlt (snd a) (sf s x) then Some (Finite x, sf s x) else acc end).
    destruct (IH acc' H2) as (r & E2 & I1 & I2 & I3 & I4). exists r. rewrite E2. 
    assert (A1 : exists p, acc' = Some p /\ sf s x <= snd p /\ (acc = Some p \/ p = (Finite x, sf s x)) /\ (forall p0, acc = Some p0 -> snd p0 <= snd p)).
    { unfold acc'. destruct acc as [a|]; [destruct (rltP (snd a) (sf s x)) as [K|K]|].
      - eexists. splits; eauto; simpl; try lra. intros p0 [= <-]. lra.
      - exists a. splits; auto; try lra. intros p0 [= <-]. lra.
      - eexists. splits; eauto; simpl; try lra. discriminate. }
    destruct A1 as (p & A1 & A2 & A3 & A4). destruct (I3 p A1) as (p' & P1 & P2).
    splits; auto.
    + intros _ _. rewrite P1. discriminate.
    + intros p0 E0. destruct (I2 p0 E0) as [J|(s' & x' & J)].
      * rewrite A1 in J. injection J as ->. destruct A3 as [A3|A3]; auto. right. exists s, x. splits; auto. left; auto.
      * right. exists s', x'. destruct J as (J1 & J2). split; [right; auto|auto].
    + intros p0 E0. exists p'. split; auto. specialize (A4 p0 E0). lra.
    + intros p0 E0 s' y [<-|Hs] Y1 Y2; [|eapply I4; eauto]. rewrite P1 in E0. injection E0 as <-. specialize (X3 y Y1 Y2). lra.
Qed.

Lemma maximum_ok fmin far vinf l : exact_min fmin -> l <> [] -> Forall (one_hump far vinf) l ->
  exists s x, In s l /\ Rbar_le (sa s) (Finite x) /\ Rbar_le (Finite x) (sb s) /\ mode fmin far vinf l = Some (Finite x) /\
    maximum fmin far vinf l = Some (Finite x, sf s x) /\
    forall t y, In t l -> Rbar_le (sa t) (Finite y) -> Rbar_le (Finite y) (sb t) -> sf t y <= sf s x.
Proof.
  intros EM NE H. destruct (max_loop_ok fmin far vinf EM l None H) as (r & E & I1 & I2 & _ & I4).
  destruct r as [p|]; [|exfalso; apply (I1 eq_refl NE); auto]. destruct (I2 p eq_refl) as [J|(s & x & Hs & -> & X1 & X2)]; [discriminate|].
  exists s, x. splits; auto. unfold mode, maximum. rewrite E. reflexivity. exact (I4 _ eq_refl).
Qed.
