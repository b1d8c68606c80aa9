(** Proofs about functions of one variable, part 5: restriction to a branch, cosine and sine. *)
From Coq Require Import Reals Lra List Bool Sorted Permutation FunctionalExtensionality.
From Coquelicot Require Import Coquelicot.
From Verif Require Import Base Bisect Seg Piecewise PiecewiseSpec PiecewiseFacts PiecewiseFacts2 PiecewiseFacts3 PiecewiseFacts4
  Integral IntegralFacts SegInt SegIntSpec SegIntFacts SubstFacts Transform TransformSpec TransformFacts TransformFacts2
  TransformFacts3 OperationFacts TransformFacts4 TransformFacts5 TransformMain PiecewiseMain Func FuncSpec FuncFacts FuncFacts2 FuncFacts3 FuncFacts4.
Import List ListNotations.
Open Scope R_scope.

Lemma pprob_zero l u v : (forall s, In s l -> prob s u v = 0) -> pprob l u v = 0.
Proof.
  intros H. unfold pprob. induction l as [|s l IH]; auto. simpl. rewrite IH by (intros; apply H; simpl; auto). rewrite H by (simpl; auto). lra.
Qed.

Lemma restrict_law eps l (a b : R) : a < b -> smooth eps l ->
  exists r, restrictToInterval eps l (Finite a) (Finite b) = Ok r /\ smooth eps (segs r) /\ Forall (within (Finite a) (Finite b)) (segs r) /\
    (forall x, In x (dirac_pos (segs r)) <-> In x (dirac_pos l) /\ a <= x < b) /\
    (forall u v, Rbar_le (Finite a) u -> Rbar_le u v -> Rbar_le v (Finite b) -> pprob (segs r) u v = pprob l u v).
Proof.
  intros AB (O & W & DS & HI & C).
  assert (S0 : StronglySorted Rbar_lt [Finite a; Finite b]) by (apply pair_sorted; exact AB).
  destruct (restrict_ok eps l (Finite a) (Finite b) AB O W DS) as (r & E & Es). exists r. split; auto. rewrite Es.
  destruct (split_all_ordered [Finite a; Finite b] l S0 O W) as (O' & W' & P').
  assert (HI' : Forall has_int (split_all [Finite a; Finite b] l)) by (apply (split_all_prob [Finite a; Finite b] l 0 0); auto using Rbar_le_refl).
  assert (C' : Forall cont_inside (split_all [Finite a; Finite b] l)) by (apply split_all_cont; auto).
  assert (DS' : dirac_sep eps (split_all [Finite a; Finite b] l)) by (apply dirac_sep_pos; rewrite P'; apply dirac_sep_pos; auto).
  split; [unfold smooth; splits; auto|split; [|split]].
  - apply TransformFacts4.filter_ordered; auto.
  - apply TransformFacts4.filter_Forall; auto.
  - apply filter_dirac_sep; auto.
  - apply TransformFacts4.filter_Forall; auto.
  - apply TransformFacts4.filter_Forall; auto.
  - apply Forall_forall. intros s Hs. apply filter_In in Hs. destruct Hs as (_ & K). unfold restrict_keep in K. unfold within.
    destruct (isDirac s); apply andb_prop in K; destruct K as (K1 & K2); rewrite ble_true in K1.
    + rewrite blt_true in K2. split; auto. apply Rbar_lt_le; auto.
    + rewrite ble_true in K2. split; auto.
  - intros x. rewrite <- P'. rewrite !dirac_pos_In. split.
    + intros (m & Hm). apply filter_In in Hm. destruct Hm as (Hm & K). split; eauto. unfold restrict_keep in K. cbn [isDirac sa sb] in K.
      apply andb_prop in K. destruct K as (K1 & K2). rewrite ble_true in K1. rewrite blt_true in K2. simpl in *. lra.
    + intros ((m & Hm) & X1 & X2). exists m. apply filter_In. split; auto. unfold restrict_keep. cbn [isDirac sa sb].
      rewrite (proj2 (ble_true (Finite a) (Finite x))) by (simpl; lra). rewrite (proj2 (blt_true (Finite x) (Finite b))) by (simpl; lra). reflexivity.
  - intros u v U UV V. rewrite <- (proj1 (split_all_prob [Finite a; Finite b] l u v S0 W HI UV)).
    rewrite (filter_pprob (restrict_keep (Finite a) (Finite b)) (split_all _ l)).
    assert (Z : pprob (filter (fun s => negb (restrict_keep (Finite a) (Finite b) s)) (split_all [Finite a; Finite b] l)) u v = 0).
    { apply pprob_zero. intros s Hs. apply filter_In in Hs. destruct Hs as (Hs & K).
      rewrite Forall_forall in W'. specialize (W' s Hs). apply negb_true_iff in K. unfold restrict_keep in K.
      assert (N1 := split_no_inside _ l s (Finite a) S0 W Hs (or_introl eq_refl)).
      assert (N2 := split_no_inside _ l s (Finite b) S0 W Hs (or_intror (or_introl eq_refl))). unfold inside in N1, N2.
      pose proof (wf_le s W') as L.
      assert (Rbar_le (sb s) (Finite a) \/ Rbar_le (Finite b) (sa s)) as [H|H].
      { destruct (isDirac s) eqn:D; apply andb_false_iff in K; rewrite ble_false in K.
        - rewrite blt_false in K. destruct s; try discriminate. cbn [sa sb] in *. destruct K as [K|K]; [left; apply Rbar_lt_le; auto|right; auto].
        - rewrite ble_false in K. destruct K as [K|K].
          + left. destruct (Rbar_lt_le_dec (Finite a) (sb s)); auto. exfalso. apply N1; auto.
          + right. destruct (Rbar_lt_le_dec (sa s) (Finite b)); auto. exfalso. apply N2; auto. }
      - apply prob_left_zero; auto. apply (Rbar_le_trans _ (Finite a)); auto.
      - apply prob_right_zero; auto. apply (Rbar_le_trans _ (Finite b)); auto. }
    rewrite Z. lra.
Qed.

Lemma noninj_step eps l pole (A B : R) inc g ginv dginv bs h : 0 <= eps -> A < B -> smooth eps l ->
  inverse_pair inc g ginv (Finite A) (Finite B) ->
  derivative_on ginv dginv (lo_end inc g (Finite A) (Finite B)) (hi_end inc g (Finite A) (Finite B)) ->
  (forall x : R, is_finite (g (Finite x))) ->
  (forall a b, In a (dirac_pos l) -> In b (dirac_pos l) -> real (g (Finite a)) = real (g (Finite b)) \/ eps < Rabs (real (g (Finite a)) - real (g (Finite b)))) ->
  good eps (segs h) -> Forall has_int (segs h) ->
  (forall x, In x (dirac_pos (segs h)) -> exists a, In a (dirac_pos l) /\ x = real (g (Finite a))) ->
  exists h', noninj eps l pole ((Finite A, Finite B, g, ginv, dginv) :: bs) h = noninj eps l pole bs h' /\
    good eps (segs h') /\ Forall has_int (segs h') /\
    (forall x, In x (dirac_pos (segs h')) -> exists a, In a (dirac_pos l) /\ x = real (g (Finite a))) /\
    (forall u v, Rbar_le (Finite A) u -> Rbar_lt u v -> Rbar_le v (Finite B) ->
      pprob (segs h') (lo_end inc g u v) (hi_end inc g u v) =
      pprob (segs h) (lo_end inc g u v) (hi_end inc g u v) + pprob l u v).
Proof.
  intros E0 AB G IP DV F GS Gh Hh Ah. cbn [noninj].
  destruct (restrict_law eps l A B AB G) as (r & Er & Gr & Wr & Ar & Pr). rewrite Er. cbn [rbind].
  assert (FE : Forall (ends_ok_split g) (segs r)).
  { destruct Gr as (_ & W & _). rewrite Forall_forall in *. intros s Hs. destruct (Wr s Hs) as (W1 & W2). specialize (W s Hs). pose proof (wf_le s W) as L.
    unfold ends_ok_split.
    assert (F1 : is_finite (g (sa s))) by (destruct (sa s) as [a| |]; try (exfalso; exact W1); [apply F|destruct (sb s); exfalso; auto]).
    assert (F2 : is_finite (g (sb s))) by (destruct (sb s) as [a| |]; try (exfalso; exact W2); [apply F|destruct (sa s); exfalso; auto]).
    destruct (isDirac s); auto. destruct (blt (sa s) 0 && blt 0 (sb s))%bool; [split|]; apply ends_finite; auto; apply F. }
  assert (IS : image_sep eps g (segs r)).
  { apply image_sep_pos. destruct Gr as (_ & _ & DS & _). apply dirac_sep_pos in DS. revert DS. apply FOP_in.
    intros a b Ha Hb H. apply Ar in Ha. apply Ar in Hb. destruct Ha as (Ha & A1), Hb as (Hb & B1).
    destruct (GS a b Ha Hb) as [EQ|]; auto. exfalso.
    assert (N : a <> b). { intros ->. rewrite Rminus_eq_0, Rabs_R0 in H. lra. }
    rewrite <- (F a), <- (F b) in EQ. cbn [real] in EQ.
    assert (K : forall x y, A <= x -> x < y -> y <= B -> real (g (Finite x)) <> real (g (Finite y))).
    { intros x y X1 X2 X3 EE. pose proof (g_lt inc g ginv _ _ IP (Finite x) (Finite y) X1 X2 X3) as GL.
      unfold lo_end, hi_end in GL. rewrite <- (F x), <- (F y), EE in GL. destruct inc; simpl in GL; lra. }
    destruct (Rtotal_order a b) as [H1|[H1|H1]]; [apply (K a b); lra|tauto|apply (K b a); lra]. }
  destruct (comp_law eps inc g ginv dginv pole (Finite A) (Finite B) (segs r) IP Gr Wr DV FE IS) as (c & Ec & Gc & (_ & Pc & Lc) & _).
  rewrite Ec. cbn [rbind].
  assert (Ac : forall x, In x (dirac_pos (segs c)) -> exists a, In a (dirac_pos l) /\ x = real (g (Finite a))).
  { intros x Hx. apply (Permutation_in x (Permutation_sym Pc)) in Hx. apply in_map_iff in Hx. destruct Hx as (a & <- & Ha).
    exists a. split; auto. apply Ar; auto. }
  assert (X : cross_sep eps (segs h) (segs c)).
  { intros a m b k Ha Hb. destruct (Ah a) as (a' & Ha' & ->); [apply dirac_pos_In; eauto|].
    destruct (Ac b) as (b' & Hb' & ->); [apply dirac_pos_In; eauto|]. apply GS; auto. }
  destruct Gc as (Oc & Wc & Dc & Hc & Cc).
  assert (Gc' : good eps (segs c)) by (unfold good; auto).
  destruct (sum_probability_main eps (segs h) (segs c) E0 Gh Gc' X Hh Hc) as (h' & E' & Gh' & Hh' & Ph').
  destruct Gh as (Oh & Wh & Dh).
  destruct (operation_atoms_main eps Rplus (segs h) (segs c) E0 Oh Oc Wh Wc Dh Dc X) as (h'' & E'' & _ & A'').
  rewrite E' in E''. injection E'' as <-. rewrite E'. cbn [rbind]. exists h'. split; [reflexivity|]. splits; auto.
  - intros x Hx. apply dirac_pos_In in Hx. destruct Hx as (m & Hm). apply A'' in Hm.
    destruct Hm as [(mf & _ & Hm & _)|[(Hm & _)|(Hm & _)]]; [apply Ah|apply Ah|apply Ac]; apply dirac_pos_In; eauto.
  - intros u v U UV V. rewrite Ph'.
    + rewrite Lc by auto. rewrite Pr; auto. apply Rbar_lt_le; auto.
    + apply Rbar_lt_le. apply (g_lt inc g ginv _ _ IP); auto.
Qed.

Lemma empty_good eps : good eps (segs empty_pwf).
Proof. unfold good, empty_pwf; simpl. splits; constructor. Qed.

(** cosine: both branches *)
Lemma acos_range y : Ropp 1 <= y <= 1 -> 0 <= acos y <= PI.
Proof. intros _. apply acos_bound. Qed.
Lemma acos_dec y z : Ropp 1 <= y -> y < z -> z <= 1 -> acos z < acos y.
Proof.
  intros Y L Z. pose proof (acos_bound y). pose proof (acos_bound z).
  apply cos_decreasing_0; try lra. rewrite !cos_acos by lra. auto.
Qed.

Lemma cos_law eps l : 0 <= eps -> smooth eps l ->
  (forall a b, In a (dirac_pos l) -> In b (dirac_pos l) -> cos a = cos b \/ eps < Rabs (cos a - cos b)) ->
  exists q, cos_distr eps l = Ok q /\ good eps (segs q) /\ Forall has_int (segs q) /\
    forall y z, Ropp 1 <= y -> y < z -> z <= 1 ->
      pprob (segs q) (Finite y) (Finite z) =
      pprob l (Finite (acos z)) (Finite (acos y)) + pprob l (Finite (2 * PI - acos y)) (Finite (2 * PI - acos z)).
Proof.
  intros E0 G GS. pose proof PI_RGT_0 as PP. unfold cos_distr, copyCompositionNoninjective, cos_branches.
  destruct (noninj_step eps l false 0 PI false cos_f acos marc_der [(Finite PI, Finite (2 * PI), cos_f, two_pi_acos, arc_der)] empty_pwf)
    as (h1 & E1 & G1 & H1 & A1 & L1); auto using cos_ip1, empty_good; try (intros; reflexivity).
  - unfold lo_end, hi_end. cbn. rewrite cos_0, cos_PI. replace (-1) with (Ropp 1) by reflexivity. apply acos_dv.
  - constructor.
  - intros x [].
  - destruct (noninj_step eps l false PI (2 * PI) true cos_f two_pi_acos arc_der [] h1)
      as (h2 & E2 & G2 & H2 & A2 & L2); auto using cos_ip2; try (intros; reflexivity); [lra| |].
    + unfold lo_end, hi_end. cbn. rewrite Rtrigo1.cos_2PI, cos_PI. replace (-1) with (Ropp 1) by reflexivity. apply two_pi_acos_dv.
    + exists h2. rewrite E1, E2. cbn [noninj]. splits; auto.
      intros y z Y L Z. pose proof (acos_bound y) as BY. pose proof (acos_bound z) as BZ. pose proof (acos_dec y z Y L Z) as D.
      specialize (L1 (Finite (acos z)) (Finite (acos y))). specialize (L2 (Finite (2 * PI - acos y)) (Finite (2 * PI - acos z))).
      unfold lo_end, hi_end, cos_f, ext in L1, L2. rewrite !cos_2PI in L2. rewrite !cos_acos in L1, L2 by lra.
      rewrite L2 by (simpl; lra). rewrite L1 by (simpl; lra). unfold pprob at 1. simpl. lra.
Qed.

(** sine: only the first branch is right *)
Lemma copyComposition_nil eps g ginv dginv pole : copyComposition eps [] g ginv dginv pole = Ok empty_pwf.
Proof. reflexivity. Qed.
Lemma restrict_nil eps l (a b : R) : a < b -> smooth eps l -> Forall (fun s => Rbar_le (sb s) (Finite a)) l -> ~ In a (dirac_pos l) ->
  exists r, restrictToInterval eps l (Finite a) (Finite b) = Ok r /\ segs r = [].
Proof.
  intros AB (O & W & DS & _) L N.
  destruct (restrict_ok eps l (Finite a) (Finite b) AB O W DS) as (r & E & Es). exists r. split; auto. rewrite Es.
  assert (S0 : StronglySorted Rbar_lt [Finite a; Finite b]) by (apply pair_sorted; exact AB).
  destruct (split_all_ordered _ l S0 O W) as (_ & W' & P').
  destruct (filter _ _) as [|s k] eqn:EF; auto. exfalso.
  assert (In s (filter (restrict_keep (Finite a) (Finite b)) (split_all [Finite a; Finite b] l))) as Hs by (rewrite EF; left; auto).
  apply filter_In in Hs. destruct Hs as (Hs & K). unfold restrict_keep in K.
  assert (Ws : wf_seg s) by (rewrite Forall_forall in W'; auto).
  assert (Lb : Rbar_le (sb s) (Finite a)).
  { assert (T : Forall (within m_infty (Finite a)) (split_all [Finite a; Finite b] l)).
    { apply split_all_within; auto. rewrite Forall_forall in *. intros t Ht. split; [destruct (sa t); simpl; auto|apply L; auto]. }
    rewrite Forall_forall in T. apply T; auto. }
  destruct (isDirac s) eqn:D; apply andb_prop in K; destruct K as (K1 & _); rewrite ble_true in K1.
  - destruct s as [| | | |x m|]; try discriminate. simpl in K1, Lb. apply N. replace a with x by lra.
    rewrite <- P'. apply dirac_pos_In. eauto.
  - pose proof (wf_lt s D Ws) as LL. apply (Rbar_lt_irrefl (sa s)). apply (Rbar_lt_le_trans _ (sb s)); auto. apply (Rbar_le_trans _ (Finite a)); auto.
Qed.

Lemma sin_law eps l : 0 <= eps -> smooth eps l -> Forall (within (Finite (- PI / 2)) (Finite (PI / 2))) l -> ~ In (PI / 2) (dirac_pos l) ->
  (forall a b, In a (dirac_pos l) -> In b (dirac_pos l) -> sin a = sin b \/ eps < Rabs (sin a - sin b)) ->
  exists q, sin_distr eps l = Ok q /\ good eps (segs q) /\ Forall has_int (segs q) /\
    forall y z, Ropp 1 <= y -> y < z -> z <= 1 ->
      pprob (segs q) (Finite y) (Finite z) = pprob l (Finite (asin y)) (Finite (asin z)).
Proof.
  intros E0 G Wi NA GS. pose proof PI_RGT_0 as PP. unfold sin_distr, copyCompositionNoninjective, sin_branches.
  assert (N1 : sin (- PI / 2) = Ropp 1) by (replace (- PI / 2) with (- (PI / 2)) by field; rewrite sin_neg, sin_PI2; ring).
  destruct (noninj_step eps l false (- PI / 2) (PI / 2) true sin_f asin arc_der [(Finite (PI / 2), Finite (3 * PI / 2), sin_f, two_pi_acos, arc_der)] empty_pwf)
    as (h1 & E1 & G1 & H1 & A1 & L1); auto using sin_ip1, empty_good; try (intros; reflexivity).
  - lra.
  - unfold lo_end, hi_end, sin_f, ext. rewrite N1, sin_PI2. apply asin_dv.
  - constructor.
  - intros x [].
  - rewrite E1. cbn [noninj].
    destruct (restrict_nil eps l (PI / 2) (3 * PI / 2)) as (r & Er & Es); auto; [lra| |].
    { rewrite Forall_forall in *. intros s Hs. apply Wi; auto. }
    rewrite Er. cbn [rbind]. rewrite Es, copyComposition_nil. cbn [rbind].
    assert (X : cross_sep eps (segs h1) (segs empty_pwf)) by (intros a m b k _ []).
    destruct (sum_probability_main eps (segs h1) (segs empty_pwf) E0 G1 (empty_good eps) X H1) as (h' & E' & Gh' & Hh' & Ph'); [constructor|].
    rewrite E'. cbn [rbind]. exists h'. splits; auto.
    intros y z Y L Z. rewrite Ph' by (simpl; lra). unfold pprob at 2. simpl.
    pose proof (asin_bound y) as BY. pose proof (asin_bound z) as BZ.
    assert (D : asin y < asin z) by (apply sin_increasing_0; try lra; rewrite !sin_asin by lra; auto).
    specialize (L1 (Finite (asin y)) (Finite (asin z))). unfold lo_end, hi_end, sin_f, ext in L1. rewrite !sin_asin in L1 by lra.
    rewrite L1 by (simpl; lra). unfold pprob at 1. simpl. lra.
Qed.
