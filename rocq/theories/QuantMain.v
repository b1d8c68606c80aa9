(** Main statements about quantiles (C20). *)
From Coq Require Import Reals Lra Lia List Bool Arith Sorted Permutation.
From Coquelicot Require Import Coquelicot.
From Verif Require Import Base Bisect Seg Piecewise PiecewiseSpec PiecewiseFacts PiecewiseFacts2 Integral IntegralFacts SegInt SegIntSpec SegIntFacts CumintFacts CumintFacts2 Quant QuantSpec QuantFacts QuantFacts2.
Import List ListNotations.
Open Scope R_scope.

Lemma quant_of_cF l y x : Forall wf_seg l -> is_quantile (cF l) y x -> is_quantile (cdf_spec l) y x.
Proof. intros W (A & B). split; intros; rewrite cF_spec; auto. Qed.

Lemma quantile_get eps l vinf solve : density l -> Forall nonneg_piece l -> total_mass l = 1 -> exact_solver solve ->
  (forall q, cumint eps l = Ok q -> end_limits vinf (segs q)) ->
  forall y, 0 < y < 1 -> exists N, forall fuel, (N <= fuel)%nat ->
  exists x : R, quantile vinf solve fuel eps l y = Ok (QAt x) /\ is_quantile (cdf_spec l) y x.
Proof.
  intros D NN TM HS EL y Y. destruct (cumint_cdf eps l D) as (q & E & _).
  destruct (cq_inverse eps l q vinf D NN TM E (EL q E) solve y HS ltac:(lra)) as (N & HN). exists N. intros fuel Hf.
  destruct (HN fuel Hf) as (x & X1 & X2 & X3 & _). unfold quantile. rewrite E. cbn [rbind].
  destruct x as [| |[r| |]]; simpl in X2; try tauto; try (subst y; lra); try congruence.
  exists r. split; auto. apply quant_of_cF; auto. apply D.
Qed.

(** C20: for a density without gaps, non-negative and of total mass one, inverting its distribution function at
    0 < y < 1 gives a real number that is a y-quantile: F(t) <= y for all t below it and y <= F there; given a root
    finder without rounding, and for all sufficiently long searches on the infinite pieces. *)
Lemma quantile_brackets_main :
  forall eps l vinf solve y, density l -> Forall nonneg_piece l -> total_mass l = 1 -> exact_solver solve ->
  (forall q, cumint eps l = Ok q -> end_limits vinf (segs q)) -> 0 < y < 1 ->
  exists N, forall fuel, (N <= fuel)%nat ->
  exists x : R, quantile vinf solve fuel eps l y = Ok (QAt x) /\ is_quantile (cdf_spec l) y x.
Proof. intros. apply quantile_get; auto. Qed.

(** C20: at y = 0 and y = 1 the same holds when the support is bounded; otherwise the only other results are
    -inf for y = 0 and inf for y = 1. *)
Lemma quantile_ends_main :
  forall eps l vinf solve y, density l -> Forall nonneg_piece l -> total_mass l = 1 -> exact_solver solve ->
  (forall q, cumint eps l = Ok q -> end_limits vinf (segs q)) -> 0 <= y <= 1 ->
  exists N, forall fuel, (N <= fuel)%nat ->
  exists x, quantile vinf solve fuel eps l y = Ok (QAt x) /\
    match x with Finite x => is_quantile (cdf_spec l) y x | m_infty => y = 0 | p_infty => y = 1 end /\
    ((exists a : R, forall s l', l = s :: l' -> sa s = a) -> (exists b : R, forall s l', l = l' ++ [s] -> sb s = b) -> exists r : R, x = r).
Proof.
  intros eps l vinf solve y D NN TM HS EL Y. destruct (cumint_cdf eps l D) as (q & E & _).
  destruct (cq_inverse eps l q vinf D NN TM E (EL q E) solve y HS Y) as (N & HN). exists N. intros fuel Hf.
  destruct (HN fuel Hf) as (x & X1 & X2 & X3 & X4). unfold quantile. rewrite E. cbn [rbind].
  destruct x as [| |x]; [congruence|destruct X2|]. exists x. splits; auto.
  - destruct x; auto. apply quant_of_cF; auto. apply D.
  - intros A B. destruct x as [r| |]; [eauto| |].
    + destruct X4 as (r & Er); [|injection Er as ->; eauto]. simpl in X2. eapply cq_jump; eauto.
    + destruct X4 as (r & Er); [|injection Er as ->; eauto]. simpl in X2. eapply cq_jump; eauto.
Qed.

(** C20: outside [0,1] the result is nan, whatever the root finder does. *)
Lemma quantile_outside_main :
  forall eps l vinf solve fuel y, density l -> Forall nonneg_piece l -> total_mass l = 1 ->
  (forall q, cumint eps l = Ok q -> end_limits vinf (segs q)) -> y < 0 \/ 1 < y ->
  quantile vinf solve fuel eps l y = Ok QNan.
Proof.
  intros eps l vinf solve fuel y D NN TM EL Y. destruct (cumint_cdf eps l D) as (q & E & _).
  unfold quantile. rewrite E. cbn [rbind]. eapply cq_outside; eauto.
Qed.

Lemma beyond_cont vinf solve fuel y L : (forall v, In v (getSegVals vinf L) -> y < fst v /\ y < snd v) \/ (forall v, In v (getSegVals vinf L) -> fst v < y /\ snd v < y) ->
  inv_cont solve fuel L (getSegVals vinf L) y QNone = Ok QNone.
Proof.
  intros H. induction L as [|t L IH]; [reflexivity|]. cbn [getSegVals map inv_cont].
  match goal with |- context [if ?c then _ else _] => replace c with false end.
  - simpl. apply IH. destruct H as [H|H]; [left|right]; intros v Hv; apply H; right; auto.
  - symmetry. apply orb_false_iff. rewrite !andb_false_iff, !rle_false. destruct H as [H|H]; specialize (H _ (or_introl eq_refl)); lra.
Qed.
Lemma beyond_jump y vals br : (forall v, In v vals -> y < fst v /\ y < snd v) \/ (forall v, In v vals -> fst v < y /\ snd v < y) -> forall i,
  inv_jump i vals br y QNone = Ok QNone.
Proof.
  intros H. induction vals as [|v vals IH]; intros i; [reflexivity|]. destruct vals as [|w vals]; [reflexivity|]. cbn [inv_jump].
  match goal with |- context [if ?c then _ else _] => replace c with false end.
  - cbn [rbind]. apply IH. destruct H as [H|H]; [left|right]; intros u Hu; apply H; right; auto.
  - symmetry. rewrite !andb_false_iff, !rle_false. destruct H as [H|H]; pose proof (H v (or_introl eq_refl)); pose proof (H w (or_intror (or_introl eq_refl))); lra.
Qed.
Lemma min_list_gt l0 y : forall d, y < d -> (forall x, In x l0 -> y < x) -> y < min_list l0 d.
Proof. induction l0 as [|x l0 IH]; intros d H H2; unfold min_list in *; simpl; auto. apply IH; [apply Rmin_glb_lt; auto; apply H2; left; auto|]. intros z Hz; apply H2; right; auto. Qed.
Lemma max_list_lt l0 y : forall d, d < y -> (forall x, In x l0 -> x < y) -> max_list l0 d < y.
Proof. induction l0 as [|x l0 IH]; intros d H H2; unfold max_list in *; simpl; auto. apply IH; [apply Rmax_lub_lt; auto; apply H2; left; auto|]. intros z Hz; apply H2; right; auto. Qed.
(** C20: a level in [0,1] below all values at the ends of the pieces of any piecewise function gives -inf, one above all
    of them inf.  So a distribution function whose computed end values miss 0 or 1 by a little still has quantiles. *)
Lemma inverse_beyond_main :
  forall vinf solve fuel l y, l <> [] -> 0 <= y <= 1 ->
  ((forall v, In v (getSegVals vinf l) -> y < fst v /\ y < snd v) -> inverse_scalar vinf solve fuel l y = Ok (QAt m_infty)) /\
  ((forall v, In v (getSegVals vinf l) -> fst v < y /\ snd v < y) -> inverse_scalar vinf solve fuel l y = Ok (QAt p_infty)).
Proof.
  intros vinf solve fuel l y N Y. split; intros H; unfold inverse_scalar; rewrite beyond_cont by auto; cbn [rbind]; rewrite beyond_jump by auto; cbn [rbind];
  (destruct (getSegVals vinf l) as [|v vals] eqn:E; [destruct l; [congruence|discriminate]|]); unfold inv_fix; pose proof (H v (or_introl eq_refl)) as Hv.
  - assert (Hm : y < min_list (map (fun w => Rmin (fst w) (snd w)) vals) (Rmin (fst v) (snd v))).
    { apply min_list_gt; [apply Rmin_glb_lt; tauto|]. intros x Hx. apply in_map_iff in Hx. destruct Hx as (w & <- & Hw). specialize (H w (or_intror Hw)). apply Rmin_glb_lt; tauto. }
    assert (HM : y < max_list (map (fun w => Rmax (fst w) (snd w)) vals) (Rmax (fst v) (snd v))).
    { eapply Rlt_le_trans; [|apply (proj1 (max_list_ge _ _))]. eapply Rlt_le_trans; [|apply Rmax_l]. tauto. }
    cbv zeta. rewrite (proj2 (rle_true 0 y)), (proj2 (rlt_true y _)) by (auto; lra).
    match goal with |- context [(rle y 1 && ?c)%bool] => replace c with false by (symmetry; apply rlt_false; lra) end. rewrite andb_false_r. reflexivity.
  - assert (Hm : max_list (map (fun w => Rmax (fst w) (snd w)) vals) (Rmax (fst v) (snd v)) < y).
    { apply max_list_lt; [apply Rmax_lub_lt; tauto|]. intros x Hx. apply in_map_iff in Hx. destruct Hx as (w & <- & Hw). specialize (H w (or_intror Hw)). apply Rmax_lub_lt; tauto. }
    cbv zeta. rewrite (proj2 (rle_true y 1)), (proj2 (rlt_true _ y)) by (auto; lra). reflexivity.
Qed.

(** C20: without atoms the distribution function takes the value y at the result. *)
Lemma quantile_round_trip_main :
  forall eps l vinf solve y, density l -> Forall nonneg_piece l -> total_mass l = 1 -> exact_solver solve ->
  (forall q, cumint eps l = Ok q -> end_limits vinf (segs q)) -> 0 < y < 1 ->
  (forall s, In s l -> isDirac s = false) ->
  exists N, forall fuel, (N <= fuel)%nat ->
  exists x : R, quantile vinf solve fuel eps l y = Ok (QAt x) /\ cdf_spec l x = y.
Proof.
  intros eps l vinf solve y D NN TM HS EL Y NA. destruct (quantile_get eps l vinf solve D NN TM HS EL y Y) as (N & HN).
  exists N. intros fuel Hf. destruct (HN fuel Hf) as (x & X1 & X2 & X3). exists x. split; auto.
  destruct D as (_ & W & HI & _). rewrite (cF_spec l x W) in *. apply Rle_antisym; auto.
  assert (C : filterlim (cF l) (at_left x) (locally (cF l x))).
  { pose proof (cF_left_lim l W HI x) as H. replace (cF l x - sumR (map (fun s => atom_at s x) l)) with (cF l x) in H; auto.
    replace (sumR (map (fun s => atom_at s x) l)) with 0; [lra|]. symmetry. revert NA. clear. induction l as [|s l IH]; simpl; auto; intros NA.
    rewrite IH by (intros; apply NA; auto). specialize (NA s (or_introl eq_refl)). destruct s; try discriminate; simpl; lra. }
  apply (filterlim_le (F := at_left x) (cF l) (fun _ => y) (cF l x) y); [|exact C|apply filterlim_const].
  exists (mkposreal 1 Rlt_0_1). intros t _ Ht. rewrite <- (cF_spec l t W). auto.
Qed.

(** C20: quantiles are non-decreasing in y. *)
Lemma quantile_monotone_main :
  forall eps l vinf solve y1 y2, density l -> Forall nonneg_piece l -> total_mass l = 1 -> exact_solver solve ->
  (forall q, cumint eps l = Ok q -> end_limits vinf (segs q)) -> 0 < y1 -> y1 <= y2 -> y2 < 1 ->
  exists N, forall fuel, (N <= fuel)%nat -> exists x1 x2 : R,
  quantile vinf solve fuel eps l y1 = Ok (QAt x1) /\ quantile vinf solve fuel eps l y2 = Ok (QAt x2) /\ x1 <= x2.
Proof.
  intros eps l vinf solve y1 y2 D NN TM HS EL Y1 Y2 Y3.
  destruct (quantile_get eps l vinf solve D NN TM HS EL y1 ltac:(lra)) as (N1 & H1).
  destruct (quantile_get eps l vinf solve D NN TM HS EL y2 ltac:(lra)) as (N2 & H2).
  exists (max N1 N2). intros fuel Hf. destruct (H1 fuel ltac:(lia)) as (x1 & E1 & Q1). destruct (H2 fuel ltac:(lia)) as (x2 & E2 & Q2).
  exists x1, x2. splits; auto. destruct Y2 as [Y2|Y2].
  - apply Rnot_lt_le. intros Lt. pose proof (proj1 Q1 x2 Lt). pose proof (proj2 Q2). lra.
  - subst y2. rewrite E1 in E2. injection E2 as ->. lra.
Qed.

(** C20: interval(p) returns two numbers a <= b with probability at least p between them (both included):
    F(b) - F(t) >= p for every t < a. *)
Lemma interval_mass_main :
  forall eps l vinf solve p, density l -> Forall nonneg_piece l -> total_mass l = 1 -> exact_solver solve ->
  (forall q, cumint eps l = Ok q -> end_limits vinf (segs q)) -> 0 < p < 1 ->
  exists N, forall fuel, (N <= fuel)%nat -> exists a b : R,
  interval vinf solve fuel eps l p = Ok (QAt a, QAt b) /\ a <= b /\
  (forall t, t < a -> p <= cdf_spec l b - cdf_spec l t) /\
  (forall t, t < a -> cdf_spec l t <= (1 - p) / 2) /\ (forall t, t < b -> 1 - cdf_spec l t >= (1 - p) / 2).
Proof.
  intros eps l vinf solve p D NN TM HS EL P.
  destruct (quantile_get eps l vinf solve D NN TM HS EL ((1 - p) / 2) ltac:(lra)) as (N1 & H1).
  destruct (quantile_get eps l vinf solve D NN TM HS EL (1 - (1 - p) / 2) ltac:(lra)) as (N2 & H2).
  exists (max N1 N2). intros fuel Hf. destruct (H1 fuel ltac:(lia)) as (a & E1 & Q1 & Q1'). destruct (H2 fuel ltac:(lia)) as (b & E2 & Q2 & Q2').
  exists a, b. unfold interval. rewrite E1. cbn [rbind]. rewrite E2. cbn [rbind]. splits; auto.
  - apply Rnot_lt_le. intros Lt. specialize (Q1 b Lt). lra.
  - intros t Ht. specialize (Q1 t Ht). lra.
  - intros t Ht. specialize (Q2 t Ht). lra.
Qed.

(** C20: the median has at most half of the mass strictly left of it and at least half up to it. *)
Lemma median_half_main :
  forall eps l vinf solve, density l -> Forall nonneg_piece l -> total_mass l = 1 -> exact_solver solve ->
  (forall q, cumint eps l = Ok q -> end_limits vinf (segs q)) ->
  exists N, forall fuel, (N <= fuel)%nat -> exists m : R,
  median vinf solve fuel eps l = Ok (QAt m) /\ (forall t, t < m -> cdf_spec l t <= 1/2) /\ 1/2 <= cdf_spec l m.
Proof. intros. apply quantile_get; auto. lra. Qed.

(** C20: with a gap between two pieces the second loop picks a wrong break, and the result is not a quantile. *)
Lemma quantile_gap_refuted_main :
  exists eps l q y (x : R), Forall wf_seg l /\ Forall integrable_piece l /\ Forall nonneg_piece l /\ ordered l /\
    total_mass l = 1 /\ cumint eps l = Ok q /\ 0 < y < 1 /\
    (forall vinf solve fuel, end_limits vinf (segs q) -> quantile vinf solve fuel eps l y = Ok (QAt x)) /\
    ~ is_quantile (cdf_spec l) y x.
Proof.
  pose (s1 := ConstSeg 0 1 (1/4)). pose (s2 := ConstSeg 2 3 (1/4)). pose (d := DiracSeg 3 (1/2)).
  pose (l := [s1; s2; d]).
  assert (W : Forall wf_seg l) by (repeat apply Forall_cons; try apply Forall_nil; simpl; auto; lra).
  assert (I1 : integrable_piece s1) by (apply (integrable_const 0 1 (1/4)); lra).
  assert (I2 : integrable_piece s2) by (apply (integrable_const 2 3 (1/4)); lra).
  assert (HI : Forall integrable_piece l).
  { repeat apply Forall_cons; try apply Forall_nil; auto. simpl; auto. }
  assert (M1 : cmass s1 = 1/4).
  { simpl. change (sf s1) with (fun _ : R => 1/4). rewrite Q_const. lra. }
  assert (M2 : cmass s2 = 1/4).
  { simpl. change (sf s2) with (fun _ : R => 1/4). rewrite Q_const. lra. }
  assert (M3 : cmass d = 1/2) by reflexivity.
  pose (c1 := cumpiece s1 0). pose (c2 := cumpiece s2 (0 + cmass s1)). pose (c3 := cumpiece d (0 + cmass s1 + cmass s2)).
  assert (EC : cums l 0 = [c1; c2]) by reflexivity.
  assert (EM : cmasses l = 1) by (unfold cmasses, l; cbn [map]; rewrite M1, M2, M3; simpl; lra).
  pose (P := PInfSeg 3 (fun _ => 1)). pose (M := MInfSeg 0 (fun _ => 0)).
  assert (O : ordered [M; c1; c2; P]).
  { unfold M, c1, c2, P, ordered. repeat first [apply SSorted_cons | apply SSorted_nil | apply Forall_cons | apply Forall_nil];
    (split; simpl; auto; try lra; try discriminate; intros HH; injection HH; lra). }
  assert (WF : Forall wf_seg [M; c1; c2; P]).
  { repeat first [apply Forall_cons | apply Forall_nil]; simpl; auto; lra. }
  assert (O2 : ordered [c1; c2; P]) by (inversion O; auto).
  assert (W2 : Forall wf_seg [c1; c2; P]) by (inversion WF; auto).
  assert (CS : forall ll, Forall (fun s => isDirac s = false) ll -> dirac_sep 1 ll).
  { induction ll as [|s ll IH]; intros H; [constructor|]. inversion H; subst. apply FOP_cons; [|apply IH; auto].
    apply Forall_forall. intros t _. destruct s; auto; discriminate. }
  assert (D2 : dirac_sep 1 [c1; c2; P]) by (apply CS; repeat apply Forall_cons; try apply Forall_nil; auto).
  destruct (addAll_ordered 1 [c1; c2; P] O2 W2 D2) as (p & A1 & A2 & A3).
  destruct (addAll_compatible 1 [M] p) as (q & Q1 & Q2 & Q3 & Q4); rewrite ?A2; auto.
  { repeat apply Forall_cons; try apply Forall_nil; simpl; auto. }
  { apply FOP_cons; [apply Forall_nil|apply FOP_nil]. }
  { intros s t [<-|[]] Ht. split; [|exact I]. left. apply StronglySorted_inv in O. destruct O as [_ O].
    rewrite Forall_forall in O. auto. }
  rewrite A2 in Q2.
  assert (SQ : segs q = [M; c1; c2; P]).
  { symmetry. apply ordered_unique; auto. rewrite <- Q2. apply Permutation_cons_append. }
  assert (E : cumint 1 l = Ok q).
  { unfold cumint. rewrite cumint_loop_eq; auto. rewrite EC, EM.
    cbn [addAll rbind] in A1 |- *.
    destruct (addSegment 1 empty_pwf c1) as [p1|]; [|discriminate]. cbn [rbind] in *.
    destruct (addSegment 1 p1 c2) as [p2|]; [|discriminate]. cbn [rbind] in *.
    assert (EL : lastp l 0 None = Some c3) by reflexivity. rewrite EL.
    assert (ET : cumint_tail 1 (0 + 1) p2 c3 = addSegment 1 p2 P).
    { assert (V : sf c3 (real (sb c3)) = 1).
      { pose proof (cumint_next d (0 + cmass s1 + cmass s2)) as NX.
        cbn [isPInf d] in NX. unfold c3. rewrite NX; [rewrite M1, M2, M3; lra|simpl; auto|simpl; auto]. }
      unfold cumint_tail, P. rewrite V. rewrite Rmax_left by lra. replace (0 + 1) with 1 by ring. reflexivity. }
    rewrite ET. destruct (addSegment 1 p2 P) as [p3|]; [|discriminate]. cbn [rbind] in *. injection A1; intros ->.
    unfold cumint_lead. rewrite A2. cbn [isMInf c1 cumpiece seg_cumint sa real isPInf s1].
    cbn [addAll rbind] in Q1. unfold M in Q1.
    destruct (addSegment 1 p (MInfSeg 0 (fun _ => 0))); [|discriminate]. exact Q1. }
  assert (CP : forall s y0 (x : R), isDirac s = false -> wf_seg s -> integrable_piece s -> Rbar_le (sa s) x -> Rbar_le x (sb s) ->
     seg_call (cumpiece s y0) x = y0 + cpart s x).
  { intros s y0 x D Ws Is X1 X2. destruct (cumpiece_ends s y0) as (A & B & _). rewrite cont_call.
    - apply cumint_value; auto.
    - pose proof (cums_cont [s] y0 (Forall_cons _ Ws (Forall_nil _))) as H. simpl in H. rewrite D in H. inversion H; auto.
    - rewrite A; auto.
    - rewrite B; auto. }
  assert (V1 : seg_call c1 0 = 0 /\ seg_call c1 1 = 1/4).
  { unfold c1. split; rewrite CP; auto; try (simpl; lra).
    - rewrite cpart_right; [lra|simpl; lra|simpl; lra|intros; discriminate].
    - rewrite cpart_left; try (simpl; auto; lra). rewrite M1. lra. }
  assert (V2 : seg_call c2 2 = 1/4 /\ seg_call c2 3 = 1/2).
  { unfold c2. split; rewrite CP; auto; try (simpl; lra).
    - rewrite cpart_right; [rewrite M1; lra|simpl; lra|simpl; lra|intros; discriminate].
    - rewrite cpart_left; try (simpl; auto; lra). rewrite M1, M2. lra. }
  assert (VM : seg_call M 0 = 0) by (unfold seg_call; cbn [M sa sb sf]; destruct (_ && _)%bool; reflexivity).
  assert (VP : seg_call P 3 = 1) by (apply (cont_call P 3); [split; simpl; auto|simpl; lra|simpl; auto]).
  assert (BR : getBreaks [M; c1; c2; P] = [m_infty; Finite 0; Finite 1; Finite 2; Finite 3; p_infty]).
  { apply sorted_ext.
    - apply np_unique_sorted.
    - repeat first [apply SSorted_cons | apply SSorted_nil | apply Forall_cons | apply Forall_nil]; simpl; auto; lra.
    - intros x. unfold getBreaks. rewrite np_unique_In. cbn. intuition. }
  exists 1, l, q, (3/4), 2.
  splits; auto.
  - repeat apply Forall_cons; try apply Forall_nil; simpl; intros; lra.
  - repeat first [apply SSorted_cons | apply SSorted_nil | apply Forall_cons | apply Forall_nil];
    (split; simpl; try lra; intros HH; injection HH; lra).
  - rewrite cmasses_spec; auto.
  - lra.
  - lra.
  - intros vinf solve fuel EL. unfold quantile. rewrite E. cbn [rbind]. rewrite SQ in *.
    assert (v0 : vinf M = 0).
    { pose proof (proj1 (EL M (or_introl eq_refl)) eq_refl) as H.
      apply (filterlim_locally_unique (F := Rbar_locally m_infty) (fun _ : R => 0) _ _ H). apply filterlim_const. }
    assert (v1 : vinf P = 1).
    { pose proof (proj2 (EL P (or_intror (or_intror (or_intror (or_introl eq_refl))))) eq_refl) as H.
      apply (filterlim_locally_unique (F := Rbar_locally p_infty) (fun _ : R => 1) _ _ H). apply filterlim_const. }
    assert (VV : getSegVals vinf [M; c1; c2; P] = [(0, 0); (0, 1/4); (1/4, 1/2); (1, 1)]).
    { unfold getSegVals. cbn [map]. cbn [M P sa sb end_val]. fold M. fold P. rewrite v0, v1, VM, VP.
      change (sa c1) with (Finite 0). change (sb c1) with (Finite 1). change (sa c2) with (Finite 2). change (sb c2) with (Finite 3). cbn [end_val].
      rewrite (proj1 V1), (proj2 V1), (proj1 V2), (proj2 V2). reflexivity. }
    unfold inverse_scalar. rewrite VV, BR.
    assert (T : forall a b, a <= 3/4 -> rle a (3/4) = true /\ (3/4 <= b -> rle (3/4) b = true) /\ (b < 3/4 -> rle (3/4) b = false)).
    { intros a b H. splits; [apply rle_true; auto|intros; apply rle_true; auto|intros; apply rle_false; auto]. }
    assert (F1 : rle 1 (3/4) = false) by (apply rle_false; lra).
    assert (F2 : rle (3/4) 0 = false) by (apply rle_false; lra).
    assert (F3 : rle (3/4) (1/4) = false) by (apply rle_false; lra).
    assert (F4 : rle (3/4) (1/2) = false) by (apply rle_false; lra).
    assert (F5 : rle (1/2) (3/4) = true) by (apply rle_true; lra).
    assert (F6 : rle (3/4) 1 = true) by (apply rle_true; lra).
    cbn [inv_cont fst snd]. rewrite F1, F2, F3, F4, F5, F6, !andb_false_r. cbn [andb orb rbind].
    cbn [inv_jump fst snd]. rewrite F2, F3, F5, F6, !andb_false_r. cbn [andb rbind nth_error inv_fix]. reflexivity.
  - intros (_ & B). rewrite cF_spec in B; auto. unfold cF, l in B. cbn [map sumR fold_right] in B.
    rewrite (cpart_left s1) in B; [|simpl; lra|simpl; lra]. rewrite (cpart_right s2) in B; [|simpl; lra|simpl; lra|intros; discriminate].
    rewrite (cpart_right d) in B; [rewrite M1 in B; lra|simpl; auto|simpl; lra|intros _; simpl; lra].
Qed.
