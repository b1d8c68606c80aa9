(** Main statements about sums of independent variables. *)
From Coq Require Import Reals Lra List Bool Sorted Permutation.
From Coquelicot Require Import Coquelicot.
From Verif Require Import Base Bisect Seg Piecewise PiecewiseSpec PiecewiseFacts PiecewiseFacts2 PiecewiseFacts3 PiecewiseFacts4 Integral SegInt SegIntSpec IntParts IntegralFacts IntPartsFacts SegIntFacts CumintFacts Wide Indep IndepSpec AtomFacts AtomFacts3 ConvolFacts IndepAsm AsmFacts ConvolFacts2.
Import List ListNotations.
Open Scope R_scope.

(** C24: one value of the convolution.  With the pieces selected for any point z that no sum of ends of
    pieces separates from x, the number computed at x is the whole density of X+Y: the convolution integral
    over the real line, plus the atoms of either variable with the density of the other. *)
Lemma conv_point_exact_main :
  forall peps f g z x, Forall wf_seg f -> Forall wf_seg g -> sums_integrable f g x -> same_sum_cell f g z x ->
  exists v, conv_at_point peps (findSegListAdd f g z) x = Ok v /\ sum_density f g x v.
Proof. intros. apply conv_value; auto. Qed.

(** C24: the whole of conv for functions without gaps: the result exists, its pieces are ordered, its atoms are
    those of the sum, and at every point that is not a sum of two ends its value is the density of X+Y.  The
    result has no break points other than sums of ends. *)
Lemma conv_exact_main :
  forall eps ueps peps f g, 0 <= eps -> 0 <= ueps ->
  Forall wf_seg f -> Forall wf_seg g -> chained f -> chained g ->
  (exists p : R, is_end f p) -> (exists q : R, is_end g q) ->
  sums_sep ueps f g -> values_sep eps Rplus f g ->
  exists q, conv eps ueps peps f g = Ok q /\ ordered (segs q) /\ Forall wf_seg (segs q) /\
    (forall z, pm (segs q) z = pm_op Rplus f g z) /\
    (forall x : R, ~ end_sum f g x -> sums_integrable f g x -> sum_density f g x (call_vec (segs q) x)) /\
    (forall x : R, ~ end_sum f g x -> ~ In (Finite x) (getBreaks (segs q))).
Proof. intros. apply conv_ok; auto. Qed.


Definition gapF : list segment := [Seg 0 1 (fun _ => 1/2); Seg 10 11 (fun _ => 1/2)].
Definition gapG : list segment := [Seg 0 1 (fun _ => 1)].
Lemma gap_dens : sum_density gapF gapG (21/2) (1/4).
Proof.
  exists (1/4). split; [|unfold atom_sum, gapF, gapG; simpl; lra].
  replace (1/4) with (Q (fun _ => 1/2) 10 (21/2)) by (rewrite Q_const; lra).
  apply has_int_window; simpl; auto.
  - apply integrable_const; lra.
  - intros t (A & B). simpl in A, B. unfold dens, gapF, gapG. cbn [map isDirac sa sb sf sumR].
    repeat match goal with |- context [Rbar_lt_dec ?a ?b] => destruct (Rbar_lt_dec a b) end; simpl in *; lra.
  - intros t A. unfold dens, gapF, gapG. cbn [map isDirac sa sb sf sumR].
    repeat match goal with |- context [Rbar_lt_dec ?a ?b] => destruct (Rbar_lt_dec a b) end; simpl in *; lra.
Qed.
Lemma gap_ub_In y : In y (conv_ub (1/10) gapF gapG) <-> y = 0 \/ y = 1 \/ y = 2 \/ y = 11 \/ y = 12.
Proof.
  assert (CS : forall z, In z (conv_sums gapF gapG) <-> z = 0 \/ z = 1 \/ z = 2 \/ z = 11 \/ z = 12).
  { intros z. unfold conv_sums, gapF, gapG. simpl. split.
    - intros H. decompose [or] H; try tauto; lra.
    - intros H. decompose [or] H; subst; lra. }
  destruct (unique_fin (1/10) (conv_sums gapF gapG)) as (_ & I); [lra| |].
  { intros u v Hu Hv. rewrite CS in Hu, Hv. decompose [or] Hu; decompose [or] Hv; subst; try (left; reflexivity);
    right; unfold Rabs; destruct (Rcase_abs _); lra. }
  unfold conv_ub. assert (HB : forall i, i = m_infty \/ i = p_infty -> has_both i gapF gapG = false).
  { intros i Hi. unfold has_both. apply orb_false_iff. split; [|apply andb_false_iff; right];
      (destruct (has_inf i _) eqn:E; auto; apply has_inf_In in E; simpl in E; destruct Hi; subst; decompose [or] E; discriminate || tauto). }
  rewrite !HB by auto. rewrite app_nil_l, app_nil_r, I. split.
  - intros (z & Hz & ->). apply CS in Hz. decompose [or] Hz; subst; auto.
  - intros H. decompose [or] H; subst; eexists; (split; [|reflexivity]); apply CS; tauto.
Qed.
Lemma gap_ub_good : good_ub (conv_ub (1/10) gapF gapG).
Proof.
  split.
  - unfold conv_ub. assert (HB : forall i, i = m_infty \/ i = p_infty -> has_both i gapF gapG = false).
    { intros i Hi. unfold has_both. apply orb_false_iff. split; [|apply andb_false_iff; right];
        (destruct (has_inf i _) eqn:E; auto; apply has_inf_In in E; simpl in E; destruct Hi; subst; decompose [or] E; discriminate || tauto). }
    rewrite !HB by auto. rewrite app_nil_l, app_nil_r.
    apply unique_fin; [lra|]. intros u v Hu Hv. unfold conv_sums, gapF, gapG in Hu, Hv. simpl in Hu, Hv.
    unfold Rabs; destruct (Rcase_abs _); decompose [or] Hu; decompose [or] Hv; try tauto; lra.
  - exists 0. apply gap_ub_In. auto.
Qed.

(** C24: with a gap between two pieces conv loses mass: getBreaksExtended does not report the left end of the
    piece after the gap, so a cell of the result can contain a sum of ends and its midpoint selects too few pairs
    of pieces.  X is 1/2 on [0,1] and on [10,11], Y is uniform on [0,1]; the density of X+Y at 10.5 is 1/4, the
    result is 0. *)
Lemma conv_gap_refuted_main :
  exists f g (x v : R) q, ordered f /\ Forall wf_seg f /\ Forall integrable_piece f /\ total_mass f = 1 /\
    ordered g /\ Forall wf_seg g /\ Forall integrable_piece g /\ total_mass g = 1 /\
    ~ end_sum f g x /\ conv (1/10) (1/10) (1/10) f g = Ok q /\ sum_density f g x v /\ call_vec (segs q) x <> v.
Proof.
  exists gapF, gapG, (21/2), (1/4).
  destruct (convdiracs_ok (1/10) Rplus gapF gapG) as (d & h & D1 & D2 & D3 & D4 & D5 & D6); [lra|].
  destruct D6 as (D7 & D8). { intros a m b k a' m' b' k' [H|[H|[]]]; discriminate. }
  assert (ND : forall b, ~ In b (dirac_pos (segs d))). { intros b H. apply D8 in H. destruct H as (a & m & b' & k & [H|[H|[]]] & _); discriminate. }
  set (F := fun z x => val (conv_at_point (1/10) (findSegListAdd gapF gapG z) x)).
  destruct (asm_atoms (1/10) F (conv_ub (1/10) gapF gapG) (segs d)) as (q & Q1 & (Q2 & Q2' & Q2'') & Q3 & Q4 & Q5);
    [lra|apply gap_ub_good|auto|intros a H; destruct (ND a H)|intros a b H; destruct (ND a H)|].
  exists q. splits.
  - repeat constructor; simpl; try lra. intros K; injection K; lra.
  - repeat constructor; simpl; lra.
  - constructor; [|constructor; [|constructor]]; apply integrable_const; lra.
  - unfold total_mass, gapF. cbn [map sumR]. rewrite !mass_Q by (simpl; auto; lra). cbn [sa sb]. unfold sumR. cbn [fold_right].
    repeat match goal with |- context [sf (Seg ?a ?b (fun _ => ?c))] => change (sf (Seg a b (fun _ => c))) with (fun _ : R => c) end.
    rewrite !Q_const. lra.
  - repeat constructor.
  - repeat constructor; simpl; lra.
  - constructor; [|constructor]; apply integrable_const; lra.
  - unfold total_mass, gapG. cbn [map sumR]. rewrite !mass_Q by (simpl; auto; lra). cbn [sa sb]. unfold sumR. cbn [fold_right].
    repeat match goal with |- context [sf (Seg ?a ?b (fun _ => ?c))] => change (sf (Seg a b (fun _ => c))) with (fun _ : R => c) end.
    rewrite !Q_const. lra.
  - intros (a & b & (s & Hs & Ha) & (t & Ht & Hb) & E). simpl in Hs, Ht.
    decompose [or] Hs; decompose [or] Ht; try tauto; subst s t; simpl in Ha, Hb; decompose [or] Ha; decompose [or] Hb;
    repeat match goal with H : Finite _ = Finite _ |- _ => injection H; clear H; intros; subst end; lra.
  - unfold conv. rewrite D1. cbn [rbind]. rewrite (discrete_getDiracs _ D3). exact Q1.
  - apply gap_dens.
  - destruct (asm_value F (conv_ub (1/10) gapF gapG) (segs q) (21/2) gap_ub_good Q2 Q2' Q3) as [(a & b & Hab & A & B & A' & B' & ->)|(H & ->)].
    + rewrite gap_ub_In. intros H. decompose [or] H;
      match goal with H : Finite _ = Finite _ |- _ => injection H; lra end.
    + rewrite Q5. apply ND.
    + apply pairs_up_In in Hab; [|apply gap_ub_good]. destruct Hab as (Ia & Ib & _ & N).
      assert (Ea : a = 2). 
      { apply gap_ub_In in Ia. decompose [or] Ia; subst; auto; exfalso; try (simpl in A; lra);
        (apply (N 2); [apply gap_ub_In; auto|split; [simpl; lra|apply (Rbar_lt_trans 2 (21/2) b); [simpl; lra|exact B]]]). }
      assert (Eb : b = 11).
      { apply gap_ub_In in Ib. decompose [or] Ib; subst; auto; exfalso; try (simpl in B; lra);
        apply (N 11); try (apply gap_ub_In; auto); split; simpl; lra. }
      subst a b. unfold F. simpl probe.
      replace (findSegListAdd gapF gapG ((2 + 11) / 2)) with (@nil (segment * segment)).
      * simpl. lra.
      * symmetry. unfold findSegListAdd, gapF, gapG. cbn [seg_pairs flat_map map app filter fst snd sa sb Rbar_minus Rbar_plus Rbar_opp Rbar_plus'].
        replace (blt ((2 + 11) / 2 + Ropp 1) 1) with false by (symmetry; apply blt_false; simpl; lra).
        replace (blt 0 ((2 + 11) / 2 + Ropp 10)) with false by (symmetry; apply blt_false; simpl; lra).
        rewrite andb_false_r. reflexivity.
    + lra.
Qed.
