(** The whole of conv: break points, cells and atoms. *)
From Coq Require Import Reals Lra Lia List Bool Sorted Permutation.
From Coquelicot Require Import Coquelicot.
From Verif Require Import Base Bisect Seg Piecewise PiecewiseSpec PiecewiseFacts PiecewiseFacts2 PiecewiseFacts3 PiecewiseFacts4 Integral SegInt SegIntSpec IntParts Wide WideMain Indep IndepSpec AtomFacts AtomFacts2 AtomFacts3 ConvolFacts IndepAsm AsmFacts.
Import List ListNotations.
Open Scope R_scope.

Lemma breaks_ext_In l a : chained l -> In a (breaks_ext l) <-> is_end l a.
Proof.
  intros C. assert (A : forall s t, chained (s :: t) -> forall u, In u (s :: t) -> sa u = sa s \/ In (sa u) (map sb (s :: t))).
  { intros s t. revert s. induction t as [|r t IH]; intros s Ch u Hu.
    - destruct Hu as [<-|[]]; auto.
    - destruct Ch as (E & Ch). destruct Hu as [<-|Hu]; auto. right.
      destruct (IH r Ch u Hu) as [-> | K]; [rewrite <- E; simpl; auto|simpl in *; tauto]. }
  destruct l as [|s l].
  - simpl. split; [tauto|]. intros (s & [] & _).
  - unfold breaks_ext. cbn [In]. split.
    + intros [<-|H]; [exists s; simpl; auto|]. apply in_map_iff in H. destruct H as (t & <- & H). exists t. auto.
    + intros (t & H & [-> | ->]).
      * destruct (A s l C t H) as [-> | K]; auto.
      * right. apply in_map; auto.
Qed.
Lemma fin_part_In l (r : R) : In r (fin_part l) <-> In (Finite r) l.
Proof.
  unfold fin_part. rewrite in_flat_map. split.
  - intros (a & H & E). destruct a; simpl in E; try tauto. destruct E as [<-|[]]. auto.
  - intros H. exists (Finite r). simpl. auto.
Qed.
Lemma has_inf_In i l : has_inf i l = true <-> In i l.
Proof.
  unfold has_inf. rewrite existsb_exists. split.
  - intros (a & H & E). apply beq_true in E. subst. auto.
  - intros H. exists i. split; auto. apply beq_true. auto.
Qed.
Lemma conv_sums_In f g r : chained f -> chained g -> In r (conv_sums f g) <-> end_sum f g r.
Proof.
  intros Cf Cg. unfold conv_sums, end_sum. rewrite in_flat_map. split.
  - intros (p & Hp & H). apply in_map_iff in H. destruct H as (q & <- & Hq). apply fin_part_In in Hp, Hq.
    apply breaks_ext_In in Hp, Hq; auto. eauto.
  - intros (p & q & Hp & Hq & ->). exists p. split; [apply fin_part_In, breaks_ext_In; auto|].
    apply in_map_iff. exists q. split; auto. apply fin_part_In, breaks_ext_In; auto.
Qed.

Lemma unique_fin e (l : list R) : 0 <= e -> (forall x y, In x l -> In y l -> x = y \/ e < Rabs (x - y)) ->
  let r := map (fun b : brk => Finite (fst b)) (unique_breakpoints e (map (fun a => (real a, (false, false, false, false))) (np_unique (map Finite l)))) in
  StronglySorted Rbar_lt r /\ forall y, In y r <-> exists x, In x l /\ y = Finite x.
Proof.
  intros He Sp r. set (u := map (fun a => (real a, (false, false, false, false))) (np_unique (map Finite l))).
  assert (IU : forall x k, In (x, k) u -> In x l).
  { intros x k H. apply in_map_iff in H. destruct H as (a & E & H). apply (proj1 (np_unique_In a (map Finite l))) in H. apply in_map_iff in H. destruct H as (y & <- & H).
    injection E as <- _. auto. }
  assert (UI : forall x, In x l -> exists k, In (x, k) u).
  { intros x H. eexists. apply in_map_iff. exists (Finite x). split; [reflexivity|]. apply np_unique_In. apply in_map; auto. }
  assert (S : StronglySorted (fun x y : brk => fst x <= fst y) u).
  { subst u. pose proof (np_unique_sorted (map Finite l)) as S.
    assert (Fi : forall y, In y (np_unique (map Finite l)) -> exists z, y = Finite z).
    { intros y H. apply (proj1 (np_unique_In y (map Finite l))) in H. apply in_map_iff in H. destruct H as (z & <- & _). eauto. }
    clear - S Fi. induction S as [|a m S IH F]; [constructor|]. cbn [map]. constructor; [apply IH; intros; apply Fi; simpl; auto|].
    apply Forall_forall. intros y Hy. apply in_map_iff in Hy. destruct Hy as (b & <- & Hb). rewrite Forall_forall in F. specialize (F b Hb).
    destruct (Fi a) as (a' & ->); [simpl; auto|]. destruct (Fi b) as (b' & ->); [simpl; auto|]. simpl in *. lra. }
  destruct (unique_breakpoints_exact_main e u He S) as (U1 & U2 & U3 & _). fold u in r. split.
  - unfold r. clear - U1 He. induction U1 as [|a m S IH F]; [constructor|]. cbn [map]. constructor; auto.
    apply Forall_forall. intros y Hy. apply in_map_iff in Hy. destruct Hy as (b & <- & Hb). rewrite Forall_forall in F. specialize (F b Hb). simpl. lra.
  - intros y. unfold r. rewrite in_map_iff. split.
    + intros (b & <- & H). apply U2 in H. destruct H as ((x, k) & H & E). simpl in E. rewrite <- E. eauto.
    + intros (x & H & ->). destruct (UI x H) as (k & Hk). apply U3 in Hk. destruct Hk as (b & Hb & E & _). simpl in E.
      exists b. split; auto. f_equal. destruct (U2 b Hb) as ((y & k') & Hy & Ey). simpl in Ey. apply IU in Hy.
      destruct (Sp x y H Hy) as [Q|Q]; [congruence|]. exfalso. rewrite <- Ey in E. unfold Rabs in Q. destruct (Rcase_abs (x - y)); lra.
Qed.

Lemma conv_ub_good ue f g : 0 <= ue -> chained f -> chained g -> sums_sep ue f g -> (exists p : R, is_end f p) -> (exists q : R, is_end g q) ->
  good_ub (conv_ub ue f g) /\ (forall r : R, In (Finite r) (conv_ub ue f g) <-> end_sum f g r) /\
  (forall i, i = m_infty \/ i = p_infty -> is_end f i \/ is_end g i -> In i (conv_ub ue f g)).
Proof.
  intros He Cf Cg Sp (p0 & Hp0) (q0 & Hq0).
  destruct (unique_fin ue (conv_sums f g) He) as (S & I).
  { intros x y Hx Hy. apply Sp; apply conv_sums_In; auto. }
  unfold conv_ub. set (m := map (fun b : brk => Finite (fst b)) _) in *.
  assert (IR : forall r : R, In (Finite r) m <-> end_sum f g r).
  { intros r. rewrite I. rewrite <- (conv_sums_In f g r Cf Cg). split; [intros (x & H & E); injection E as ->; auto|eauto]. }
  assert (NM : forall i, i = m_infty \/ i = p_infty -> ~ In i m).
  { intros i Hi H. apply I in H. destruct H as (x & _ & ->). destruct Hi; discriminate. }
  assert (HB : forall i, i = m_infty \/ i = p_infty -> is_end f i \/ is_end g i -> has_both i f g = true).
  { intros i _ H. unfold has_both. apply orb_true_iff. destruct H as [H|H].
    - left. apply has_inf_In, breaks_ext_In; auto.
    - right. apply andb_true_iff. split; [|apply has_inf_In, breaks_ext_In; auto].
      apply (breaks_ext_In f p0 Cf) in Hp0. apply fin_part_In in Hp0. destruct (fin_part (breaks_ext f)); [destruct Hp0|reflexivity]. }
  splits.
  - split.
    + assert (A : StronglySorted Rbar_lt (m ++ (if has_both p_infty f g then [p_infty] else []))).
      { destruct (has_both p_infty f g); [|rewrite app_nil_r; auto].
        clear - S NM. induction S as [|a l S IH F]; [repeat constructor|]. cbn [app]. constructor.
        - apply IH. intros i Hi H. apply (NM i Hi). simpl. auto.
        - apply Forall_app. split; auto. constructor; auto. destruct a; simpl; auto. apply (NM p_infty); simpl; auto. }
      destruct (has_both m_infty f g); auto. cbn [app]. constructor; auto. apply Forall_app. split.
      * apply Forall_forall. intros y Hy. destruct y; simpl; auto. apply (NM m_infty); auto.
      * destruct (has_both p_infty f g); repeat constructor.
    + exists (p0 + q0). rewrite !in_app_iff. right. left. apply IR. exists p0, q0. auto.
  - intros r. rewrite !in_app_iff. split; [|rewrite <- IR; auto]. rewrite <- IR. intros [H|[H|H]]; auto; exfalso.
    + destruct (has_both m_infty f g); [destruct H as [H|[]]; discriminate|destruct H].
    + destruct (has_both p_infty f g); [destruct H as [H|[]]; discriminate|destruct H].
  - intros i Hi H. pose proof (HB i Hi H) as E. rewrite !in_app_iff. destruct Hi as [-> | ->]; rewrite E; simpl; auto.
Qed.

Lemma end_lo l s : In s l -> is_end l (sa s).
Proof. intros H. exists s. auto. Qed.
Lemma end_hi l s : In s l -> is_end l (sb s).
Proof. intros H. exists s. auto. Qed.

Lemma conv_ok eps ue peps f g : 0 <= eps -> 0 <= ue ->
  Forall wf_seg f -> Forall wf_seg g -> chained f -> chained g ->
  (exists p : R, is_end f p) -> (exists q : R, is_end g q) ->
  sums_sep ue f g -> values_sep eps Rplus f g ->
  exists q, conv eps ue peps f g = Ok q /\ ordered (segs q) /\ Forall wf_seg (segs q) /\
    (forall z, pm (segs q) z = pm_op Rplus f g z) /\
    (forall x : R, ~ end_sum f g x -> sums_integrable f g x -> sum_density f g x (call_vec (segs q) x)) /\
    (forall x : R, ~ end_sum f g x -> ~ In (Finite x) (getBreaks (segs q))).
Proof.
  intros He Hu Wf Wg Cf Cg Ef Eg Ss Sv.
  destruct (conv_ub_good ue f g Hu Cf Cg Ss Ef Eg) as (GU & UF & UI).
  destruct (convdiracs_ok eps Rplus f g He) as (d & h & D1 & D2 & D3 & D4 & D5 & D6). destruct (D6 Sv) as (D7 & D8).
  set (F := fun z x => val (conv_at_point peps (findSegListAdd f g z) x)).
  destruct (asm_atoms eps F (conv_ub ue f g) (segs d) He GU D3) as (q & Q1 & (Q2 & Q2' & Q2'') & Q3 & Q4 & Q5).
  { intros a Ha. apply D8 in Ha. destruct Ha as (x & m & y & k & Hx & Hy & ->). apply UF. exists x, y.
    splits; auto; eexists; split; eauto. }
  { intros a b Ha Hb. apply D8 in Ha, Hb. destruct Ha as (x & m & y & k & Hx & Hy & ->). destruct Hb as (x' & m' & y' & k' & Hx' & Hy' & ->).
    eapply Sv; eauto. }
  assert (DP : forall x, In x (dirac_pos (segs q)) -> end_sum f g x).
  { intros a Ha. apply Q5, D8 in Ha. destruct Ha as (x & m & y & k & Hx & Hy & ->). exists x, y. splits; auto; eexists; split; eauto. }
  exists q. splits; auto.
  - unfold conv. rewrite D1. cbn [rbind]. rewrite (discrete_getDiracs _ D3). fold F. exact Q1.
  - intros z. rewrite Q4, D5. unfold pm_op. apply pair_sum_ext. intros. rewrite D7. auto.
  - intros x N HI.
    destruct (asm_value F (conv_ub ue f g) (segs q) x GU Q2 Q2' Q3) as [(a & b & Hab & A & B & A' & B' & ->)|(H & ->)].
    + rewrite UF; auto. + auto.
    + apply pairs_up_In in Hab; [|apply GU]. destruct Hab as (_ & _ & _ & Hab).
      destruct (conv_value peps f g (probe a b) x Wf Wg HI) as (v & V1 & V2).
      * intros p q' Hp Hq. assert (E : end_sum f g (p + q')) by (exists p, q'; auto).
        pose proof (proj2 (UF _) E) as HE. specialize (Hab _ HE).
        destruct (Rtotal_order (p + q') x) as [L|[L|L]].
        -- left. split; auto. apply Rnot_le_lt. intros L'. apply Hab. split; [eapply Rbar_lt_le_trans; [exact A'|exact L']|].
           eapply Rbar_lt_trans; [|exact B]. exact L.
        -- exfalso. apply N. rewrite <- L. auto.
        -- right. split; auto. apply Rnot_le_lt. intros L'. apply Hab. split; [eapply Rbar_lt_trans; [exact A|exact L]|].
           eapply Rbar_le_lt_trans; [|exact B']. exact L'.
      * unfold F. rewrite V1. exact V2.
    + destruct (conv_value peps f g x x Wf Wg HI) as (v & V1 & V2).
      { intros p q' Hp Hq. destruct (Rtotal_order (p + q') x) as [L|[L|L]]; [left; auto| |right; auto].
        exfalso. apply N. rewrite <- L. exists p, q'. auto. }
      replace (findSegListAdd f g x) with (@nil (segment * segment)) in V1.
      * unfold conv_at_point in V1. simpl in V1. injection V1 as <-. auto.
      * symmetry. unfold findSegListAdd. destruct (filter _ _) as [|(si, sj) l] eqn:Ef'; auto. exfalso.
        assert (Hin : In (si, sj) ((si, sj) :: l)) by (simpl; auto). rewrite <- Ef' in Hin. apply filter_In in Hin.
        destruct Hin as (Hin & R). apply seg_pairs_In in Hin. cbn [fst snd] in *. destruct Hin as (Hi & Hj).
        apply andb_true_iff in R. destruct R as (R1 & R2). apply blt_true in R1, R2.
        destruct H as [H|H].
        -- assert (K : In m_infty (conv_ub ue f g) -> False) by (intros K; apply H in K; exact K).
           destruct (sa si) as [ai| |] eqn:Ei; destruct (sa sj) as [aj| |] eqn:Ej; simpl in R1; try tauto;
             try (apply K; apply UI; auto; (left; rewrite <- Ei; apply end_lo; assumption) || (right; rewrite <- Ej; apply end_lo; assumption)).
           assert (E : In (Finite (ai + aj)) (conv_ub ue f g)).
           { apply UF. exists ai, aj. rewrite <- Ei, <- Ej. splits; auto using end_lo. }
           apply H in E. simpl in E. lra.
        -- assert (K : In p_infty (conv_ub ue f g) -> False) by (intros K; apply H in K; exact K).
           destruct (sb si) as [ai| |] eqn:Ei; destruct (sb sj) as [aj| |] eqn:Ej; simpl in R2; try tauto;
             try (apply K; apply UI; auto; (left; rewrite <- Ei; apply end_hi; assumption) || (right; rewrite <- Ej; apply end_hi; assumption)).
           assert (E : In (Finite (ai + aj)) (conv_ub ue f g)).
           { apply UF. exists ai, aj. rewrite <- Ei, <- Ej. splits; auto using end_hi. }
           apply H in E. simpl in E. lra.
  - intros x N H. apply getBreaks_In in H. destruct H as (s & Hs & H). destruct (isDirac s) eqn:Ds.
    + destruct s as [| | | |a m|]; try discriminate. simpl in H. apply N, DP, dirac_pos_In. exists m. destruct H as [H|H]; injection H as <-; auto.
    + assert (Hc : In s (cells F (conv_ub ue f g))). { rewrite <- Q3. apply filter_In. split; auto. unfold isSegment. rewrite Ds. auto. }
      unfold cells in Hc. apply in_map_iff in Hc. destruct Hc as ((a, b) & <- & Hab).
      destruct (cell_ends F _ (a, b) GU Hab) as (K1 & K2 & _). rewrite K1, K2 in H. simpl in H. apply N, UF.
      apply pairs_up_In in Hab; [|apply GU]. destruct H as [-> | ->]; tauto.
Qed.
