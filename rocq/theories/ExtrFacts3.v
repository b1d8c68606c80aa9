(** The whole of convmin and convmax. *)
From Coq Require Import Reals Lra Lia List Bool Sorted Permutation.
From Coquelicot Require Import Coquelicot.
From Verif Require Import Base Bisect Seg Piecewise PiecewiseSpec PiecewiseFacts PiecewiseFacts2 PiecewiseFacts3 PiecewiseFacts4 Integral SegInt SegIntSpec IntParts Wide Indep IndepSpec AtomFacts AtomFacts2 AtomFacts3 ConvolFacts IndepAsm AsmFacts IntegralFacts SegIntFacts CumintFacts SubstFacts ExtrFacts ExtrFacts2.
Import List ListNotations.
Open Scope R_scope.

(** atoms added by add_diracs to a function without atoms *)
Lemma loop_addAll eps l : forall p, 0 <= eps -> good eps (segs p) -> discrete l -> NoDup (dirac_pos l) ->
  (forall a, In a (dirac_pos l) -> clear_of (segs p) a) ->
  (forall a, In a (dirac_pos l) -> ~ In a (dirac_pos (segs p))) ->
  (forall a b, In a (dirac_pos l) -> In b (dirac_pos l) \/ In b (dirac_pos (segs p)) -> a = b \/ eps < Rabs (a - b)) ->
  add_dirac_loop eps p l = addAll eps p l.
Proof.
  induction l as [|s l IH]; intros p He G D N C NI S; auto.
  inversion D as [|? ? Ds D']; subst. destruct s as [| | | |a m|]; try discriminate. simpl in N. inversion N as [|? ? Na N']; subst.
  destruct (add_atom_good eps p a m He G) as (p1 & P1 & P2 & P3 & P4 & P5); [apply C; simpl; auto|intros b Hb; apply S; simpl; auto|].
  cbn [add_dirac_loop addAll]. unfold add_dirac1. cbn [sa].
  destruct (getDirac (segs p) a) as [s|] eqn:E.
  - exfalso. apply getDirac_Some in E. destruct E as (k & -> & H). apply (NI a); simpl; auto. apply dirac_pos_In; eauto.
  - rewrite P1. cbn [rbind]. apply IH; auto.
    + intros b Hb. eapply clear_of_segments; eauto. apply C; simpl; auto.
    + intros b Hb K. apply P5 in K. destruct K as [->|K]; auto. apply (NI b); simpl; auto.
    + intros x b Hx [Hb|Hb]; [apply S; simpl; auto|]. apply P5 in Hb. destruct Hb as [->|Hb]; apply S; simpl; auto.
Qed.
Lemma asm_loop eps F ub d : 0 <= eps -> good_ub ub -> discrete d -> NoDup (dirac_pos d) ->
  (forall p a b, In p (dirac_pos d) -> In (a, b) (pairs_up ub) -> ~ (Rbar_lt a p /\ Rbar_lt p b)) ->
  (forall a b, In a (dirac_pos d) -> In b (dirac_pos d) -> a = b \/ eps < Rabs (a - b)) ->
  exists q, rbind (assemble eps F ub) (fun fg => add_dirac_loop eps fg d) = Ok q /\ good eps (segs q) /\
    getSegments (segs q) = cells F ub /\ (forall z, pm (segs q) z = pm d z) /\
    (forall b, In b (dirac_pos (segs q)) <-> In b (dirac_pos d)).
Proof.
  intros He G D N U S. destruct (assemble_ok eps F ub G) as (fg & -> & E). cbn [rbind].
  destruct (cells_good eps F ub G) as (G1 & G2 & G3). destruct (cells_ok F ub G) as (_ & _ & _ & GS).
  assert (C : forall a, In a (dirac_pos d) -> clear_of (segs fg) a).
  { intros a Ha s Hs Ds (K1 & K2). rewrite E in Hs. unfold cells in Hs. apply in_map_iff in Hs. destruct Hs as ((u, v) & <- & Huv).
    destruct (cell_ends F ub (u, v) G Huv) as (L1 & L2 & _). rewrite L1 in K1. rewrite L2 in K2. apply (U a u v); auto. }
  rewrite loop_addAll; auto.
  - destruct (add_atoms_good eps d fg) as (q & Q1 & Q2 & Q3 & Q4 & Q5); auto.
    + rewrite E; auto.
    + intros a b Ha [Hb|Hb]; auto. rewrite E, G2 in Hb. destruct Hb.
    + exists q. splits; auto.
      * rewrite Q3, E. auto.
      * intros z. rewrite Q4, E, G3. ring.
      * intros b. rewrite Q5, E, G2. simpl. tauto.
  - rewrite E; auto.
  - intros a Ha. rewrite E, G2. auto.
  - intros a b Ha [Hb|Hb]; auto. rewrite E, G2 in Hb. destruct Hb.
Qed.

Lemma getBreaks_end l y : In y (getBreaks l) <-> is_end l y.
Proof. apply getBreaks_In. Qed.
Lemma outer_ub_In op bf bg y : In y (outer_ub op bf bg) <-> exists p q, In p bf /\ In q bg /\ y = op p q.
Proof.
  unfold outer_ub. rewrite np_unique_In, in_flat_map. split.
  - intros (p & Hp & H). apply in_map_iff in H. destruct H as (q & <- & H). eauto.
  - intros (p & q & Hp & Hq & ->). exists p. split; auto. apply in_map; auto.
Qed.
Lemma dirac_end l (a : R) : In a (dirac_pos l) -> is_end l a.
Proof. intros H. apply dirac_pos_In in H. destruct H as (m & H). exists (DiracSeg a m). split; auto. Qed.
Lemma split_sep eps pts l : StronglySorted Rbar_lt pts -> ordered l -> Forall wf_seg l -> dirac_sep eps l -> dirac_sep eps (split_all pts l).
Proof. intros S O W D. apply dirac_sep_pos. destruct (split_all_ordered pts l S O W) as (_ & _ & ->). apply dirac_sep_pos; auto. Qed.
Lemma split_In_dirac pts l a m : StronglySorted Rbar_lt pts -> Forall wf_seg l -> In (DiracSeg a m) (split_all pts l) <-> In (DiracSeg a m) l.
Proof.
  intros S W. assert (K : forall t, In (DiracSeg a m) t <-> In (DiracSeg a m) (getDiracs t)).
  { intros t. unfold getDiracs. rewrite filter_In. simpl. tauto. }
  rewrite K, split_diracs, <- K; auto. tauto.
Qed.

Section Extr.
Variable op : Rbar -> Rbar -> Rbar.
Variable at_point : list (segment * segment) -> R -> res R.
Variable tail spec : list segment -> R -> R.
Hypothesis op_sel : forall p q, op p q = p \/ op p q = q.
Hypothesis op_far : forall bf bg p, In p bf \/ In p bg -> In p (outer_ub op bf bg) \/
  (forall y, In y (outer_ub op bf bg) -> Rbar_lt y p) \/ (forall y, In y (outer_ub op bf bg) -> Rbar_lt p y).
Hypothesis value : forall f g z x, Forall wf_seg f -> Forall wf_seg g -> Forall integrable_piece f -> Forall integrable_piece g ->
  same_cell f z x -> same_cell g z x ->
  rbind (findSegList f g z (fun a b => Some (op a b))) (fun l => at_point l x) = Ok (dens f x * spec g x + dens g x * spec f x).
Hypothesis tail_ok : forall l (x : R), Forall wf_seg l -> Forall integrable_piece l -> no_const l -> tail l x = spec l x.
Hypothesis spec_split : forall pts l (x : R), StronglySorted Rbar_lt pts -> Forall wf_seg l -> Forall integrable_piece l -> spec (split_all pts l) x = spec l x.
Hypothesis outside : forall f g (x : R), Forall wf_seg f -> Forall wf_seg g -> Forall integrable_piece f -> Forall integrable_piece g ->
  (exists p, is_end f p) -> (exists p, is_end g p) ->
  (forall p q, is_end f p -> is_end g q -> Rbar_lt x (op p q)) \/ (forall p q, is_end f p -> is_end g q -> Rbar_lt (op p q) x) ->
  dens f x * spec g x + dens g x * spec f x = 0.

Lemma conv_extr_ok eps f g : 0 <= eps ->
  ordered f -> ordered g -> Forall wf_seg f -> Forall wf_seg g -> Forall integrable_piece f -> Forall integrable_piece g ->
  dirac_sep eps f -> dirac_sep eps g -> cross_sep eps f g ->
  (exists p : R, is_end f p) -> (exists p : R, is_end g p) ->
  exists q, conv_extr op at_point (probDiracsInExtr tail) eps f g = Ok q /\ ordered (segs q) /\ Forall wf_seg (segs q) /\
    (forall z, pm (segs q) z = pm f z * spec g z + spec f z * pm g z + pm f z * pm g z) /\
    (forall x : R, ~ is_end f x -> ~ is_end g x -> call_vec (segs q) x = dens f x * spec g x + dens g x * spec f x) /\
    (forall y, is_end (segs q) y -> is_end f y \/ is_end g y) /\
    dirac_sep eps (segs q) /\ (forall b, In b (dirac_pos (segs q)) <-> In b (dirac_pos f) \/ In b (dirac_pos g)) /\
    (forall s, In s (segs q) -> isDirac s = false ->
       (integrable (sf s) (sa s) (sb s) -> integrable_piece s) /\
       (forall p, is_end f p \/ is_end g p -> ~ (Rbar_lt (sa s) p /\ Rbar_lt p (sb s))) /\
       (exists p r, is_end f p /\ is_end g r /\ sa s = op p r) /\ (exists p r, is_end f p /\ is_end g r /\ sb s = op p r)).
Proof.
  intros He Of Og Wf Wg If Ig Sf Sg Sc (pf & Hpf) (pg & Hpg). unfold conv_extr.
  set (bf := getBreaks f). set (bg := getBreaks g).
  assert (SSf : StronglySorted Rbar_lt bf) by apply getBreaks_sorted.
  assert (SSg : StronglySorted Rbar_lt bg) by apply getBreaks_sorted.
  destruct (splitByPoints_ok eps f bg SSg Of Wf Sf) as (f' & -> & Ef & _). cbn [rbind].
  destruct (splitByPoints_ok eps g bf SSf Og Wg Sg) as (g' & -> & Eg & _). cbn [rbind]. rewrite Ef, Eg. clear f' g' Ef Eg.
  set (F := split_all bg f). set (G := split_all bf g).
  destruct (split_all_ordered bg f SSg Of Wf) as (OF & WF & PF). fold F in OF, WF, PF.
  destruct (split_all_ordered bf g SSf Og Wg) as (OG & WG & PG). fold G in OG, WG, PG.
  destruct (split_integrable bg f SSg Wf If) as (IF & CF). fold F in IF, CF.
  destruct (split_integrable bf g SSf Wg Ig) as (IG & CG). fold G in IG, CG.
  set (H := fun z x => val (rbind (findSegList F G z (fun a b => Some (op a b))) (fun l => at_point l x))).
  set (ub := outer_ub op bf bg).
  assert (GU : good_ub ub).
  { split; [apply np_unique_sorted|]. assert (K : In (op pf pg) ub) by (apply outer_ub_In; exists pf, pg; splits; auto; apply getBreaks_end; auto).
    destruct (op_sel pf pg) as [E|E]; rewrite E in K; eauto. }
  assert (FAR : forall p a b, is_end f p \/ is_end g p -> In (a, b) (pairs_up ub) -> ~ (Rbar_lt a p /\ Rbar_lt p b)).
  { intros p a b Hp Hab (A & B). apply pairs_up_In in Hab; [|apply GU]. destruct Hab as (Ia & Ib & _ & N).
    destruct (op_far bf bg p) as [K|[K|K]]; [unfold bf, bg; rewrite !getBreaks_end; auto| | |].
    - apply (N p K). auto.
    - specialize (K b Ib). apply (Rbar_lt_not_eq p p); auto. eapply Rbar_lt_trans; eauto.
    - specialize (K a Ia). apply (Rbar_lt_not_eq p p); auto. eapply Rbar_lt_trans; eauto. }
  destruct (extr_ok tail eps F G He) as (d & -> & Od & Dd & _ & K).
  { unfold atoms_nodup. rewrite PF. eapply sep_nodup; eauto. } { unfold atoms_nodup. rewrite PG. eapply sep_nodup; eauto. }
  destruct K as (PMd & POSd).
  { apply split_sep; auto. } { apply split_sep; auto. }
  { intros a m b k Ha Hb. apply split_In_dirac in Ha; auto. apply split_In_dirac in Hb; auto. eapply Sc; eauto. }
  rewrite PF, PG in POSd.
  assert (SEP : forall a b, In a (dirac_pos (segs d)) -> In b (dirac_pos (segs d)) -> a = b \/ eps < Rabs (a - b)).
  { pose proof (cross_sep_pos eps f g Sc) as C.
    intros a b Ha Hb. apply POSd in Ha. apply POSd in Hb. destruct Ha as [Ha|Ha], Hb as [Hb|Hb]; auto.
    - destruct (Req_EM_T a b); auto. right. apply (proj1 (dirac_sep_iff eps f He) Sf); auto.
    - destruct (C b a); auto. rewrite Rabs_minus_sym. auto.
    - destruct (Req_EM_T a b); auto. right. apply (proj1 (dirac_sep_iff eps g He) Sg); auto. }
  destruct (asm_loop eps H ub (segs d)) as (q & Q1 & (Q2 & Q2' & Q2'') & Q3 & Q4 & Q5); auto.
  { apply ordered_discrete_nodup; auto. }
  { intros p a b Hp. apply FAR. apply POSd in Hp. destruct Hp as [Hp|Hp]; [left|right]; apply dirac_end; auto. }
  exists q. cbn [rbind]. unfold add_diracs. rewrite (discrete_getDiracs _ Dd). splits; auto.
  - intros z. rewrite Q4, PMd, !tail_ok; auto. unfold F, G. rewrite !spec_split, !split_pm; auto.
  - intros x Nf Ng.
    assert (NU : ~ In (Finite x) ub).
    { intros K. apply outer_ub_In in K. destruct K as (p & r & Hp & Hr & E). apply getBreaks_end in Hp. apply getBreaks_end in Hr.
      destruct (op_sel p r) as [E'|E']; rewrite E' in E; subst; auto. }
    assert (DX : ~ In x (dirac_pos (segs q))).
    { intros K. apply Q5, POSd in K. destruct K as [K|K]; apply dirac_end in K; auto. }
    assert (ES : dens F x * spec G x + dens G x * spec F x = dens f x * spec g x + dens g x * spec f x).
    { unfold F, G. rewrite !spec_split, !split_dens; auto; intros K; apply getBreaks_end in K; auto. }
    destruct (asm_value H ub (segs q) x GU Q2 Q2' Q3 NU DX) as [(a & b & Hab & A & B & A' & B' & ->)|(K & ->)].
    + unfold H. rewrite value; auto.
      * assert (SC : forall p : R, is_end f p \/ is_end g p -> same_side p (probe a b) x).
        { intros p Hp. pose proof (FAR p a b Hp Hab) as N. unfold same_side. destruct (Rle_lt_dec p (probe a b)) as [L|L].
          - destruct (Rbar_lt_dec a p) as [L1|L1]; [exfalso; apply N; split; auto; apply (Rbar_le_lt_trans p (probe a b)); auto|].
            apply Rbar_not_lt in L1. left. split; [apply (Rbar_le_lt_trans p a (probe a b)); auto|apply (Rbar_le_lt_trans p a x); auto].
          - destruct (Rbar_lt_dec p b) as [L1|L1]; [exfalso; apply N; split; auto; apply (Rbar_lt_trans a (probe a b)); auto|].
            apply Rbar_not_lt in L1. right. split; auto. apply (Rbar_lt_le_trans x b p); auto. }
        intros p Hp. apply SC. apply split_ends in Hp; auto. destruct Hp as [Hp|Hp]; auto. apply getBreaks_end in Hp. auto.
      * intros p Hp. apply split_ends in Hp; auto. assert (Hp' : is_end f p \/ is_end g p) by (destruct Hp as [Hp|Hp]; auto; apply getBreaks_end in Hp; auto).
        pose proof (FAR p a b Hp' Hab) as N. unfold same_side. destruct (Rle_lt_dec p (probe a b)) as [L|L].
          -- destruct (Rbar_lt_dec a p) as [L1|L1]; [exfalso; apply N; split; auto; apply (Rbar_le_lt_trans p (probe a b)); auto|].
            apply Rbar_not_lt in L1. left. split; [apply (Rbar_le_lt_trans p a (probe a b)); auto|apply (Rbar_le_lt_trans p a x); auto].
          -- destruct (Rbar_lt_dec p b) as [L1|L1]; [exfalso; apply N; split; auto; apply (Rbar_lt_trans a (probe a b)); auto|].
            apply Rbar_not_lt in L1. right. split; auto. apply (Rbar_lt_le_trans x b p); auto.
    + symmetry. apply outside; eauto. destruct K as [K|K]; [left|right]; intros p r Hp Hr; apply K; apply outer_ub_In; exists p, r; splits; auto; apply getBreaks_end; auto.
  - intros y (s & Hs & E). destruct (isDirac s) eqn:D.
    + destruct s as [| | | |a m|]; try discriminate. assert (Ha : In a (dirac_pos (segs q))) by (apply dirac_pos_In; eauto).
      simpl in E. assert (y = Finite a) by tauto. subst y. apply Q5, POSd in Ha. destruct Ha as [Ha|Ha]; apply dirac_end in Ha; auto.
    + assert (Hc : In s (cells H ub)). { rewrite <- Q3. apply filter_In. split; auto. unfold isSegment. rewrite D. auto. }
      unfold cells in Hc. apply in_map_iff in Hc. destruct Hc as ((a, b) & <- & Hab).
      destruct (cell_ends H ub (a, b) GU Hab) as (K1 & K2 & _). rewrite K1, K2 in E.
      apply pairs_up_In in Hab; [|apply GU]. destruct Hab as (Ia & Ib & _ & _).
      assert (Hy : In y ub) by (simpl in E; destruct E as [-> | ->]; auto).
      apply outer_ub_In in Hy. destruct Hy as (p & r & Hp & Hr & ->). apply getBreaks_end in Hp. apply getBreaks_end in Hr.
      destruct (op_sel p r) as [-> | ->]; auto.
  - intros b. specialize (Q5 b). specialize (POSd b). tauto.
  - intros s Hs D.
    assert (Hc : In s (cells H ub)). { rewrite <- Q3. apply filter_In. split; auto. unfold isSegment. rewrite D. auto. }
    unfold cells in Hc. apply in_map_iff in Hc. destruct Hc as ((a, b) & <- & Hab).
    destruct (cell_ends H ub (a, b) GU Hab) as (K1 & K2 & _). split; [destruct a as [a| |], b as [b| |]; exact (fun h => h)|].
    rewrite K1, K2. cbn [fst snd]. splits.
    + intros p Hp. apply FAR; auto.
    + apply pairs_up_In in Hab; [|apply GU]. destruct Hab as (Ia & _). apply outer_ub_In in Ia. destruct Ia as (p & r & Hp & Hr & E). apply getBreaks_end in Hp. apply getBreaks_end in Hr. eauto.
    + apply pairs_up_In in Hab; [|apply GU]. destruct Hab as (_ & Ia & _). apply outer_ub_In in Ia. destruct Ia as (p & r & Hp & Hr & E). apply getBreaks_end in Hp. apply getBreaks_end in Hr. eauto.
Qed.
End Extr.

Lemma far_min bf bg p : In p bf \/ In p bg -> In p (outer_ub bmin bf bg) \/
  (forall y, In y (outer_ub bmin bf bg) -> Rbar_lt y p) \/ (forall y, In y (outer_ub bmin bf bg) -> Rbar_lt p y).
Proof.
  intros Hp. destruct (Classical_Prop.classic (In p (outer_ub bmin bf bg))) as [K|K]; auto. right. left.
  intros y Hy. apply outer_ub_In in Hy. destruct Hy as (u & v & Hu & Hv & ->). unfold bmin.
  assert (L : forall w, (In p bf -> In w bg -> Rbar_lt w p) /\ (In p bg -> In w bf -> Rbar_lt w p)).
  { intros w. split; intros H1 H2; apply Rbar_not_le; intros L; apply K; apply outer_ub_In; [exists p, w|exists w, p]; splits; auto; unfold bmin.
    - destruct (bltP w p) as [M|M]; auto. apply Rbar_le_antisym; auto. apply Rbar_lt_le; auto.
    - destruct (bltP p w) as [M|M]; auto. apply Rbar_not_lt in M. apply Rbar_le_antisym; auto. }
  destruct Hp as [Hp|Hp]; [pose proof (proj1 (L v) Hp Hv) as Z|pose proof (proj2 (L u) Hp Hu) as Z]; destruct (bltP v u) as [M|M]; auto.
  - apply Rbar_not_lt in M. eapply Rbar_le_lt_trans; eauto.
  - eapply Rbar_lt_trans; eauto.
Qed.
Lemma far_max bf bg p : In p bf \/ In p bg -> In p (outer_ub bmax bf bg) \/
  (forall y, In y (outer_ub bmax bf bg) -> Rbar_lt y p) \/ (forall y, In y (outer_ub bmax bf bg) -> Rbar_lt p y).
Proof.
  intros Hp. destruct (Classical_Prop.classic (In p (outer_ub bmax bf bg))) as [K|K]; auto. right. right.
  intros y Hy. apply outer_ub_In in Hy. destruct Hy as (u & v & Hu & Hv & ->). unfold bmax.
  assert (L : forall w, (In p bf -> In w bg -> Rbar_lt p w) /\ (In p bg -> In w bf -> Rbar_lt p w)).
  { intros w. split; intros H1 H2; apply Rbar_not_le; intros L; apply K; apply outer_ub_In; [exists p, w|exists w, p]; splits; auto; unfold bmax.
    - destruct (bltP p w) as [M|M]; auto. apply Rbar_le_antisym; auto. apply Rbar_lt_le; auto.
    - destruct (bltP w p) as [M|M]; auto. apply Rbar_not_lt in M. apply Rbar_le_antisym; auto. }
  destruct Hp as [Hp|Hp]; [pose proof (proj1 (L v) Hp Hv) as Z|pose proof (proj2 (L u) Hp Hu) as Z]; destruct (bltP u v) as [M|M]; auto.
  - apply Rbar_not_lt in M. eapply Rbar_lt_le_trans; eauto.
  - eapply Rbar_lt_trans; eauto.
Qed.

(** beyond all ends nothing is left *)
Lemma all_below l (x : R) : (forall p, is_end l p -> Rbar_lt p x) -> dens l x = 0 /\ (Forall wf_seg l -> prob_above l x = 0).
Proof.
  intros H. split.
  - apply dens_zero. intros s Hs D (A & B). assert (K := H (sb s) (ex_intro _ s (conj Hs (or_intror eq_refl)))).
    apply (Rbar_lt_not_le _ _ K). apply Rbar_lt_le; auto.
  - intros W. rewrite <- tmin_sum. apply sumR_zero. intros v Hv. apply in_map_iff in Hv. destruct Hv as (s & <- & Hs). unfold tmin.
    assert (K := H (sb s) (ex_intro _ s (conj Hs (or_intror eq_refl)))). assert (K' := H (sa s) (ex_intro _ s (conj Hs (or_introl eq_refl)))).
    rewrite Forall_forall in W. specialize (W s Hs).
    destruct (isDirac s) eqn:D.
    + destruct s as [| | | |a m|]; try discriminate. simpl in *. destruct (Rle_dec a x); lra.
    + replace (mass_upto s x) with (mass s); [ring|]. destruct s; try discriminate; simpl in *;
      repeat match goal with |- context [Rbar_le_dec ?a ?b] => destruct (Rbar_le_dec a b) end; simpl in *; auto; try lra; tauto.
Qed.
Lemma all_above l (x : R) : (forall p, is_end l p -> Rbar_lt x p) -> dens l x = 0 /\ prob_below l x = 0.
Proof.
  intros H. split.
  - apply dens_zero. intros s Hs D (A & B). assert (K := H (sa s) (ex_intro _ s (conj Hs (or_introl eq_refl)))).
    apply (Rbar_lt_not_le _ _ K). auto.
  - rewrite <- tmax_sum. apply sumR_zero. intros v Hv. apply in_map_iff in Hv. destruct Hv as (s & <- & Hs). unfold tmax.
    assert (K := H (sa s) (ex_intro _ s (conj Hs (or_introl eq_refl)))).
    destruct (isDirac s) eqn:D.
    + destruct s as [| | | |a m|]; try discriminate. simpl in *. destruct (Rle_dec a x), (Req_EM_T a x); lra.
    + destruct s; try discriminate; simpl in *;
      repeat match goal with |- context [Rbar_le_dec ?a ?b] => destruct (Rbar_le_dec a b) end; simpl in *; auto; try lra; tauto.
Qed.
Lemma two_sides (A B : Rbar -> Prop) (P : Rbar -> Prop) : (forall p q, A p -> B q -> P p \/ P q) -> (forall p, A p -> P p) \/ (forall q, B q -> P q).
Proof.
  intros H. destruct (Classical_Prop.classic (forall p, A p -> P p)) as [K|K]; auto. right. intros q Hq.
  apply Classical_Pred_Type.not_all_ex_not in K. destruct K as (p & K). apply Classical_Prop.imply_to_and in K. destruct K as (K1 & K2).
  destruct (H p q K1 Hq); tauto.
Qed.
Lemma outside_min f g (x : R) : Forall wf_seg f -> Forall wf_seg g ->
  (exists p, is_end f p) -> (exists p, is_end g p) ->
  (forall p q, is_end f p -> is_end g q -> Rbar_lt x (bmin p q)) \/ (forall p q, is_end f p -> is_end g q -> Rbar_lt (bmin p q) x) ->
  dens f x * prob_above g x + dens g x * prob_above f x = 0.
Proof.
  intros Wf Wg (p0 & Hp0) (q0 & Hq0) [H|H].
  - destruct (all_above f x) as (-> & _); [intros p Hp; specialize (H p q0 Hp Hq0)|destruct (all_above g x) as (-> & _); [intros p Hp; specialize (H p0 p Hp0 Hp)|ring]];
    unfold bmin in H; destruct (bltP q0 p); destruct (bltP p p0); auto; try (eapply Rbar_lt_trans; eauto; fail); try (eapply Rbar_lt_le_trans; [eauto|apply Rbar_not_lt; auto]; fail).
  - destruct (two_sides (is_end f) (is_end g) (fun y => Rbar_lt y x)) as [K|K].
    + intros p q Hp Hq. specialize (H p q Hp Hq). unfold bmin in H. destruct (bltP q p); auto.
    + destruct (all_below f x K) as (-> & ->); auto. ring.
    + destruct (all_below g x K) as (-> & ->); auto. ring.
Qed.
Lemma outside_max f g (x : R) :
  (exists p, is_end f p) -> (exists p, is_end g p) ->
  (forall p q, is_end f p -> is_end g q -> Rbar_lt x (bmax p q)) \/ (forall p q, is_end f p -> is_end g q -> Rbar_lt (bmax p q) x) ->
  dens f x * prob_below g x + dens g x * prob_below f x = 0.
Proof.
  intros (p0 & Hp0) (q0 & Hq0) [H|H].
  - destruct (two_sides (is_end f) (is_end g) (fun y => Rbar_lt x y)) as [K|K].
    + intros p q Hp Hq. specialize (H p q Hp Hq). unfold bmax in H. destruct (bltP p q); auto.
    + destruct (all_above f x K) as (-> & ->); auto. ring.
    + destruct (all_above g x K) as (-> & ->); auto. ring.
  - destruct (all_below f x) as (-> & _); [intros p Hp; specialize (H p q0 Hp Hq0)|destruct (all_below g x) as (-> & _); [intros p Hp; specialize (H p0 p Hp0 Hp)|ring]];
    unfold bmax in H; destruct (bltP p q0); destruct (bltP p0 p); auto; try (eapply Rbar_lt_trans; eauto; fail); try (eapply Rbar_le_lt_trans; [apply Rbar_not_lt; eauto|auto]; fail).
Qed.
