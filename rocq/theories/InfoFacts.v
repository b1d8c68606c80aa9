(** Proofs about the information measures: integrals of pointwise combinations. *)
From Coq Require Import Reals Lra Lia List Bool Sorted Permutation.
From Coquelicot Require Import Coquelicot.
From Verif Require Import Base Bisect Seg Piecewise PiecewiseSpec PiecewiseFacts PiecewiseFacts2 PiecewiseFacts3 PiecewiseFacts4 Integral IntegralFacts SegInt SegIntSpec SegIntFacts SegIntMain CumintFacts IndepSpec AtomFacts AtomFacts2 AtomFacts3 ExtrFacts2 TransformSpec TransformFacts TransformFacts2 OperationFacts CondFacts2 Info InfoSpec.
Import List ListNotations.
Open Scope R_scope.

Lemma is_end_breaks l y : is_end l y <-> In y (getBreaks l).
Proof. rewrite getBreaks_In. reflexivity. Qed.

(** ** the whole integral of a piece, integrable or not *)
Lemma seg_integrate_all s : wf_seg s -> seg_integrate s m_infty p_infty = mass s.
Proof.
  intros W. destruct (isDirac s) eqn:D.
  - destruct s; try discriminate. unfold seg_integrate, mass.
    rewrite (proj2 (blt_true m_infty a)), (proj2 (blt_true a p_infty)) by (simpl; auto). reflexivity.
  - assert (W' : Rbar_lt (sa s) (sb s)) by (destruct s; auto; discriminate).
    rewrite mass_Q; auto. destruct s as [a b f|a b c|b f|a f|a m|a b f l]; try discriminate; unfold seg_integrate, clip_lo, clip_hi; cbn [sa sb].
    + rewrite (proj2 (blt_true m_infty a)), (proj2 (blt_true b p_infty)) by (simpl; auto). cbn [sa sb] in W'.
      apply Q_ext; auto. intros x (X1 & X2). apply seg_call_in; [reflexivity|split; auto].
    + rewrite (proj2 (blt_true m_infty a)), (proj2 (blt_true b p_infty)) by (simpl; auto).
      change (sf (ConstSeg a b c)) with (fun _ : R => c). rewrite Q_const. reflexivity.
    + rewrite (proj2 (blt_true b p_infty)) by (simpl; auto). rewrite (proj2 (beq_true m_infty m_infty)); auto.
    + rewrite (proj2 (blt_true m_infty a)) by (simpl; auto). rewrite (proj2 (beq_true p_infty p_infty)); auto.
    + rewrite (proj2 (blt_true m_infty a)), (proj2 (blt_true b p_infty)) by (simpl; auto). cbn [sa sb] in W'.
      assert (NE : beq a b = false). { destruct (beqP a b) as [E|]; auto. injection E as ->. destruct (Rbar_lt_irrefl _ W'). }
      rewrite NE. rewrite !(proj2 (beq_true _ _)) by reflexivity.
      destruct l; cbn [andb negb]; apply Q_ext; auto; intros x (X1 & X2); apply seg_call_in; try reflexivity; split; auto.
Qed.

Lemma integrate_mass l : Forall wf_seg l -> pw_integrate l m_infty p_infty = sumR (map mass l).
Proof.
  intros W. rewrite pw_integrate_sum. f_equal. apply map_ext_in. intros s Hs. apply seg_integrate_all. rewrite Forall_forall in W; auto.
Qed.

(** ** the cut integral *)
Lemma cut_int_pairs F P : StronglySorted Rbar_lt P -> cut_int F P = sumR (map (fun ab => Q F (fst ab) (snd ab)) (pairs_up P)).
Proof.
  induction P as [|a P IH]; intros S; [reflexivity|]. destruct P as [|b P]; [reflexivity|].
  change (cut_int F (a :: b :: P)) with (RInt_gen F (at_r a) (at_l b) + cut_int F (b :: P)).
  change (pairs_up (a :: b :: P)) with ((a, b) :: pairs_up (b :: P)). cbn [map]. rewrite sumR_cons. cbn [fst snd].
  apply StronglySorted_inv in S. destruct S as (S & FF). rewrite IH by auto. inversion FF; subst. rewrite Q_RInt_gen; auto.
Qed.

Lemma cut_integrable_pairs F P : cut_integrable F P <-> (forall a b, In (a, b) (pairs_up P) -> integrable F a b).
Proof.
  induction P as [|a P IH]; [simpl; tauto|]. destruct P as [|b P]; [simpl; tauto|].
  change (pairs_up (a :: b :: P)) with ((a, b) :: pairs_up (b :: P)).
  change (cut_integrable F (a :: b :: P)) with (integrable F a b /\ cut_integrable F (b :: P)). rewrite IH. split.
  - intros (H1 & H2) c d [E|H]; [injection E as <- <-; auto|auto].
  - intros H; split; [apply H; left; auto|intros; apply H; right; auto].
Qed.

Lemma cut_int_ext F G P : StronglySorted Rbar_lt P -> (forall x : R, ~ In (Finite x) P -> F x = G x) -> cut_int F P = cut_int G P.
Proof.
  intros S E. rewrite !cut_int_pairs by auto. f_equal. apply map_ext_in. intros (a & b) H. cbn [fst snd].
  apply pairs_up_In in H; auto. destruct H as (_ & _ & L & N). apply Q_ext; auto. intros x (X1 & X2). apply E. intros K. apply (N _ K). auto.
Qed.

Lemma cut_integrable_ext F G P : StronglySorted Rbar_lt P -> (forall x : R, ~ In (Finite x) P -> F x = G x) -> cut_integrable F P -> cut_integrable G P.
Proof.
  intros S E. rewrite !cut_integrable_pairs. intros H a b K. pose proof (H a b K) as I1. apply pairs_up_In in K; auto. destruct K as (_ & _ & L & N).
  eapply integrable_ext; [|exact I1]. intros x (X1 & X2). apply E. intros K. apply (N _ K). auto.
Qed.

(** ** a function whose pieces sit between consecutive points *)
Lemma cont_cut P l : StronglySorted Rbar_lt P -> ordered l -> Forall wf_seg l ->
  (forall s, In s l -> isDirac s = false -> In (sa s, sb s) (pairs_up P)) ->
  sumR (map mass (getSegments l)) = cut_int (dens l) P.
Proof.
  intros SP O W H. rewrite cut_int_pairs by auto.
  rewrite (sum_lookup (fun s => (sa s, sb s)) (fun ab => findSegmentByEnds l (fst ab) (snd ab)) mass (getSegments l) (pairs_up P)).
  - f_equal. apply map_ext_in. intros (a & b) Hab. cbn [fst snd]. apply pairs_up_In in Hab; auto. destruct Hab as (Pa & Pb & L & N).
    destruct (findSegmentByEnds l a b) as [s|] eqn:E; cbn [ov].
    + pose proof (findSegmentByEnds_Some _ _ _ _ E) as (E1 & E2 & E3).
      assert (D : isDirac s = false). { destruct (isDirac s) eqn:D; auto. exfalso. destruct s; try discriminate. simpl in E2, E3. subst. exact (Rbar_lt_irrefl _ L). }
      rewrite mass_Q; auto; [|rewrite Forall_forall in W; auto]. rewrite E2, E3. apply Q_ext; auto. intros x (X1 & X2). symmetry. apply dens_at; auto; congruence.
    + symmetry. apply Q_zero; auto.
      intros x (X1 & X2). apply dens_zero. intros s Hs D (C1 & C2).
        pose proof (H s Hs D) as K. apply pairs_up_In in K; auto. destruct K as (Ka & Kb & L' & N').
        assert (sa s = a /\ sb s = b) as (Ea & Eb).
        { assert (X0 : Rbar_lt (sa s) b) by (eapply Rbar_le_lt_trans; eauto).
          assert (X0' : Rbar_lt a (sb s)) by (eapply Rbar_lt_trans; eauto).
          split; apply Rbar_le_antisym.
          - destruct (Rbar_le_lt_dec (sa s) a) as [K|K]; auto. exfalso. apply (N _ Ka). auto.
          - destruct (Rbar_le_lt_dec a (sa s)) as [K|K]; auto. exfalso. apply (N' _ Pa). auto.
          - destruct (Rbar_le_lt_dec (sb s) b) as [K|K]; auto. exfalso. apply (N' _ Pb). auto.
          - destruct (Rbar_le_lt_dec b (sb s)) as [K|K]; auto. exfalso. apply (N _ Kb). auto. }
        apply (findSegmentByEnds_None _ _ _ s E Hs); auto.
  - apply ordered_ends_nodup; [apply getSegments_ordered; auto|].
    apply Forall_forall. intros s Hs. apply getSegments_cont in Hs. split; [tauto|]. rewrite Forall_forall in W. apply W; tauto.
  - apply pairs_nodup; auto.
  - intros ab Hab. apply in_map_iff in Hab. destruct Hab as (s & <- & Hs). apply getSegments_cont in Hs. apply H; tauto.
  - intros (a & b) s Hab. cbn [fst snd]. apply pairs_up_In in Hab; auto. destruct Hab as (_ & _ & L & _). split.
    + intros E. apply findSegmentByEnds_Some in E. destruct E as (E1 & E2 & E3). split; [|congruence].
      apply getSegments_cont. split; auto. destruct (isDirac s) eqn:D; auto. exfalso. destruct s; try discriminate.
      simpl in E2, E3. subst. exact (Rbar_lt_irrefl _ L).
    + intros (Hs & E). injection E as <- <-. apply getSegments_cont in Hs. apply findSegmentByEnds_hit; tauto.
Qed.

(** ** atoms *)
Lemma pm_mass_at l x : atoms_nodup l -> pm l x = ov (fun m => m) (mass_at l x).
Proof.
  intros N. destruct (mass_at l x) as [m|] eqn:E.
  - apply mass_at_iff in E; auto. apply pm_In; auto.
  - apply mass_at_none in E; auto. apply pm_notin; auto.
Qed.

Lemma atoms_sum l A : atoms_nodup l -> NoDup A -> incl (dirac_pos l) A ->
  sumR (map mass (getDiracs l)) = sumR (map (pm l) A).
Proof.
  intros N NA IA.
  rewrite (sum_lookup (fun s => real (sa s)) (fun x => getDirac l x) mass (getDiracs l) A); auto.
  - f_equal. apply map_ext. intros x. rewrite pm_mass_at; auto. unfold mass_at. destruct (getDirac l x) as [s|] eqn:E; simpl; auto.
    apply getDirac_Some in E. destruct E as (m & -> & _). reflexivity.
  - replace (map (fun s => real (sa s)) (getDiracs l)) with (dirac_pos l); auto.
    clear. unfold getDiracs, dirac_pos. induction l as [|s l IH]; simpl; auto. rewrite IH. destruct s; auto.
  - intros x Hx. apply IA. apply in_map_iff in Hx. destruct Hx as (s & <- & Hs).
    apply filter_In in Hs. destruct Hs as (Hs & D). destruct s; try discriminate. apply dirac_pos_In. eauto.
  - intros x s _. split.
    + intros E. apply getDirac_Some in E. destruct E as (m & -> & H). split; auto. apply filter_In; auto.
    + intros (Hs & E). apply filter_In in Hs. destruct Hs as (Hs & D). destruct s; try discriminate. simpl in E. subst.
      apply getDirac_hit; auto.
Qed.

Lemma mass_partition l : sumR (map mass l) = sumR (map mass (getSegments l)) + sumR (map mass (getDiracs l)).
Proof.
  unfold getSegments, getDiracs, isSegment. induction l as [|s l IH]; simpl; [lra|].
  rewrite IH. destruct (isDirac s); simpl; lra.
Qed.

Lemma total_cut eps P A l : 0 <= eps -> good eps l -> StronglySorted Rbar_lt P -> NoDup A -> incl (dirac_pos l) A ->
  (forall s, In s l -> isDirac s = false -> In (sa s, sb s) (pairs_up P)) ->
  pw_integrate l m_infty p_infty = cut_int (dens l) P + sumR (map (pm l) A).
Proof.
  intros He (O & W & D) SP NA IA H. rewrite integrate_mass, mass_partition, (cont_cut P), (atoms_sum l A); auto.
  eapply sep_nodup; eauto.
Qed.

(** ** the pointwise combination of two functions *)
Lemma dens_getSegments l x : dens (getSegments l) x = dens l x.
Proof.
  unfold dens, getSegments, isSegment. induction l as [|s l IH]; cbn [filter map]; auto. rewrite sumR_cons, <- IH.
  destruct (isDirac s) eqn:D; cbn [negb map]; rewrite ?sumR_cons, ?D; lra.
Qed.

Lemma op_breaks eps op f g h : 0 <= eps -> good eps f -> good eps g -> getSegments (segs h) = op_pieces op f g -> good eps (segs h) ->
  (forall x, mass_at (segs h) x = comb op (mass_at f x) (mass_at g x)) ->
  forall y, In y (getBreaks (segs h)) <-> In y (getBreaks f) \/ In y (getBreaks g).
Proof.
  intros He (Of & Wf & Df) (Og & Wg & Dg) S (Oh & Wh & Dh) M y.
  pose proof (sep_nodup eps _ He Df) as Nf. pose proof (sep_nodup eps _ He Dg) as Ng. pose proof (sep_nodup eps _ He Dh) as Nh.
  pose proof (B_sorted f g) as SB. set (B := np_unique (getBreaks f ++ getBreaks g)) in *.
  assert (HB : forall y, In y B <-> In y (getBreaks f) \/ In y (getBreaks g)) by (intros; apply B_In).
  split.
  - intros Hy. apply getBreaks_In in Hy. destruct Hy as (s & Hs & Hy). destruct (isDirac s) eqn:D.
    + destruct s as [| | | |a m|]; try discriminate. cbn [sa sb] in Hy. assert (y = Finite a) as -> by tauto.
      apply (mass_at_iff (segs h)) in Hs; auto. rewrite M in Hs.
      destruct (mass_at f a) as [mf|] eqn:E1; [left; apply dirac_is_break, mass_at_pos; eauto|].
      destruct (mass_at g a) as [mg|] eqn:E2; [right; apply dirac_is_break, mass_at_pos; eauto|discriminate].
    + assert (Hs' : In s (op_pieces op f g)) by (rewrite <- S; apply getSegments_cont; auto).
      apply (hs_In f g Wf Wg op) in Hs'. destruct Hs' as (a & b & Hab & Hs2). fold B in Hab. apply pairs_up_In in Hab; auto. destruct Hab as (Ha & Hb & L & _).
      destruct (piece_of_spec f g Of Og Wf Wg op a b s L Hs2) as (E1 & E2 & _). apply HB. rewrite E1, E2 in Hy. destruct Hy as [-> | ->]; auto.
  - intros Hy.
    assert (PC : forall t l, In t (split_all B l) -> l = f \/ l = g -> isDirac t = false -> y = sa t \/ y = sb t -> In y (getBreaks (segs h))).
    { intros t l Ht Hl Dt Et.
      assert (Pt : In (sa t, sb t) (pairs_up B)).
      { destruct Hl as [-> | ->].
        - apply (split_piece_pair f g f 0 t); auto. intros z Hz. apply HB; auto.
        - apply (split_piece_pair f g g 0 t); auto. intros z Hz. apply HB; auto. }
      assert (L : Rbar_lt (sa t) (sb t)) by (apply pairs_up_In in Pt; tauto).
      assert (NE : exists s, In s (piece_of f g op (sa t, sb t))).
      { unfold piece_of. cbn [fst snd]. fold B.
        destruct (fs_ok f g Of Wf) as (Ofs & Wfs). destruct (gs_ok f g Og Wg) as (Ogs & Wgs). fold B in Ofs, Wfs, Ogs, Wgs.
        destruct Hl as [-> | ->].
        - rewrite (findSegmentByEnds_hit (split_all B f) t); auto. destruct (findSegmentByEnds (split_all B g) (sa t) (sb t)); eexists; left; reflexivity.
        - rewrite (findSegmentByEnds_hit (split_all B g) t); auto. destruct (findSegmentByEnds (split_all B f) (sa t) (sb t)); eexists; left; reflexivity. }
      destruct NE as (s & Hs). destruct (piece_of_spec f g Of Og Wf Wg op (sa t) (sb t) s L Hs) as (E1 & E2 & (D & _) & _).
      apply getBreaks_In. exists s. split; [|rewrite E1, E2; auto].
      assert (K : In s (getSegments (segs h))) by (rewrite S; apply (hs_In f g Wf Wg op); exists (sa t), (sb t); auto).
      apply getSegments_cont in K. tauto. }
    assert (DC : forall a m l, In (DiracSeg a m) l -> l = f \/ l = g -> y = Finite a -> In y (getBreaks (segs h))).
    { intros a m l Hl E ->. apply dirac_is_break, mass_at_pos; auto. rewrite M. destruct E as [-> | ->].
      - apply mass_at_iff in Hl; auto. rewrite Hl. destruct (mass_at g a); simpl; eauto.
      - apply mass_at_iff in Hl; auto. rewrite Hl. destruct (mass_at f a); simpl; eauto. }
    assert (AL : forall l, l = f \/ l = g -> Forall wf_seg l -> In y (getBreaks l) -> In y (getBreaks (segs h))).
    { intros l E Wl K. assert (K' : In y (getBreaks (split_all B l))) by (apply split_breaks_In; auto).
      apply getBreaks_In in K'. destruct K' as (t & Ht & Et). destruct (isDirac t) eqn:Dt; [|apply (PC t l); auto].
      destruct t as [| | | |a m|]; try discriminate. cbn [sa sb] in Et.
      assert (In (DiracSeg a m) l). { assert (In (DiracSeg a m) (getDiracs (split_all B l))) by (apply filter_In; auto). rewrite split_diracs in H; auto. apply filter_In in H. tauto. }
      apply (DC a m l); auto. tauto. }
    destruct Hy; [apply (AL f)|apply (AL g)]; auto.
Qed.

Lemma op_dens op f g (x : R) : ordered f -> ordered g -> Forall wf_seg f -> Forall wf_seg g -> op 0 0 = 0 ->
  ~ is_end f x -> ~ is_end g x -> dens (op_pieces op f g) x = op (dens f x) (dens g x).
Proof.
  intros Of Og Wf Wg H0 Nf Ng.
  assert (Ch : Forall continuous_piece (op_pieces op f g)) by (apply hs_cont; auto).
  assert (Wh : Forall wf_seg (op_pieces op f g)) by (eapply Forall_impl; [|exact Ch]; intros s [_ ?]; auto).
  assert (Oh : ordered (op_pieces op f g)) by (apply hs_ordered; auto).
  assert (NB : ~ is_end (op_pieces op f g) x).
  { intros (s & Hs & Hx). apply (hs_In f g Wf Wg op) in Hs. destruct Hs as (a & b & Hab & Hs).
    apply pairs_up_In in Hab; [|apply B_sorted]. destruct Hab as (Ha & Hb & L & _).
    destruct (piece_of_spec f g Of Og Wf Wg op a b s L Hs) as (E1 & E2 & _).
    rewrite E1, E2 in Hx. apply B_In in Ha. apply B_In in Hb. rewrite is_end_breaks in Nf, Ng.
    destruct Hx as [<-|<-]; tauto. }
  rewrite !dens_call_vec; auto. rewrite is_end_breaks in *.
  apply open_value_call_vec; auto. apply op_pieces_value; auto; apply call_vec_open; auto.
Qed.

(** everything about the pointwise combination of two functions *)
Lemma op_all eps op f g : 0 <= eps -> good eps f -> good eps g -> cross_sep eps f g -> op 0 0 = 0 ->
  exists h, operation eps op f g = Ok h /\ good eps (segs h) /\
    (forall y, In y (getBreaks (segs h)) <-> In y (getBreaks f) \/ In y (getBreaks g)) /\
    (forall x : R, ~ is_end f x -> ~ is_end g x -> dens (segs h) x = op (dens f x) (dens g x)) /\
    (forall x, mass_at (segs h) x = comb op (mass_at f x) (mass_at g x)) /\
    (forall P A, ends_of [f; g] P -> atoms_of [f; g] A ->
       integrate_all h = cut_int (fun x => op (dens f x) (dens g x)) P + sumR (map (fun x => ov (fun m => m) (comb op (mass_at f x) (mass_at g x))) A)).
Proof.
  intros He Gf Gg C H0. destruct (operation_ok eps op f g He Gf Gg C) as (h & E & Gh & S & M). exists h.
  assert (BR : forall y, In y (getBreaks (segs h)) <-> In y (getBreaks f) \/ In y (getBreaks g)) by (apply (op_breaks eps op); auto).
  assert (DE : forall x : R, ~ is_end f x -> ~ is_end g x -> dens (segs h) x = op (dens f x) (dens g x)).
  { intros x Nf Ng. rewrite <- dens_getSegments, S. destruct Gf as (? & ? & ?), Gg as (? & ? & ?). apply op_dens; auto. }
  splits; auto. intros P A (SP & EP) (NA & EA).
  destruct Gf as (Of & Wf & Df). destruct Gg as (Og & Wg & Dg). pose proof Gh as (Oh & Wh & Dh).
  pose proof (sep_nodup eps _ He Df) as Nf. pose proof (sep_nodup eps _ He Dg) as Ng. pose proof (sep_nodup eps _ He Dh) as Nh.
  assert (PB : P = np_unique (getBreaks f ++ getBreaks g)).
  { apply sorted_ext; auto; [apply np_unique_sorted|]. intros y. rewrite np_unique_In, in_app_iff, EP. rewrite <- !is_end_breaks. split.
    - intros (l & [<-|[<-|[]]] & K); auto.
    - intros [K|K]; [exists f|exists g]; split; simpl; auto. }
  unfold integrate_all. rewrite (total_cut eps P A); auto.
  - f_equal.
    + apply cut_int_ext; auto. intros x Nx. apply DE; intros K; apply Nx; apply EP; [exists f|exists g]; split; simpl; auto.
    + f_equal. apply map_ext. intros x. rewrite pm_mass_at, M; auto.
  - intros x Hx. apply mass_at_pos in Hx; auto. destruct Hx as (m & Hx). rewrite M in Hx. apply EA.
    destruct (mass_at f x) as [mf|] eqn:E1; [apply mass_at_iff in E1; auto; exists f, mf; simpl; auto|].
    destruct (mass_at g x) as [mg|] eqn:E2; [apply mass_at_iff in E2; auto; exists g, mg; simpl; auto|discriminate].
  - intros s Hs D. rewrite PB. assert (Hs' : In s (op_pieces op f g)) by (rewrite <- S; apply getSegments_cont; auto).
    apply (hs_In f g Wf Wg op) in Hs'. destruct Hs' as (a & b & Hab & Hs'). pose proof Hab as Hab'. apply pairs_up_In in Hab'; [|apply B_sorted]. destruct Hab' as (_ & _ & L & _).
    destruct (piece_of_spec f g Of Og Wf Wg op a b s L Hs') as (E1 & E2 & _). rewrite E1, E2. auto.
Qed.

(** ** a function of a piecewise function *)
Lemma fun_loop_addAll eps fc fd l l' : Forall2 (fun s t => fun_seg fc fd s = Ok t) l l' ->
  forall p, fun_loop eps fc fd p l = addAll eps p l'.
Proof.
  induction 1 as [|s t l l' E F IH]; intros p; [reflexivity|]. simpl. rewrite E. cbn [rbind]. destruct (addSegment eps p t); simpl; auto.
Qed.

Lemma fun_seg_ok fc fd s t : fun_seg fc fd s = Ok t ->
  sa t = sa s /\ sb t = sb s /\ isDirac t = isDirac s /\ (wf_seg s -> wf_seg t) /\ (isDirac s = false -> forall x, sf t x = fc (sf s x)) /\
  (forall a m, s = DiracSeg a m -> exists k, fd m = Ok k /\ t = DiracSeg a k).
Proof.
  destruct s; simpl; intros E; try (injection E as <-; simpl; splits; auto; intros; discriminate).
  unfold rmap in E. destruct (fd m) as [k|e] eqn:Ek; simpl in E; [|discriminate]. injection E as <-. simpl. splits; auto; [discriminate|].
  intros a' m' E'. injection E' as <- <-. eauto.
Qed.

Lemma function_ok eps fc fd (gd : R -> R) l : 0 <= eps -> good eps l ->
  (forall a m, In (DiracSeg a m) l -> fd m = Ok (gd m)) ->
  exists q, function_op eps fc fd l = Ok q /\ good eps (segs q) /\
    (forall y, In y (getBreaks (segs q)) <-> In y (getBreaks l)) /\
    (forall x : R, ~ is_end l x -> dens (segs q) x = if existsb (fun s => if isDirac s then false else if Rbar_lt_dec (sa s) x then if Rbar_lt_dec x (sb s) then true else false else false) l then fc (dens l x) else 0) /\
    (forall x, mass_at (segs q) x = option_map gd (mass_at l x)).
Proof.
  intros He (O & W & D) FD.
  assert (EX : exists l', Forall2 (fun s t => fun_seg fc fd s = Ok t) l l').
  { clear - FD. induction l as [|s l IH]; [exists []; constructor|]. destruct IH as (l' & IH); [intros; eapply FD; right; eauto|].
    assert (exists t, fun_seg fc fd s = Ok t) as (t & E).
    { destruct s; simpl; eauto. rewrite (FD a m); [|left; auto]. simpl. eauto. }
    exists (t :: l'). constructor; auto. }
  destruct EX as (l' & F2).
  assert (ME : map (fun s => (sa s, sb s)) l' = map (fun s => (sa s, sb s)) l).
  { clear - F2. induction F2 as [|s t l l' E F IH]; auto. simpl. apply fun_seg_ok in E. destruct E as (-> & -> & _). rewrite IH. auto. }
  assert (O' : ordered l') by (eapply ordered_ends; eauto).
  assert (W' : Forall wf_seg l').
  { clear - F2 W. induction F2 as [|s t l l' E F IH]; auto. inversion W; subst. constructor; auto. apply fun_seg_ok in E. apply E; auto. }
  assert (DP : dirac_pos l' = dirac_pos l).
  { clear - F2. induction F2 as [|s t l l' E F IH]; auto. simpl. rewrite IH. apply fun_seg_ok in E. destruct E as (E1 & E2 & E3 & _ & _ & E4).
    destruct s; try (destruct t; simpl in E3; try discriminate; reflexivity). destruct (E4 a m eq_refl) as (k & _ & ->). reflexivity. }
  assert (D' : dirac_sep eps l') by (apply dirac_sep_pos; rewrite DP; apply dirac_sep_pos; auto).
  destruct (addAll_ordered eps l' O' W' D') as (q & Q1 & Q2 & _). exists q. rewrite Q2.
  pose proof (sep_nodup eps _ He D) as N. pose proof (sep_nodup eps _ He D') as N'.
  splits; auto.
  - unfold function_op. rewrite (fun_loop_addAll _ _ _ _ l'); auto.
  - split; auto.
  - intros y. rewrite !getBreaks_In. 
    assert (K : forall k k', map (fun s => (sa s, sb s)) k' = map (fun s => (sa s, sb s)) k -> (exists s, In s k' /\ (y = sa s \/ y = sb s)) -> exists s, In s k /\ (y = sa s \/ y = sb s)).
    { intros k k' E (s & Hs & Hy). apply (in_map (fun s => (sa s, sb s))) in Hs. rewrite E in Hs. apply in_map_iff in Hs. destruct Hs as (t & Et & Ht). injection Et as E1 E2. exists t. rewrite E1, E2. auto. }
    split; apply K; auto.
  - intros x Nx. 
    destruct (existsb _ l) eqn:EB.
    + apply existsb_exists in EB. destruct EB as (s & Hs & EB). destruct (isDirac s) eqn:Ds; [discriminate|].
      destruct (Rbar_lt_dec (sa s) x) as [X1|]; [|discriminate]. destruct (Rbar_lt_dec x (sb s)) as [X2|]; [|discriminate].
      rewrite (dens_at l s x); auto.
      assert (exists t, In t l' /\ fun_seg fc fd s = Ok t) as (t & Ht & Et).
      { clear - F2 Hs. induction F2 as [|s0 t l l' E F IH]; [destruct Hs|]. destruct Hs as [->|Hs]; [exists t; simpl; auto|]. destruct IH as (t' & T1 & T2); auto. exists t'; simpl; auto. }
      apply fun_seg_ok in Et. destruct Et as (E1 & E2 & E3 & _ & E4 & _). rewrite (dens_at l' t x); auto; try congruence. 
    + apply dens_zero. intros t Ht Dt (C1 & C2).
      assert (exists s, In s l /\ fun_seg fc fd s = Ok t) as (s & Hs & Es).
      { clear - F2 Ht. induction F2 as [|s0 t0 l l' E F IH]; [destruct Ht|]. destruct Ht as [->|Ht]; [exists s0; simpl; auto|]. destruct IH as (t' & T1 & T2); auto. exists t'; simpl; auto. }
      apply fun_seg_ok in Es. destruct Es as (E1 & E2 & E3 & _).
      assert (X : existsb (fun s => if isDirac s then false else if Rbar_lt_dec (sa s) x then if Rbar_lt_dec x (sb s) then true else false else false) l = true).
      { apply existsb_exists. exists s. split; auto. rewrite <- E3, Dt. destruct (Rbar_lt_dec (sa s) x) as [A|A].
        - destruct (Rbar_lt_dec x (sb s)) as [B|B]; auto. exfalso. apply B. rewrite <- E2. auto.
        - exfalso. rewrite E1 in C1. destruct (Rbar_le_lt_or_eq_dec _ _ C1) as [K|K]; auto. apply Nx. exists s. auto. }
      rewrite X in EB. discriminate.
  - intros x. destruct (mass_at l x) as [m|] eqn:E; cbn [option_map].
    + apply mass_at_iff in E; auto. apply mass_at_iff; auto.
      assert (exists t, In t l' /\ fun_seg fc fd (DiracSeg x m) = Ok t) as (t & Ht & Et).
      { clear - F2 E. induction F2 as [|s0 t l l' E0 F IH]; [destruct E|]. destruct E as [->|E]; [exists t; simpl; auto|]. destruct IH as (t' & T1 & T2); auto. exists t'; simpl; auto. }
      apply fun_seg_ok in Et. destruct Et as (_ & _ & _ & _ & _ & Et). destruct (Et x m eq_refl) as (k & K1 & ->). rewrite (FD x m E) in K1. injection K1 as <-. auto.
    + apply mass_at_none in E; auto. apply mass_at_none; auto. rewrite DP. auto.
Qed.
