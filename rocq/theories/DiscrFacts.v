(** Proofs about discrete distributions. *)
From Coq Require Import Reals Lra List Bool Arith Sorted Permutation Lia.
From Coquelicot Require Import Coquelicot.
From Verif Require Import Base Bisect BisectFacts Seg Piecewise PiecewiseSpec PiecewiseFacts PiecewiseFacts2 PiecewiseFacts4 Integral IntegralFacts SegInt SegIntSpec SegIntFacts CumintFacts SegIntMain IntParts Indep IndepSpec AtomFacts AtomFacts2 AtomFacts3 Discr DiscrSpec.
Import List ListNotations.
Open Scope R_scope.

Lemma px_ins_perm p l : Permutation (px_ins p l) (p :: l).
Proof.
  induction l as [|q l IH]; simpl; auto. destruct (px_lt q p); auto.
  rewrite IH. apply perm_swap.
Qed.
Lemma px_sort_perm l : Permutation (px_sort l) l.
Proof. induction l as [|p l IH]; simpl; auto. unfold px_sort in *. simpl. rewrite px_ins_perm. auto. Qed.

Definition px_le (p q : R * R) : Prop := fst p < fst q \/ (fst p = fst q /\ snd p <= snd q).
Lemma px_lt_false p q : px_lt q p = false -> px_le p q.
Proof.
  unfold px_lt, px_le. intros H. apply orb_false_iff in H. destruct H as [H1 H2]. apply rlt_false in H1.
  apply andb_false_iff in H2. destruct (Req_dec (fst p) (fst q)) as [E|E]; [|left; lra].
  right. split; auto. destruct H2 as [H2|H2]; [apply req_false in H2; congruence|]. apply rlt_false in H2; auto.
Qed.
Lemma px_lt_true p q : px_lt q p = true -> px_le q p.
Proof.
  unfold px_lt, px_le. intros H. apply orb_true_iff in H. destruct H as [H|H]; [apply rlt_true in H; auto|].
  apply andb_true_iff in H. destruct H as [H1 H2]. apply req_true in H1. apply rlt_true in H2. right; split; lra.
Qed.
Lemma px_le_trans p q r : px_le p q -> px_le q r -> px_le p r.
Proof. unfold px_le. lra. Qed.
Lemma px_le_anti p q : px_le p q -> px_le q p -> p = q.
Proof. unfold px_le. destruct p, q; simpl. intros. f_equal; lra. Qed.

Lemma px_ins_sorted p l : StronglySorted px_le l -> StronglySorted px_le (px_ins p l).
Proof.
  induction 1 as [|q l HS IH HF]; simpl; [repeat constructor|].
  destruct (px_lt q p) eqn:E.
  - constructor; auto. apply Forall_forall. intros r Hr. apply (Permutation_in _ (px_ins_perm p l)) in Hr.
    destruct Hr as [<-|Hr]; [apply px_lt_true; auto|]. rewrite Forall_forall in HF; auto.
  - apply px_lt_false in E. constructor; [constructor; auto|]. constructor; auto.
    apply Forall_forall. intros r Hr. rewrite Forall_forall in HF. eapply px_le_trans; eauto.
Qed.
Lemma px_sort_sorted l : StronglySorted px_le (px_sort l).
Proof. unfold px_sort. induction l as [|p l IH]; simpl; [constructor|]. apply px_ins_sorted; auto. Qed.
Lemma sorted_unique l : forall l', StronglySorted px_le l -> StronglySorted px_le l' -> Permutation l l' -> l = l'.
Proof.
  induction l as [|p l IH]; intros l' O O' P.
  - apply Permutation_nil in P. auto.
  - destruct l' as [|q l']; [apply Permutation_sym, Permutation_nil in P; discriminate|].
    apply StronglySorted_inv in O. apply StronglySorted_inv in O'. destruct O as [O F], O' as [O' F'].
    assert (E : p = q).
    { rewrite Forall_forall in F, F'.
      assert (Hq : In q (p :: l)) by (apply (Permutation_in _ (Permutation_sym P)); left; auto).
      assert (Hp : In p (q :: l')) by (apply (Permutation_in _ P); left; auto).
      destruct Hq as [Hq|Hq]; auto. destruct Hp as [Hp|Hp]; auto. apply px_le_anti; auto. }
    subst q. f_equal. apply IH; auto. eapply Permutation_cons_inv; eauto.
Qed.
Lemma px_sort_eq l l' : Permutation l l' -> px_sort l = px_sort l'.
Proof.
  intros P. apply sorted_unique; try apply px_sort_sorted.
  rewrite px_sort_perm. rewrite px_sort_perm. auto.
Qed.
Lemma sorted_fst l : StronglySorted px_le l -> NoDup (map fst l) -> StronglySorted Rlt (map fst l).
Proof.
  induction 1 as [|p l HS IH HF]; simpl; intros N; [constructor|]. inversion N; subst. constructor; auto.
  apply Forall_forall. intros x Hx. apply in_map_iff in Hx. destruct Hx as (q & <- & Hq).
  rewrite Forall_forall in HF. destruct (HF _ Hq) as [|[E _]]; auto.
  exfalso. apply H1. rewrite E. apply in_map; auto.
Qed.

Lemma combine_split_pair {A B} (l : list (A * B)) : combine (map fst l) (map snd l) = l.
Proof. induction l as [|[a b] l IH]; simpl; congruence. Qed.
Lemma map_fst_combine {A B} (l : list A) : forall (l' : list B), length l = length l' -> map fst (combine l l') = l.
Proof. induction l as [|a l IH]; destruct l'; simpl; intros; try discriminate; auto. f_equal; auto. Qed.

Lemma disc_init_ok xi pi : length xi = length pi ->
  disc_init xi pi = Ok (Disc (map fst (px_sort (combine xi pi))) (map snd (px_sort (combine xi pi))) (cumsum (map snd (px_sort (combine xi pi))))).
Proof. intros H. unfold disc_init. rewrite H, Nat.eqb_refl. auto. Qed.

(** the pdf loop over a list of pairs *)
Lemma disc_pdf_pairs l x : forall y, disc_pdf_loop (map fst l) (map snd l) x y = y + p_eq l x.
Proof.
  unfold p_eq. induction l as [|[a p] l IH]; intros y; simpl; [rewrite Rplus_0_r; auto|].
  rewrite IH. destruct (reqP x a) as [E0|N]; destruct (Req_EM_T a x) as [E|E]; try congruence; lra.
Qed.
Lemma p_eq_perm l l' x : Permutation l l' -> p_eq l x = p_eq l' x.
Proof. intros P. unfold p_eq. apply sumR_perm. apply Permutation_map; auto. Qed.
Lemma p_lt_perm l l' x : Permutation l l' -> p_lt l x = p_lt l' x.
Proof. intros P. unfold p_lt. apply sumR_perm. apply Permutation_map; auto. Qed.
Lemma p_le_perm l l' x : Permutation l l' -> p_le l x = p_le l' x.
Proof. intros P. unfold p_le. apply sumR_perm. apply Permutation_map; auto. Qed.
Lemma p_all_perm l l' : Permutation l l' -> p_all l = p_all l'.
Proof. intros P. unfold p_all. apply sumR_perm. apply Permutation_map; auto. Qed.
Lemma p_eq_notin l x : ~ In x (map fst l) -> p_eq l x = 0.
Proof.
  unfold p_eq. induction l as [|[a p] l IH]; simpl; intros N; auto.
  destruct (Req_EM_T a x); [exfalso; apply N; auto|]. rewrite IH; [ring|]. auto.
Qed.
Lemma p_eq_in l x p : NoDup (map fst l) -> In (x, p) l -> p_eq l x = p.
Proof.
  unfold p_eq. induction l as [|[a q] l IH]; simpl; intros N H; [tauto|]. inversion N; subst.
  destruct H as [H|H].
  - injection H as -> ->. destruct (Req_EM_T x x); [|congruence].
    pose proof (p_eq_notin l x H2) as E. unfold p_eq in E. rewrite E. ring.
  - destruct (Req_EM_T a x) as [->|]; [exfalso; apply H2; apply (in_map fst) in H; auto|]. rewrite IH; auto. ring.
Qed.

(** the layout of the piecewise density *)
Fixpoint layout (px : list (R * R)) : list segment :=
  match px with
  | (a, p) :: (((b, _) :: _) as px') => DiracSeg a p :: ConstSeg a b 0 :: layout px'
  | [(a, p)] => [DiracSeg a p]
  | [] => []
  end.
Lemma layout_perm px : Permutation (layout px) (disc_atoms (map fst px) (map snd px) ++ disc_zeros (map fst px)).
Proof.
  induction px as [|[a p] px IH]; [constructor|]. destruct px as [|[b k] px]; [simpl; auto|].
  change (layout ((a, p) :: (b, k) :: px)) with (DiracSeg a p :: ConstSeg a b 0 :: layout ((b, k) :: px)).
  change (disc_atoms (map fst ((a, p) :: (b, k) :: px)) (map snd ((a, p) :: (b, k) :: px)))
    with (DiracSeg a p :: disc_atoms (map fst ((b, k) :: px)) (map snd ((b, k) :: px))).
  change (disc_zeros (map fst ((a, p) :: (b, k) :: px))) with (ConstSeg a b 0 :: disc_zeros (map fst ((b, k) :: px))).
  simpl app. constructor. rewrite IH. apply Permutation_middle.
Qed.
Lemma layout_wf px : StronglySorted Rlt (map fst px) -> Forall wf_seg (layout px) /\ ordered (layout px) /\ chained (layout px) /\
  (forall a p px', px = (a, p) :: px' -> (exists l', layout px = DiracSeg a p :: l') /\ forall s, In s (layout px) -> Rbar_le a (sa s) /\ Rbar_le a (sb s)).
Proof.
  induction px as [|[a p] px IH]; intros H.
  - split; [constructor|]. split; [constructor|]. split; [exact I|]. intros; discriminate.
  - destruct px as [|[b k] px].
    + split; [repeat constructor|]. split; [repeat constructor|]. split; [exact I|].
      intros a0 p0 px' E. injection E as -> -> <-. split; [eexists; reflexivity|]. intros s [<-|[]]. simpl. lra.
    + apply StronglySorted_inv in H. destruct H as [H F].
      destruct (IH H) as (W & O & C & L). destruct (L _ _ _ eq_refl) as ((l' & El) & Lb).
      change (layout ((a, p) :: (b, k) :: px)) with (DiracSeg a p :: ConstSeg a b 0 :: layout ((b, k) :: px)).
      assert (ab : a < b) by (inversion F; auto).
      assert (G : forall s, In s (layout ((b, k) :: px)) -> Rbar_le a (sa s) /\ Rbar_le a (sb s)).
      { intros s Hs. destruct (Lb s Hs). split; eapply Rbar_le_trans; eauto; simpl; lra. }
      split; [|split; [|split]].
      * constructor; [exact I|]. constructor; [simpl; auto|]. auto.
      * constructor; [constructor; auto|].
        -- apply Forall_forall. intros s Hs. split; [apply Lb; auto|]. simpl. destruct (Lb s Hs) as [_ G2].
           intros E. rewrite <- E in G2. simpl in G2. lra.
        -- constructor; [split; simpl; [lra|]; intros E; injection E; lra|].
           apply Forall_forall. intros s Hs. split; [apply G; auto|]. simpl. destruct (Lb s Hs) as [_ G2].
           intros E. rewrite <- E in G2. simpl in G2. lra.
      * rewrite El in *. simpl. auto.
      * intros a0 p0 px' E. injection E as -> -> <-. split; [eexists; reflexivity|].
        intros s [<-|[<-|Hs]]; [simpl; lra|simpl; lra|]. apply G; auto.
Qed.
Lemma layout_sep eps px : values_apart eps (map fst px) -> dirac_sep eps (layout px).
Proof.
  assert (D : forall l s, In s (layout l) -> forall a m, s = DiracSeg a m -> In a (map fst l)).
  { induction l as [|[a p] l IH]; simpl; [tauto|]. destruct l as [|[b k] l].
    - intros s [<-|[]] a0 m E. injection E as -> ->. auto.
    - intros s [<-|[<-|Hs]] a0 m E; [injection E as -> ->; auto|discriminate|]. right. eapply IH; eauto. }
  induction px as [|[a p] px IH]; intros V; [constructor|]. destruct px as [|[b k] px].
  - repeat constructor.
  - change (layout ((a, p) :: (b, k) :: px)) with (DiracSeg a p :: ConstSeg a b 0 :: layout ((b, k) :: px)).
    assert (V' : values_apart eps (map fst ((b, k) :: px))).
    { intros i j x y Hi Hj N. apply (V (S i) (S j) x y); auto. }
    constructor.
    + constructor; [exact I|]. apply Forall_forall. intros s Hs. destruct s; auto.
      pose proof (D _ _ Hs _ _ eq_refl) as Hin. apply In_nth_error in Hin. destruct Hin as (n & Hn).
      apply (V 0%nat (S n)); auto.
    + constructor; [|apply IH; auto]. apply Forall_forall. intros; exact I.
Qed.
Lemma addAll_app eps l1 : forall p l2, addAll eps p (l1 ++ l2) = rbind (addAll eps p l1) (fun q => addAll eps q l2).
Proof. induction l1 as [|s l1 IH]; intros p l2; simpl; auto. destruct (addSegment eps p s); simpl; auto. Qed.

Lemma disc_pw_ok eps px : StronglySorted Rlt (map fst px) -> values_apart eps (map fst px) ->
  exists q, disc_pw eps (Disc (map fst px) (map snd px) (cumsum (map snd px))) = Ok q /\ segs q = layout px.
Proof.
  intros S V. unfold disc_pw. cbn [d_xi d_pi]. rewrite <- addAll_app.
  destruct (layout_wf px S) as (W & O & _ & _).
  assert (P := layout_perm px).
  set (l := disc_atoms _ _ ++ disc_zeros _) in *.
  assert (C : all_compatible eps l).
  { eapply FOP_perm; [|exact P|apply ordered_compatible; auto; apply layout_sep; auto].
    intros s t [H1 H2]. split; [tauto|]. destruct s, t; auto. rewrite Rabs_minus_sym; auto. }
  destruct (addAll_compatible eps l empty_pwf) as (q & H1 & H2 & H3 & H4).
  - constructor.
  - constructor.
  - eapply Permutation_Forall; eauto.
  - auto.
  - intros s t _ [].
  - exists q. split; auto. symmetry. apply ordered_unique; auto. rewrite P. auto.
Qed.

Lemma const0_upto a b x : a < b -> mass_upto (ConstSeg a b 0) x = 0.
Proof.
  intros H. rewrite mass_upto_cpart by (simpl; auto). unfold cpart, sf, sa, sb.
  unfold clamp. destruct (blt _ _); [|destruct (blt _ _)]; cbn [sa sb]; first [rewrite Q_refl; reflexivity | rewrite Q_const; ring].
Qed.
Lemma const0_mass a b : a < b -> mass (ConstSeg a b 0) = 0.
Proof. intros H. rewrite mass_Q by (simpl; auto). change (Q (fun _ => 0) a b = 0). rewrite Q_const. ring. Qed.

Lemma layout_sums px x : StronglySorted Rlt (map fst px) ->
  cdf_spec (layout px) x = p_le px x /\ total_mass (layout px) = p_all px /\ pm (layout px) x = p_eq px x.
Proof.
  unfold cdf_spec, total_mass, pm, p_le, p_all, p_eq. induction px as [|[a p] px IH]; intros H; [simpl; auto|].
  destruct px as [|[b k] px]; [simpl; auto|].
  apply StronglySorted_inv in H. destruct H as [H F]. assert (ab : a < b) by (inversion F; auto).
  change (layout ((a, p) :: (b, k) :: px)) with (DiracSeg a p :: ConstSeg a b 0 :: layout ((b, k) :: px)).
  destruct (IH H) as (I1 & I2 & I3). cbn [map]. rewrite !sumR_cons.
  cbn [map] in I1, I2, I3. rewrite ?sumR_cons in I1, I2, I3. rewrite I1, I2, I3.
  rewrite const0_upto, const0_mass by auto. cbn [fst snd mass mass_upto]. splits; ring.
Qed.
Lemma layout_density px : px <> [] -> StronglySorted Rlt (map fst px) -> density (layout px).
Proof.
  intros N H. destruct (layout_wf px H) as (W & O & C & L). repeat split; auto.
  - destruct px as [|[a p] px]; [congruence|]. destruct (L _ _ _ eq_refl) as ((l' & ->) & _). discriminate.
  - clear N W O C L. induction px as [|[a p] px IH]; [constructor|]. destruct px as [|[b k] px]; [repeat constructor|].
    apply StronglySorted_inv in H. destruct H as [H F]. assert (ab : a < b) by (inversion F; auto).
    constructor; [exact I|]. constructor; [apply (integrable_const a b 0 ab)|]. apply IH; auto.
Qed.
Lemma layout_diracs px : getDiracs (layout px) = map (fun p => DiracSeg (fst p) (snd p)) px.
Proof.
  induction px as [|[a p] px IH]; auto. destruct px as [|[b k] px]; auto.
  change (layout ((a, p) :: (b, k) :: px)) with (DiracSeg a p :: ConstSeg a b 0 :: layout ((b, k) :: px)).
  change (getDiracs (DiracSeg a p :: ConstSeg a b 0 :: layout ((b, k) :: px))) with (DiracSeg a p :: getDiracs (layout ((b, k) :: px))).
  rewrite IH. auto.
Qed.
