(** Proofs about transformations, part 2: lists of pieces. *)
From Coq Require Import Reals Lra List Bool Sorted Permutation.
From Coquelicot Require Import Coquelicot.
From Verif Require Import Base Bisect Seg Piecewise PiecewiseSpec PiecewiseFacts PiecewiseFacts2 PiecewiseFacts3
  Integral IntegralFacts SegInt SegIntSpec SegIntFacts SubstFacts Transform TransformSpec TransformFacts.
Import List ListNotations.
Open Scope R_scope.

Lemma addMap_all eps F l l' : Forall2 (fun s t => F s = Ok t) l l' -> forall p, addMap eps F p l = addAll eps p l'.
Proof.
  induction 1 as [|s t l l' E _ IH]; intros p; simpl; auto.
  rewrite E. simpl. destruct (addSegment eps p t); simpl; auto.
Qed.

Lemma pprob_app l1 l2 u v : pprob (l1 ++ l2) u v = pprob l1 u v + pprob l2 u v.
Proof. unfold pprob. rewrite map_app, sumR_app. auto. Qed.
Lemma pprob_cons s l u v : pprob (s :: l) u v = prob s u v + pprob l u v.
Proof. reflexivity. Qed.
Lemma sumR_perm l l' : Permutation l l' -> sumR l = sumR l'.
Proof. induction 1; simpl; lra. Qed.
Lemma pprob_perm l l' u v : Permutation l l' -> pprob l u v = pprob l' u v.
Proof. intros H. unfold pprob. apply sumR_perm, Permutation_map, H. Qed.

Lemma wf_le s : wf_seg s -> Rbar_le (sa s) (sb s).
Proof. destruct (isDirac s) eqn:D; intros W; [destruct s; try discriminate; apply Rbar_le_refl|apply Rbar_lt_le, wf_lt; auto]. Qed.

Lemma image_before inc g ginv A B s t s' t' : inverse_pair inc g ginv A B ->
  within A B s -> within A B t -> wf_seg s -> wf_seg t ->
  image_piece inc g A B s s' -> image_piece inc g A B t t' -> before s t ->
  if inc then before s' t' else before t' s'.
Proof.
  intros IP (S1 & S2) (T1 & T2) Ws Wt (_ & _ & _ & E1 & E2 & _) (_ & _ & _ & F1 & F2 & _) (B1 & B2).
  pose proof (wf_le s Ws) as Ls. pose proof (wf_le t Wt) as Lt.
  assert (L1 : Rbar_le (sa s) (sb t)) by (apply (Rbar_le_trans _ (sb s)); auto; apply (Rbar_le_trans _ (sa t)); auto).
  assert (L2 : Rbar_lt (sa s) (sb t)) by (destruct (Rbar_le_lt_or_eq_dec _ _ L1); tauto).
  assert (Q1 : Rbar_le A (sb s)) by (apply (Rbar_le_trans _ (sa s)); auto).
  assert (Q2 : Rbar_le (sa t) B) by (apply (Rbar_le_trans _ (sb t)); auto).
  pose proof (g_le inc g ginv A B IP (sb s) (sa t) Q1 B1 Q2) as G1.
  pose proof (g_lt inc g ginv A B IP (sa s) (sb t) S1 L2 T2) as G2.
  unfold lo_end, hi_end in *. destruct inc; split; rewrite ?E1, ?E2, ?F1, ?F2; auto;
  intros H; rewrite H in G2; exact (Rbar_lt_irrefl _ G2).
Qed.

Lemma dirac_sep_pairs eps l : dirac_sep eps l -> forall i, ForallOrdPairs (fun s t => (before s t \/ before t s)) l -> i = tt -> all_compatible eps l.
Proof.
  intros D _ O _. induction D as [|s l F D IH]; [constructor|]. inversion O; subst.
  constructor; [|apply IH; auto]. rewrite Forall_forall in *. intros t Ht. split; auto. apply F; auto.
Qed.

Lemma list_image eps inc g ginv A B l l' : inverse_pair inc g ginv A B ->
  ordered l -> Forall wf_seg l -> Forall (within A B) l -> Forall2 (image_piece inc g A B) l l' ->
  dirac_sep eps l' ->
  exists q, addAll eps empty_pwf l' = Ok q /\ Permutation l' (segs q) /\ ordered (segs q) /\ Forall wf_seg (segs q) /\
    Forall has_int (segs q) /\
    forall u v, Rbar_le A u -> Rbar_lt u v -> Rbar_le v B ->
      pprob (segs q) (lo_end inc g u v) (hi_end inc g u v) = pprob l u v.
Proof.
  intros IP O W Wi I D.
  assert (W' : Forall wf_seg l'). { clear -I. induction I; constructor; auto. apply H. }
  assert (H' : Forall has_int l'). { clear -I. induction I; constructor; auto. apply H. }
  assert (OP : ForallOrdPairs (fun s t => before s t \/ before t s) l').
  { clear D W' H'. induction I as [|s s' l l' Is I IH]; [constructor|].
    apply StronglySorted_inv in O. destruct O as [O F]. inversion W; inversion Wi; subst.
    constructor; [|apply IH; auto].
    apply Forall_forall. intros t' Ht'.
    assert (exists t, In t l /\ image_piece inc g A B t t') as (t & Ht & It).
    { clear -I Ht'. induction I; [destruct Ht'|]. destruct Ht' as [<-|Ht']; [exists x; simpl; auto|].
      destruct (IHI Ht') as (t & ? & ?). exists t. simpl; auto. }
    rewrite Forall_forall in F, H2, H6.
    pose proof (image_before inc g ginv A B s t s' t' IP H5 (H6 t Ht) H1 (H2 t Ht) Is It (F t Ht)). destruct inc; auto. }
  assert (C : all_compatible eps l') by (apply (dirac_sep_pairs eps l' D tt); auto).
  destruct (addAll_compatible eps l' empty_pwf) as (q & Q1 & Q2 & Q3 & Q4); simpl; auto.
  { constructor. }
  { intros s t _ []. }
  simpl in Q2. exists q. splits; auto.
  - rewrite Forall_forall in *. intros s Hs. apply H'. apply (Permutation_in s (Permutation_sym Q2)); auto.
  - intros u v U UV V. rewrite <- (pprob_perm l' (segs q)); auto.
    clear - I U UV V. induction I as [|s s' l l' Is I IH]; auto. rewrite !pprob_cons, IH. f_equal.
    apply Is; auto.
Qed.

(** ** Splitting preserves probabilities *)
Definition cl (a b u : Rbar) : Rbar := if blt u a then a else if blt b u then b else u.

Lemma clamp_cl s u : clamp s u = cl (sa s) (sb s) u.
Proof. reflexivity. Qed.

Lemma blt_no x y : Rbar_le y x -> blt x y = false.
Proof. intros H. destruct (bltP x y) as [L|L]; auto. exfalso. apply (Rbar_lt_irrefl x). apply (Rbar_lt_le_trans _ y); auto. Qed.

Lemma cl_split (G : Rbar -> R) a b c x : Rbar_le a b -> Rbar_le b c -> G (cl a b x) + G (cl b c x) = G (cl a c x) + G b.
Proof.
  intros AB BC. unfold cl. destruct (Rbar_lt_le_dec x b) as [X|X].
  - rewrite (proj2 (blt_true x b) X).
    rewrite (blt_no b x) by (apply Rbar_lt_le; auto).
    rewrite (blt_no c x) by (apply (Rbar_le_trans _ b); auto; apply Rbar_lt_le; auto). destruct (blt x a); lra.
  - rewrite (blt_no x b), (blt_no x a) by (auto; apply (Rbar_le_trans _ b); auto).
    destruct (bltP b x) as [X2|X2]; [destruct (blt c x); lra|].
    apply Rbar_not_lt in X2. assert (x = b) as -> by (apply Rbar_le_antisym; auto).
    rewrite (blt_no c b); auto. 
Qed.

Lemma split_from_prob s u v : continuous_piece s -> has_int s -> Rbar_le u v -> forall inds a,
  Rbar_le (sa s) a -> Rbar_lt a (sb s) ->
  StronglySorted Rbar_lt (a :: inds) -> Forall (fun y => Rbar_lt y (sb s)) inds ->
  pprob (split_from s a inds) u v = Q (sf s) (cl a (sb s) u) (cl a (sb s) v) /\ Forall has_int (split_from s a inds).
Proof.
  intros (D & W) HI UV.
  destruct (integrable_prim _ _ _ (HI D)) as (G & P).
  assert (CL : forall a b x, Rbar_le (sa s) a -> Rbar_le a b -> Rbar_le b (sb s) -> Rbar_le (sa s) (cl a b x) /\ Rbar_le (cl a b x) (sb s)).
  { intros a b x A1 A2 A3. unfold cl. destruct (bltP x a) as [X|X].
    - split; auto. apply (Rbar_le_trans _ b); auto.
    - apply Rbar_not_lt in X. destruct (bltP b x) as [X'|X'].
      + split; auto. apply (Rbar_le_trans _ a); auto.
      + apply Rbar_not_lt in X'. split; [apply (Rbar_le_trans _ a)|apply (Rbar_le_trans _ b)]; auto. }
  assert (PP : forall a b, Rbar_le (sa s) a -> Rbar_lt a b -> Rbar_le b (sb s) ->
     prob (split_piece s a b) u v = G (cl a b v) - G (cl a b u) /\ has_int (split_piece s a b)).
  { intros a b A1 A2 A3. destruct (split_piece_spec s a b (conj D W) A1 A3 A2) as (E1 & E2 & E3 & E4 & E5). split.
    - rewrite prob_Q; auto. rewrite !clamp_cl, E1, E2, E4.
      pose proof (CL a b u A1 (Rbar_lt_le _ _ A2) A3). pose proof (CL a b v A1 (Rbar_lt_le _ _ A2) A3).
      apply (prim_Q (sf s) (sa s) (sb s) G); tauto.
    - intros _. rewrite E1, E2, E4. eapply prim_integrable. apply (prim_sub (sf s) (sa s) (sb s)); eauto. }
  assert (QG : forall a, Rbar_le (sa s) a -> Rbar_lt a (sb s) -> Q (sf s) (cl a (sb s) u) (cl a (sb s) v) = G (cl a (sb s) v) - G (cl a (sb s) u)).
  { intros a A1 A2. pose proof (CL a (sb s) u A1 (Rbar_lt_le _ _ A2) (Rbar_le_refl _)). pose proof (CL a (sb s) v A1 (Rbar_lt_le _ _ A2) (Rbar_le_refl _)).
    apply (prim_Q (sf s) (sa s) (sb s) G); tauto. }
  induction inds as [|b inds IH]; intros a A1 A2 S F; cbn [split_from].
  - destruct (PP a (sb s) A1 A2 (Rbar_le_refl _)) as (E & H). split; [|constructor; auto].
    unfold pprob. simpl. rewrite E, QG; auto. lra.
  - apply StronglySorted_inv in S. destruct S as [S F0]. inversion F0; inversion F; subst.
    assert (SB : Rbar_le (sa s) b) by (apply (Rbar_le_trans _ a); auto; apply Rbar_lt_le; auto).
    destruct (PP a b A1 H1 (Rbar_lt_le _ _ H5)) as (E & H).
    destruct (IH b SB H5 S H6) as (E' & H'). split; [|constructor; auto].
    rewrite pprob_cons, E, E', QG, QG; auto.
    pose proof (cl_split G a b (sb s) u (Rbar_lt_le _ _ H1) (Rbar_lt_le _ _ H5)).
    pose proof (cl_split G a b (sb s) v (Rbar_lt_le _ _ H1) (Rbar_lt_le _ _ H5)). lra.
Qed.

Lemma split_seg_prob pts s u v : StronglySorted Rbar_lt pts -> wf_seg s -> has_int s -> Rbar_le u v ->
  pprob (split_seg pts s) u v = prob s u v /\ Forall has_int (split_seg pts s).
Proof.
  intros S W HI UV. destruct (isDirac s) eqn:D.
  - destruct (split_seg_spec pts s S W) as (_ & _ & _ & H & _). rewrite H by auto. split; [unfold pprob; simpl; lra|].
    constructor; auto.
  - pose proof (wf_lt s D W) as L. unfold split_seg.
    set (inds := filter _ pts).
    assert (I1 : Forall (fun y => Rbar_lt (sa s) y /\ Rbar_lt y (sb s)) inds).
    { apply Forall_forall. intros y Hy. apply filter_In in Hy. destruct Hy as (_ & Hy). apply andb_prop in Hy.
      destruct Hy as (Y1 & Y2). destruct (bltP (sa s) y); destruct (bltP y (sb s)); auto; discriminate. }
    assert (I2 : StronglySorted Rbar_lt inds).
    { clear -S. subst inds. induction S; simpl; [constructor|]. destruct (_ && _)%bool; auto. constructor; auto.
      rewrite Forall_forall in *. intros y Hy. apply filter_In in Hy. apply H; tauto. }
    destruct (split_from_prob s u v (conj D W) HI UV inds (sa s)) as (E & H); auto.
    + apply Rbar_le_refl.
    + constructor; auto. eapply Forall_impl; [|exact I1]. simpl. tauto.
    + eapply Forall_impl; [|exact I1]. simpl. tauto.
    + split; auto. rewrite E, prob_Q; auto.
Qed.

Lemma split_all_prob pts l u v : StronglySorted Rbar_lt pts -> Forall wf_seg l -> Forall has_int l -> Rbar_le u v ->
  pprob (split_all pts l) u v = pprob l u v /\ Forall has_int (split_all pts l).
Proof.
  intros S W HI UV. induction l as [|s l IH]; simpl; [split; auto|].
  inversion W; inversion HI; subst. destruct (split_seg_prob pts s u v) as (E & H); auto.
  destruct IH as (E' & H'); auto. split; [|apply Forall_app; auto].
  unfold split_all in *. rewrite pprob_app, pprob_cons, E, E'. auto.
Qed.

Lemma split_all_pieces pts l : StronglySorted Rbar_lt pts -> Forall wf_seg l ->
  Forall (fun t => exists s, In s l /\ isDirac t = isDirac s /\ sf t = sf s /\ Rbar_le (sa s) (sa t) /\ Rbar_le (sb t) (sb s)) (split_all pts l).
Proof.
  intros S W. apply Forall_forall. intros t Ht. apply split_all_In in Ht. destruct Ht as (s & Hs & Ht).
  rewrite Forall_forall in W. destruct (split_seg_spec pts s S (W s Hs)) as (F & _).
  rewrite Forall_forall in F. destruct (F t Ht) as (_ & F1 & F2 & F3 & F4). exists s. auto.
Qed.

Lemma split_all_cont pts l : StronglySorted Rbar_lt pts -> Forall wf_seg l -> Forall cont_inside l -> Forall cont_inside (split_all pts l).
Proof.
  intros S W C. eapply Forall_impl; [|apply (split_all_pieces pts l S W)].
  intros t (s & Hs & E1 & E2 & E3 & E4) x D (X1 & X2). rewrite E2. rewrite Forall_forall in C. apply (C s Hs); [congruence|].
  split; [apply (Rbar_le_lt_trans _ (sa t))|apply (Rbar_lt_le_trans _ (sb t))]; auto.
Qed.
Lemma split_all_within pts l A B : StronglySorted Rbar_lt pts -> Forall wf_seg l -> Forall (within A B) l -> Forall (within A B) (split_all pts l).
Proof.
  intros S W C. eapply Forall_impl; [|apply (split_all_pieces pts l S W)].
  intros t (s & Hs & E1 & E2 & E3 & E4). rewrite Forall_forall in C. destruct (C s Hs).
  split; [apply (Rbar_le_trans _ (sa s))|apply (Rbar_le_trans _ (sb s))]; auto.
Qed.
