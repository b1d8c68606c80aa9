(** The probabilities of a pointwise sum add up. *)
From Coq Require Import Reals Lra List Bool Sorted Permutation.
From Coquelicot Require Import Coquelicot.
From Verif Require Import Base Bisect Seg Piecewise PiecewiseSpec PiecewiseFacts PiecewiseFacts2 PiecewiseFacts3 PiecewiseFacts4
  Integral IntegralFacts SegInt SegIntSpec SegIntFacts SubstFacts Transform TransformSpec TransformFacts TransformFacts2.
Import List ListNotations.
Open Scope R_scope.

(** summing over a list = summing over its keys through a lookup *)
Definition olist {X} (o : option X) : list X := match o with Some x => [x] | None => [] end.
Definition ov {X} (F : X -> R) (o : option X) : R := match o with Some x => F x | None => 0 end.

Lemma sum_lookup {X K} (key : X -> K) (lookup : K -> option X) (F : X -> R) L P :
  NoDup (map key L) -> NoDup P -> incl (map key L) P ->
  (forall k x, In k P -> (lookup k = Some x <-> In x L /\ key x = k)) ->
  sumR (map F L) = sumR (map (fun k => ov F (lookup k)) P).
Proof.
  intros NL NP I H.
  assert (PE : Permutation L (flat_map (fun k => olist (lookup k)) P)).
  { apply NoDup_Permutation.
    - eapply NoDup_map_inv; eauto.
    - clear NL I. induction P as [|k P IH]; simpl; [constructor|]. inversion NP; subst.
      assert (IH' : NoDup (flat_map (fun k => olist (lookup k)) P)) by (apply IH; auto; intros; apply H; right; auto).
      destruct (lookup k) as [x|] eqn:E; simpl; auto. constructor; auto.
      rewrite in_flat_map. intros (k' & K1 & K2). destruct (lookup k') as [x'|] eqn:E'; [|destruct K2].
      destruct K2 as [->|[]]. apply H in E; [|left; auto]. apply H in E'; [|right; auto].
      apply H2. destruct E as (_ & <-). destruct E' as (_ & E'). rewrite E'; auto.
    - intros x. rewrite in_flat_map. split.
      + intros Hx. exists (key x). assert (Kx : In (key x) P) by (apply I, in_map; auto). split; auto.
        rewrite (proj2 (H (key x) x Kx)); simpl; auto.
      + intros (k & K1 & K2). destruct (lookup k) as [x'|] eqn:E; [|destruct K2]. destruct K2 as [->|[]].
        apply H in E; tauto. }
  rewrite (sumR_perm _ _ (Permutation_map F PE)). clear. induction P as [|k P IH]; simpl; auto.
  rewrite map_app, sumR_app, IH. destruct (lookup k); simpl; lra.
Qed.

Lemma pprob_partition l u v : pprob l u v = pprob (getSegments l) u v + pprob (getDiracs l) u v.
Proof.
  unfold pprob, getSegments, getDiracs, isSegment. induction l as [|s l IH]; simpl; [lra|].
  rewrite IH. destruct (isDirac s); simpl; lra.
Qed.

(** atoms *)
Definition indic (u v : Rbar) (x : R) : R := if Rbar_lt_dec u x then if Rbar_lt_dec x v then 1 else 0 else 0.
Lemma atoms_prob l u v P : atoms_nodup l -> NoDup P -> incl (dirac_pos l) P ->
  pprob (getDiracs l) u v = sumR (map (fun x => ov (fun m => indic u v x * m) (mass_at l x)) P).
Proof.
  intros N NP I. unfold pprob.
  rewrite (sum_lookup (fun s => real (sa s)) (fun x => getDirac l x) (fun s => prob s u v) (getDiracs l) P); auto.
  - apply sumR_ext. intros x Hx. unfold mass_at. destruct (getDirac l x) as [s|] eqn:E; simpl; auto.
    apply getDirac_Some in E. destruct E as (m & -> & _). unfold indic, prob, ov; simpl.
    destruct (Rbar_lt_dec u x); [destruct (Rbar_lt_dec x v)|]; simpl; lra.
  - replace (map (fun s => real (sa s)) (getDiracs l)) with (dirac_pos l); auto.
    clear. unfold getDiracs, dirac_pos. induction l as [|s l IH]; simpl; auto. rewrite IH. destruct s; auto.
  - intros x Hx. apply I. apply in_map_iff in Hx. destruct Hx as (s & <- & Hs).
    apply filter_In in Hs. destruct Hs as (Hs & D). destruct s; try discriminate. apply dirac_pos_In. eauto.
  - intros x s _. split.
    + intros E. apply getDirac_Some in E. destruct E as (m & -> & H). split; auto. apply filter_In; auto.
    + intros (Hs & E). apply filter_In in Hs. destruct Hs as (Hs & D). destruct s; try discriminate. simpl in E. subst.
      apply getDirac_hit; auto.
Qed.

Lemma atoms_prob_plus f g h u v : atoms_nodup f -> atoms_nodup g -> atoms_nodup h ->
  (forall x, mass_at h x = comb Rplus (mass_at f x) (mass_at g x)) ->
  pprob (getDiracs h) u v = pprob (getDiracs f) u v + pprob (getDiracs g) u v.
Proof.
  intros Nf Ng Nh M.
  set (P := nodup Req_EM_T (dirac_pos f ++ dirac_pos g ++ dirac_pos h)).
  assert (NP : NoDup P) by apply NoDup_nodup.
  assert (I : forall x, In x (dirac_pos f ++ dirac_pos g ++ dirac_pos h) -> In x P) by (intros x Hx; apply nodup_In; auto).
  rewrite (atoms_prob f u v P), (atoms_prob g u v P), (atoms_prob h u v P); auto;
  try (intros x Hx; apply I; rewrite !in_app_iff; auto; fail).
  rewrite <- sumR_plus. apply sumR_ext. intros x _. rewrite M.
  destruct (mass_at f x); destruct (mass_at g x); simpl; lra.
Qed.

(** continuous pieces *)
Lemma prob_plus s t1 t2 u v : isDirac s = false -> isDirac t1 = false -> isDirac t2 = false ->
  wf_seg s -> wf_seg t1 -> wf_seg t2 -> has_int t1 -> has_int t2 ->
  sa t1 = sa s -> sb t1 = sb s -> sa t2 = sa s -> sb t2 = sb s ->
  (forall x, sf s x = sf t1 x + sf t2 x) -> Rbar_le u v ->
  prob s u v = prob t1 u v + prob t2 u v /\ has_int s.
Proof.
  intros D D1 D2 W W1 W2 H1 H2 A1 B1 A2 B2 F UV. pose proof (wf_lt s D W) as L. split.
  - rewrite !prob_Q; auto. rewrite !clamp_cl, A1, B1, A2, B2, <- !clamp_cl.
    destruct (Rbar_le_lt_or_eq_dec _ _ (clamp_mono s u v (Rbar_lt_le _ _ L) UV)) as [K|K].
    + specialize (H1 D1). specialize (H2 D2). rewrite A1, B1 in H1. rewrite A2, B2 in H2.
      rewrite <- Q_plus.
      * apply Q_ext; auto.
      * apply (integrable_sub (sf t1) (sa s) (sb s)); auto; apply clamp_in, Rbar_lt_le; auto.
      * apply (integrable_sub (sf t2) (sa s) (sb s)); auto; apply clamp_in, Rbar_lt_le; auto.
    + rewrite K, !Q_refl. lra.
  - intros _. specialize (H1 D1). specialize (H2 D2). rewrite A1, B1 in H1. rewrite A2, B2 in H2.
    eapply integrable_ext; [|apply (integrable_plus _ _ _ _ H1 H2)]. intros x _. symmetry. apply F.
Qed.

Lemma prob_ext s t u v : isDirac s = false -> isDirac t = false -> wf_seg s -> wf_seg t -> has_int t ->
  sa t = sa s -> sb t = sb s -> (forall x, sf s x = sf t x) -> Rbar_le u v -> prob s u v = prob t u v /\ has_int s.
Proof.
  intros D D1 W W1 H1 A1 B1 F UV. pose proof (wf_lt s D W) as L. split.
  - rewrite !prob_Q; auto. rewrite !clamp_cl, A1, B1, <- !clamp_cl.
    destruct (Rbar_le_lt_or_eq_dec _ _ (clamp_mono s u v (Rbar_lt_le _ _ L) UV)) as [K|K].
    + apply Q_ext; auto.
    + rewrite K, !Q_refl. lra.
  - intros _. specialize (H1 D1). rewrite A1, B1 in H1. eapply integrable_ext; [|exact H1]. intros x _. symmetry. apply F.
Qed.

Lemma pairs_nodup B : StronglySorted Rbar_lt B -> NoDup (pairs_up B).
Proof.
  intros S. induction S as [|a B S IH F]; simpl; [constructor|]. destruct B as [|b B]; [constructor|].
  constructor; auto. intros H. apply pairs_up_In in H; auto. destruct H as (H & _).
  rewrite Forall_forall in F. exact (Rbar_lt_irrefl _ (F a H)).
Qed.

Lemma ordered_ends_nodup l : ordered l -> Forall continuous_piece l -> NoDup (map (fun s => (sa s, sb s)) l).
Proof.
  intros O C. induction O as [|s l O IH F]; simpl; [constructor|]. inversion C; subst. constructor; auto.
  rewrite in_map_iff. intros (t & E & Ht). injection E as E1 E2. rewrite Forall_forall in F. destruct (F t Ht) as (B & _).
  rewrite E1 in B. destruct H1 as (D & W). pose proof (wf_lt s D W) as L.
  exact (Rbar_lt_not_le _ _ L B).
Qed.

Lemma getSegments_ordered l : ordered l -> ordered (getSegments l).
Proof.
  unfold getSegments. induction 1 as [|s l O IH F]; simpl; [constructor|]. destruct (isSegment s); auto. constructor; auto.
  rewrite Forall_forall in *. intros t Ht. apply filter_In in Ht. apply F; tauto.
Qed.

Lemma cont_prob_pairs B l u v : StronglySorted Rbar_lt B -> ordered l -> Forall wf_seg l ->
  (forall s, In s l -> isDirac s = false -> In (sa s, sb s) (pairs_up B)) ->
  pprob (getSegments l) u v = sumR (map (fun ab => ov (fun s => prob s u v) (findSegmentByEnds l (fst ab) (snd ab))) (pairs_up B)).
Proof.
  intros SB O W H. unfold pprob.
  apply (sum_lookup (fun s => (sa s, sb s)) (fun ab => findSegmentByEnds l (fst ab) (snd ab))).
  - apply ordered_ends_nodup; [apply getSegments_ordered; auto|].
    apply Forall_forall. intros s Hs. apply getSegments_cont in Hs. split; [tauto|]. rewrite Forall_forall in W. apply W; tauto.
  - apply pairs_nodup; auto.
  - intros ab Hab. apply in_map_iff in Hab. destruct Hab as (s & <- & Hs). apply getSegments_cont in Hs. apply H; tauto.
  - intros (a & b) s Hab. cbn [fst snd]. apply pairs_up_In in Hab; auto. destruct Hab as (_ & _ & L & _). split.
    + intros E. apply findSegmentByEnds_Some in E. destruct E as (E1 & E2 & E3). split; [|congruence].
      apply getSegments_cont. split; auto. destruct (isDirac s) eqn:D; auto. exfalso. destruct s; try discriminate.
      simpl in E2, E3. subst. exact (Rbar_lt_irrefl _ L).
    + intros (Hs & E). injection E as <- <-. apply getSegments_cont in Hs. apply findSegmentByEnds_hit; tauto.
Qed.

Lemma find_ok l a b t : Forall wf_seg l -> Forall has_int l -> Rbar_lt a b -> findSegmentByEnds l a b = Some t ->
  sa t = a /\ sb t = b /\ isDirac t = false /\ wf_seg t /\ has_int t.
Proof.
  intros W H L E. apply findSegmentByEnds_Some in E. destruct E as (E1 & E2 & E3).
  rewrite Forall_forall in W, H. splits; auto. destruct (isDirac t) eqn:D; auto. exfalso. destruct t; try discriminate.
  simpl in E2, E3. subst. exact (Rbar_lt_irrefl _ L).
Qed.

Lemma op_pieces_prob f g u v : ordered f -> ordered g -> Forall wf_seg f -> Forall wf_seg g ->
  Forall has_int f -> Forall has_int g -> Rbar_le u v ->
  pprob (op_pieces Rplus f g) u v = pprob (getSegments f) u v + pprob (getSegments g) u v /\
  Forall has_int (op_pieces Rplus f g).
Proof.
  intros Of Og Wf Wg Hf Hg UV.
  set (B := np_unique (getBreaks f ++ getBreaks g)).
  pose proof (B_sorted f g) as SB. fold B in SB.
  assert (HF : Forall has_int (getSegments f) /\ Forall wf_seg (getSegments f)).
  { rewrite Forall_forall in Hf, Wf. split; apply Forall_forall; intros s Hs; apply getSegments_cont in Hs; [apply Hf|apply Wf]; tauto. }
  assert (HG : Forall has_int (getSegments g) /\ Forall wf_seg (getSegments g)).
  { rewrite Forall_forall in Hg, Wg. split; apply Forall_forall; intros s Hs; apply getSegments_cont in Hs; [apply Hg|apply Wg]; tauto. }
  destruct (split_all_prob B f u v SB Wf Hf UV) as (_ & Hfs).
  destruct (split_all_prob B g u v SB Wg Hg UV) as (_ & Hgs).
  destruct (fs_ok f g Of Wf) as (Ofs & Wfs). destruct (gs_ok f g Og Wg) as (Ogs & Wgs). fold B in Ofs, Wfs, Ogs, Wgs.
  assert (EF : pprob (getSegments f) u v = sumR (map (fun ab => ov (fun s => prob s u v) (findSegmentByEnds (split_all B f) (fst ab) (snd ab))) (pairs_up B))).
  { rewrite <- (cont_prob_pairs B (split_all B f)); auto.
    - rewrite getSegments_split; auto. symmetry. apply split_all_prob; tauto.
    - intros s Hs D. apply (split_piece_pair f g f 0 s); auto. intros y Hy. apply B_In. auto. }
  assert (EG : pprob (getSegments g) u v = sumR (map (fun ab => ov (fun s => prob s u v) (findSegmentByEnds (split_all B g) (fst ab) (snd ab))) (pairs_up B))).
  { rewrite <- (cont_prob_pairs B (split_all B g)); auto.
    - rewrite getSegments_split; auto. symmetry. apply split_all_prob; tauto.
    - intros s Hs D. apply (split_piece_pair f g g 0 s); auto. intros y Hy. apply B_In. auto. }
  rewrite EF, EG, <- sumR_plus.
  assert (EH : op_pieces Rplus f g = flat_map (piece_of f g Rplus) (pairs_up B)) by (apply (hs_pieces f g Wf Wg Rplus)).
  rewrite EH.
  assert (K : forall ab, In ab (pairs_up B) ->
     pprob (piece_of f g Rplus ab) u v = ov (fun s => prob s u v) (findSegmentByEnds (split_all B f) (fst ab) (snd ab)) +
       ov (fun s => prob s u v) (findSegmentByEnds (split_all B g) (fst ab) (snd ab)) /\ Forall has_int (piece_of f g Rplus ab)).
  { intros (a & b) Hab. cbn [fst snd]. apply pairs_up_In in Hab; auto. destruct Hab as (_ & _ & L & _).
    destruct (piece_of f g Rplus (a, b)) as [|s r] eqn:E.
    - unfold piece_of in E. fold B in E. cbn [fst snd] in E.
      destruct (findSegmentByEnds (split_all B f) a b); destruct (findSegmentByEnds (split_all B g) a b); simpl in E; try discriminate.
      simpl. unfold pprob; simpl. split; [lra|constructor].
    - destruct (piece_of_spec f g Of Og Wf Wg Rplus a b s L) as (S1 & S2 & S3 & S4 & S5); [rewrite E; left; auto|].
      rewrite E in S4. rewrite S4. fold B in S5. unfold piece_of in E. fold B in E. cbn [fst snd] in E.
      assert (G : prob s u v = ov (fun s => prob s u v) (findSegmentByEnds (split_all B f) a b) + ov (fun s => prob s u v) (findSegmentByEnds (split_all B g) a b) /\ has_int s).
      { destruct (findSegmentByEnds (split_all B f) a b) as [t1|] eqn:E1; destruct (findSegmentByEnds (split_all B g) a b) as [t2|] eqn:E2; cbn [ov].
        - destruct (find_ok _ a b t1 Wfs Hfs L E1) as (F1 & F2 & F3 & F4 & F5).
          destruct (find_ok _ a b t2 Wgs Hgs L E2) as (G1 & G2 & G3 & G4 & G5).
          apply prob_plus; auto; try congruence; apply S3.
        - destruct (find_ok _ a b t1 Wfs Hfs L E1) as (F1 & F2 & F3 & F4 & F5). rewrite Rplus_0_r.
          apply prob_ext; auto; try congruence; try apply S3. intros x. rewrite S5. simpl. lra.
        - destruct (find_ok _ a b t2 Wgs Hgs L E2) as (G1 & G2 & G3 & G4 & G5). rewrite Rplus_0_l.
          apply prob_ext; auto; try congruence; try apply S3. intros x. rewrite S5. simpl. lra.
        - simpl in E. discriminate. }
      destruct G as (G & G'). split; [unfold pprob; simpl; rewrite G; lra|constructor; auto]. }
  clear - K. induction (pairs_up B) as [|ab P IH]; simpl; [split; [reflexivity|constructor]|].
  destruct IH as (IH1 & IH2); [intros; apply K; right; auto|]. destruct (K ab (or_introl eq_refl)) as (K1 & K2).
  split; [rewrite pprob_app, K1, IH1; auto|apply Forall_app; auto].
Qed.

(** the probabilities of f + g add up *)
Lemma operation_prob eps f g : 0 <= eps -> good eps f -> good eps g -> cross_sep eps f g ->
  Forall has_int f -> Forall has_int g ->
  exists h, operation eps Rplus f g = Ok h /\ good eps (segs h) /\ Forall has_int (segs h) /\
    forall u v, Rbar_le u v -> pprob (segs h) u v = pprob f u v + pprob g u v.
Proof.
  intros He Gf Gg C Hf Hg. destruct (operation_ok eps Rplus f g He Gf Gg C) as (h & E & G & S & M).
  exists h. splits; auto.
  - destruct (op_pieces_prob f g 0 0) as (_ & H); try apply Gf; try apply Gg; auto using Rbar_le_refl.
    rewrite Forall_forall in *. intros s Hs D. apply H; auto. rewrite <- S. apply getSegments_cont; auto.
  - intros u v UV. destruct (op_pieces_prob f g u v) as (E1 & _); try apply Gf; try apply Gg; auto.
    rewrite (pprob_partition (segs h)), (pprob_partition f), (pprob_partition g), S, E1.
    rewrite (atoms_prob_plus f g (segs h)); auto; try (eapply sep_nodup; eauto; try apply Gf; try apply Gg; try apply G); [lra|..].
    all: eapply sep_nodup; eauto; first [apply Gf|apply Gg|apply G].
Qed.
