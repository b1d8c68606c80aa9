(** Proofs about functions of one variable, part 2: laws of monotone images, with what a following transformation
    needs. *)
From Coq Require Import Reals Lra List Bool Sorted Permutation.
From Coquelicot Require Import Coquelicot.
From Verif Require Import Base Bisect Seg Piecewise PiecewiseSpec PiecewiseFacts PiecewiseFacts2 PiecewiseFacts3 PiecewiseFacts4
  Integral IntegralFacts SegInt SegIntSpec SegIntFacts SubstFacts Transform TransformSpec TransformFacts TransformFacts2
  TransformFacts3 OperationFacts TransformFacts4 TransformFacts5 TransformMain Func FuncSpec FuncFacts.
Import List ListNotations.
Open Scope R_scope.

Lemma full_list eps inc g ginv A B F l l' : inverse_pair inc g ginv A B ->
  ordered l -> Forall wf_seg l -> Forall (within A B) l ->
  Forall2 (fun s t => F s = Ok t /\ image_piece inc g A B s t /\ (forall a m, s = DiracSeg a m -> t = DiracSeg (real (g a)) m) /\ cont_inside t) l l' ->
  image_sep eps g l ->
  exists q, addMap eps F empty_pwf l = Ok q /\ Permutation l' (segs q) /\ smooth eps (segs q) /\ image_law inc g A B l (segs q).
Proof.
  intros IP O W Wi H S.
  assert (H1 : Forall2 (fun s t => F s = Ok t) l l') by (eapply Forall2_imp; [|exact H]; simpl; intros; tauto).
  assert (H2 : Forall2 (image_piece inc g A B) l l') by (eapply Forall2_imp; [|exact H]; simpl; intros; tauto).
  assert (H3 : Forall2 (fun s t => image_piece inc g A B s t /\ forall a m, s = DiracSeg a m -> t = DiracSeg (real (g a)) m) l l')
    by (eapply Forall2_imp; [|exact H]; simpl; intros; tauto).
  assert (D' : dirac_sep eps l') by (apply (image_sep_of eps inc g A B l l' S H3)).
  destruct (list_image eps inc g ginv A B l l' IP O W Wi H2 D') as (q & Q1 & Q2 & Q3 & Q4 & Q5 & Q6).
  assert (PP : Permutation (dirac_pos l') (dirac_pos (segs q))) by (apply Permutation_flat_map; auto).
  exists q. split; [rewrite (addMap_all _ _ l l'); auto|]. split; [exact Q2|]. split.
  - unfold smooth. splits; auto.
    + apply dirac_sep_pos. apply (FOP_perm _ (dirac_pos l')); auto.
      * intros x y. rewrite Rabs_minus_sym. auto.
      * apply dirac_sep_pos; auto.
    + apply (Permutation_Forall Q2). clear - H. induction H; constructor; auto. tauto.
  - split; [|split]; auto.
    + apply (Permutation_Forall Q2). clear - H2 W Wi IP. induction H2 as [|s t l l' I _ IH]; constructor.
      * inversion W as [|? ? W1 W2]; inversion Wi as [|? ? (V1 & V2) V3]; subst.
        destruct I as (_ & _ & _ & E1 & E2 & _). unfold within. rewrite E1, E2.
        pose proof (wf_le s W1) as L. pose proof (g_le inc g ginv A B IP) as GE.
        pose proof (GE A (sa s) (Rbar_le_refl _) V1 (Rbar_le_trans _ _ _ L V2)) as K1.
        pose proof (GE (sb s) B (Rbar_le_trans _ _ _ V1 L) V2 (Rbar_le_refl _)) as K2.
        unfold lo_end, hi_end in *. destruct inc; auto.
      * inversion W; inversion Wi; subst; auto.
    + replace (map (fun a : R => real (g a)) (dirac_pos l)) with (dirac_pos l'); auto.
      clear - H3. induction H3 as [|s t l l' (I & E) _ IH]; auto.
      destruct s as [| | | |a m|]; try (destruct I as (I & _); destruct t; try discriminate I; exact IH).
      rewrite (E a m eq_refl). unfold dirac_pos. simpl. f_equal. exact IH.
Qed.

(** the function of the image piece *)
Lemma probComposition_sf g ginv dginv pole s t : isDirac s = false -> probComposition g ginv dginv pole s = Ok t -> isDirac t = false ->
  forall y, sf t y = prob_comp (sf s) ginv dginv y.
Proof.
  intros D E Dt y.
  assert (E' : probComposition g ginv dginv pole s =
        (let fn := prob_comp (sf s) ginv dginv in
      let ga := g (sa s) in
      let gb := g (sb s) in
      if isinf ga then if blt gb 0 then mk_minf gb fn else mk_pinf gb fn
      else if isinf gb then if blt 0 ga then mk_pinf ga fn else mk_minf ga fn
      else Ok
        (if blt ga gb then
           if (beq ga 0 && pole)%bool then PoleSeg (real ga) (real gb) fn true
           else Seg (real ga) (real gb) fn
         else if beq ga gb then DiracSeg (real ga) (seg_integrate s m_infty p_infty)
         else if (beq gb 0 && pole)%bool then PoleSeg (real gb) (real ga) fn false
         else Seg (real gb) (real ga) fn))) by (destruct s; try discriminate; reflexivity).
  rewrite E' in E. cbv zeta in E. unfold mk_minf, mk_pinf in E.
  repeat match type of E with
  | (match ?x with _ => _ end) = Ok _ => destruct x
  | Ok (if ?x then _ else _) = Ok _ => destruct x
  end; try discriminate; injection E as <-; try discriminate; reflexivity.
Qed.

Lemma comp_cont inc g ginv dginv pole A B s t : inverse_pair inc g ginv A B -> within A B s -> wf_seg s -> cont_inside s ->
  derivative_on ginv dginv (lo_end inc g A B) (hi_end inc g A B) ->
  probComposition g ginv dginv pole s = Ok t -> image_piece inc g A B s t -> cont_inside t.
Proof.
  intros IP (W1 & W2) W C DV E I y Dt (Y1 & Y2).
  destruct I as (ID & _ & _ & E1 & E2 & _). assert (D : isDirac s = false) by congruence.
  pose proof (wf_lt s D W) as L. rewrite E1 in Y1. rewrite E2 in Y2.
  assert (X : betw (sa s) (sb s) (ginv y)).
  { destruct inc.
    - destruct (ip_onto_inc g ginv A B (sa s) (sb s) IP W1 L W2) as (_ & _ & O & _). apply O. split; auto.
    - destruct (ip_onto_dec g ginv A B (sa s) (sb s) IP W1 L W2) as (_ & _ & O & _). apply O. split; auto. }
  destruct (DV y) as (D1 & D2).
  { pose proof (g_le inc g ginv A B IP A (sa s) (Rbar_le_refl _) W1 (Rbar_le_trans _ _ _ (Rbar_lt_le _ _ L) W2)) as K1.
    pose proof (g_le inc g ginv A B IP (sb s) B (Rbar_le_trans _ _ _ W1 (Rbar_lt_le _ _ L)) W2 (Rbar_le_refl _)) as K2.
    unfold lo_end, hi_end in *. destruct inc; split; eauto using Rbar_le_lt_trans, Rbar_lt_le_trans. }
  apply (continuous_ext (prob_comp (sf s) ginv dginv)); [intros x; symmetry; apply (probComposition_sf g ginv dginv pole); auto|].
  unfold prob_comp. apply (continuous_mult (fun x => sf s (ginv x)) (fun x => Rabs (dginv x))).
  - apply (continuous_comp ginv (sf s)); [|apply C; auto]. apply der_cont. eexists; eauto.
  - apply (continuous_comp dginv Rabs); auto. apply continuous_Rabs.
Qed.

Lemma comp_law eps inc g ginv dginv pole A B l : inverse_pair inc g ginv A B ->
  smooth eps l -> Forall (within A B) l ->
  derivative_on ginv dginv (lo_end inc g A B) (hi_end inc g A B) ->
  Forall (ends_ok_split g) l -> image_sep eps g l ->
  exists q, copyComposition eps l g ginv dginv pole = Ok q /\ smooth eps (segs q) /\ image_law inc g A B l (segs q) /\
    image_density g ginv dginv l (segs q).
Proof.
  intros IP (O & W & DS & HI & C) Wi DV EO S. unfold copyComposition.
  assert (S0 : StronglySorted Rbar_lt [Finite 0]) by (constructor; constructor).
  destruct (splitByPoints_ok eps l [Finite 0] S0 O W DS) as (p & E & Es & _). rewrite E. cbn [rbind]. rewrite Es.
  destruct (split_all_ordered [Finite 0] l S0 O W) as (O' & W' & P').
  assert (HI' : Forall has_int (split_all [Finite 0] l)) by (apply (split_all_prob [Finite 0] l 0 0); auto using Rbar_le_refl).
  assert (Wi' : Forall (within A B) (split_all [Finite 0] l)) by (apply split_all_within; auto).
  assert (C' : Forall cont_inside (split_all [Finite 0] l)) by (apply split_all_cont; auto).
  assert (EO' : Forall (fun s => if isDirac s then is_finite (g (sa s)) else ends_ok g (sa s) (sb s)) (split_all [Finite 0] l)).
  { apply Forall_forall. intros t Ht. apply split_all_In in Ht. destruct Ht as (s & Hs & Ht).
    rewrite Forall_forall in EO, W. specialize (EO s Hs). specialize (W s Hs). unfold ends_ok_split in EO.
    destruct (isDirac s) eqn:D.
    + destruct (split_seg_spec [Finite 0] s S0 W) as (_ & _ & _ & H & _). rewrite (H D) in Ht.
      destruct Ht as [<-|[]]. rewrite D. exact EO.
    + pose proof (wf_lt s D W) as L. unfold split_seg in Ht. cbn [filter] in Ht.
      destruct (bltP (sa s) 0) as [L1|L1]; destruct (bltP 0 (sb s)) as [L2|L2]; cbn [andb] in Ht, EO; cbn [split_from In] in Ht.
      * destruct (split_piece_spec s (sa s) 0 (conj D W)) as (F1 & F2 & F3 & _); auto using Rbar_le_refl, Rbar_lt_le.
        destruct (split_piece_spec s 0 (sb s) (conj D W)) as (G1 & G2 & G3 & _); auto using Rbar_le_refl, Rbar_lt_le.
        destruct Ht as [<-|[<-|[]]]; [rewrite F3, F1, F2|rewrite G3, G1, G2]; tauto.
      * destruct (split_piece_spec s (sa s) (sb s) (conj D W)) as (F1 & F2 & F3 & _); auto using Rbar_le_refl.
        destruct Ht as [<-|[]]; rewrite F3, F1, F2; auto.
      * destruct (split_piece_spec s (sa s) (sb s) (conj D W)) as (F1 & F2 & F3 & _); auto using Rbar_le_refl.
        destruct Ht as [<-|[]]; rewrite F3, F1, F2; auto.
      * destruct (split_piece_spec s (sa s) (sb s) (conj D W)) as (F1 & F2 & F3 & _); auto using Rbar_le_refl.
        destruct Ht as [<-|[]]; rewrite F3, F1, F2; auto. }
  assert (X : Forall (fun s => exists t, probComposition g ginv dginv pole s = Ok t /\ image_piece inc g A B s t /\
    (forall a m, s = DiracSeg a m -> t = DiracSeg (real (g a)) m) /\ cont_inside t) (split_all [Finite 0] l)).
  { rewrite Forall_forall in W', Wi', HI', C', EO' |- *. intros s Hs.
    destruct (probComposition_image inc g ginv dginv pole A B s) as (t & T1 & T2 & T3); auto; [exact (EO' s Hs)|].
    exists t. splits; auto. apply (comp_cont inc g ginv dginv pole A B s t); auto. }
  apply Forall_ex2 in X. destruct X as (l' & X).
  destruct (full_list eps inc g ginv A B (probComposition g ginv dginv pole) (split_all [Finite 0] l) l') as (q & Q1 & QP & Q2 & Q3 & Q4 & Q5); auto.
  { apply image_sep_pos. rewrite P'. apply image_sep_pos; auto. }
  exists q. split; [exact Q1|]. split; [exact Q2|]. split.
  - split; auto. split; [rewrite <- P'; auto|].
    intros u v U UV V. rewrite Q5 by auto. apply split_all_prob; auto. apply Rbar_lt_le; auto.
  - intros s x Hs D (X1 & X2) NX. rewrite Forall_forall in W, Wi. specialize (W s Hs). specialize (Wi s Hs).
    assert (exists r, In r (split_all [Finite 0] l) /\ isDirac r = false /\ betw (sa r) (sb r) x /\ sf r = sf s) as (r & Hr & Dr & (R1 & R2) & Er).
    { pose proof (wf_lt s D W) as L.
      assert (SIn : forall r, In r (split_seg [Finite 0] s) -> In r (split_all [Finite 0] l)).
      { intros r Hr. apply in_flat_map. exists s. auto. }
      unfold split_seg in SIn. cbn [filter] in SIn.
      destruct (bltP (sa s) 0) as [L1|L1]; destruct (bltP 0 (sb s)) as [L2|L2]; cbn [andb] in SIn; cbn [split_from In] in SIn.
      * destruct (split_piece_spec s (sa s) 0 (conj D W)) as (F1 & F2 & F3 & F4); auto using Rbar_le_refl, Rbar_lt_le.
        destruct (split_piece_spec s 0 (sb s) (conj D W)) as (G1 & G2 & G3 & G4); auto using Rbar_le_refl, Rbar_lt_le.
        destruct (Rtotal_order x 0) as [H|[H|H]]; [|tauto|].
        -- exists (split_piece s (sa s) 0). splits; auto; [rewrite F1, F2; split; auto|apply F4].
        -- exists (split_piece s 0 (sb s)). splits; auto; [rewrite G1, G2; split; auto|apply G4].
      * destruct (split_piece_spec s (sa s) (sb s) (conj D W)) as (F1 & F2 & F3 & F4); auto using Rbar_le_refl.
        exists (split_piece s (sa s) (sb s)). splits; auto; [rewrite F1, F2; split; auto|apply F4].
      * destruct (split_piece_spec s (sa s) (sb s) (conj D W)) as (F1 & F2 & F3 & F4); auto using Rbar_le_refl.
        exists (split_piece s (sa s) (sb s)). splits; auto; [rewrite F1, F2; split; auto|apply F4].
      * destruct (split_piece_spec s (sa s) (sb s) (conj D W)) as (F1 & F2 & F3 & F4); auto using Rbar_le_refl.
        exists (split_piece s (sa s) (sb s)). splits; auto; [rewrite F1, F2; split; auto|apply F4]. }
    assert (exists t, In t l' /\ probComposition g ginv dginv pole r = Ok t /\ image_piece inc g A B r t) as (t & Ht & T1 & T2).
    { clear - X Hr. induction X as [|r0 t0 l0 l1 H _ IH]; [destruct Hr|]. destruct Hr as [<-|Hr].
      - exists t0. split; [left; auto|]. tauto.
      - destruct (IH Hr) as (t & ? & ?). exists t. split; auto. right; auto. }
    assert (Wr : within A B r) by (rewrite Forall_forall in Wi'; auto).
    assert (Dt : isDirac t = false) by (destruct T2 as (-> & _); auto).
    exists t. split; [apply (Permutation_in t QP); auto|]. split; auto.
    pose proof T2 as (_ & _ & _ & E1 & E2 & _). destruct Wr as (V1 & V2).
    assert (XA : Rbar_le A x) by (apply (Rbar_le_trans _ (sa r)); auto; apply Rbar_lt_le; auto).
    assert (XB : Rbar_le x B) by (apply (Rbar_le_trans _ (sb r)); auto; apply Rbar_lt_le; auto).
    pose proof (g_lt inc g ginv A B IP (sa r) x V1 R1 XB) as K1. pose proof (g_lt inc g ginv A B IP x (sb r) XA R2 V2) as K2.
    destruct IP as (_ & IP2 & _). destruct (IP2 x) as (y & Ey & Ey').
    { split; [apply (Rbar_le_lt_trans _ (sa r))|apply (Rbar_lt_le_trans _ (sb r))]; auto. }
    unfold lo_end, hi_end in K1, K2. rewrite Ey in *. cbn [real]. split.
    + unfold betw. rewrite E1, E2. unfold lo_end, hi_end. destruct inc; split; auto.
    + rewrite (probComposition_sf g ginv dginv pole r t) by auto. rewrite Er. reflexivity.
Qed.

(** shift and scale *)
Lemma affine_cont shift scale s t : scale <> 0 -> wf_seg s -> cont_inside s -> seg_sas shift scale s = Ok t ->
  image_piece (rlt 0 scale) (affine shift scale) m_infty p_infty s t -> cont_inside t.
Proof.
  intros N W C E I y Dt (Y1 & Y2). destruct I as (ID & _ & _ & E1 & E2 & _). assert (D : isDirac s = false) by congruence.
  pose proof (wf_lt s D W) as L. rewrite E1 in Y1. rewrite E2 in Y2.
  assert (IP := affine_ip shift scale N).
  assert (T : forall z, Rbar_le m_infty z /\ Rbar_le z p_infty) by (intros []; simpl; auto).
  assert (X : betw (sa s) (sb s) ((y - shift) * (1 / scale))).
  { destruct (rlt 0 scale).
    - destruct (ip_onto_inc _ _ m_infty p_infty (sa s) (sb s) IP (proj1 (T _)) L (proj2 (T _))) as (_ & _ & O & _). apply O. split; auto.
    - destruct (ip_onto_dec _ _ m_infty p_infty (sa s) (sb s) IP (proj1 (T _)) L (proj2 (T _))) as (_ & _ & O & _). apply O. split; auto. }
  assert (F : (forall y, sf t y = shift_and_scale (sf s) (1 / scale) shift y) \/ exists c, forall y, sf t y = c).
  { unfold seg_sas in E. destruct (reqP scale 0); [tauto|].
    destruct s; try discriminate; injection E as <-; destruct (rlt 0 scale); try (left; intros; reflexivity); right; eexists; intros; reflexivity. }
  destruct F as [F|(c & F)].
  - apply (continuous_ext (shift_and_scale (sf s) (1 / scale) shift)); [intros x; symmetry; apply F|].
    unfold shift_and_scale. apply (continuous_mult (fun _ => Rabs (1 / scale)) (fun x => sf s ((x - shift) * (1 / scale)))); [apply continuous_const|].
    apply (continuous_comp (fun x => (x - shift) * (1 / scale)) (sf s)); [|apply C; auto].
    apply der_cont. auto_derive. auto.
  - apply (continuous_ext (fun _ => c)); [intros; symmetry; apply F|]. apply continuous_const.
Qed.

Lemma affine_law eps shift scale l : scale <> 0 -> smooth eps l -> image_sep eps (affine shift scale) l ->
  exists q, copyShiftedAndScaled eps l shift scale = Ok q /\ smooth eps (segs q) /\
    image_law (rlt 0 scale) (affine shift scale) m_infty p_infty l (segs q).
Proof.
  intros N (O & W & DS & HI & C) S.
  assert (T : forall z, Rbar_le m_infty z /\ Rbar_le z p_infty) by (intros []; simpl; auto).
  assert (F : exists l', Forall2 (fun s t => seg_sas shift scale s = Ok t /\ image_piece (rlt 0 scale) (affine shift scale) m_infty p_infty s t /\
      (forall a m, s = DiracSeg a m -> t = DiracSeg (real (affine shift scale a)) m) /\ cont_inside t) l l').
  { apply Forall_ex2. apply Forall_forall. intros s Hs. rewrite Forall_forall in W, HI, C.
    destruct (shift_scale_piece_main shift scale s N (W s Hs) (HI s Hs)) as (t & T1 & T2 & _). exists t. splits; auto.
    - intros a m ->. simpl in T1. injection T1 as <-. reflexivity.
    - apply (affine_cont shift scale s t); auto. }
  destruct F as (l' & F).
  destruct (full_list eps (rlt 0 scale) (affine shift scale) _ m_infty p_infty (seg_sas shift scale) l l' (affine_ip shift scale N)) as (q & Q); auto.
  - apply Forall_forall. intros s _. split; apply T.
  - exists q. tauto.
Qed.
