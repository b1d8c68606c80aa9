(** Proofs about transformations, part 3: compositions. *)
From Coq Require Import Reals Lra List Bool Sorted Permutation.
From Coquelicot Require Import Coquelicot.
From Verif Require Import Base Bisect Seg Piecewise PiecewiseSpec PiecewiseFacts PiecewiseFacts2 PiecewiseFacts3
  Integral IntegralFacts SegInt SegIntSpec SegIntFacts SubstFacts Transform TransformSpec TransformFacts TransformFacts2.
Import List ListNotations.
Open Scope R_scope.

(** ** atoms under a monotone function *)
Lemma image_dirac inc g ginv A B (a : R) m y : inverse_pair inc g ginv A B ->
  Rbar_le A a -> Rbar_le a B -> g a = Finite y ->
  image_piece inc g A B (DiracSeg a m) (DiracSeg y m).
Proof.
  intros IP A1 A2 E. pose proof (g_lt inc g ginv A B IP) as GL. pose proof (g_le inc g ginv A B IP) as GE.
  split; [reflexivity|]. splits.
  - exact I.
  - intros H; discriminate.
  - unfold lo_end; destruct inc; auto.
  - unfold hi_end; destruct inc; auto.
  - intros u v U L V.
    assert (AV : Rbar_le A v) by (apply (Rbar_le_trans _ u); auto; apply Rbar_lt_le; auto).
    assert (UB : Rbar_le u B) by (apply (Rbar_le_trans _ v); auto; apply Rbar_lt_le; auto).
    assert (K : forall x z, Rbar_le A x -> Rbar_le x B -> Rbar_le A z -> Rbar_le z B ->
       (Rbar_lt x z <-> if inc then Rbar_lt (g x) (g z) else Rbar_lt (g z) (g x))).
    { intros x z X1 X2 Z1 Z2. split.
      - intros H. specialize (GL x z X1 H Z2). unfold lo_end, hi_end in GL. destruct inc; auto.
      - intros H. destruct (Rbar_lt_le_dec x z) as [|H']; auto. exfalso.
        specialize (GE z x Z1 H' X2). unfold lo_end, hi_end in GE.
        destruct inc; [apply (Rbar_lt_irrefl (g x))|apply (Rbar_lt_irrefl (g z))]; eapply Rbar_lt_le_trans; eauto. }
    pose proof (K u a U UB A1 A2) as K1. pose proof (K a v A1 A2 AV V) as K2. rewrite E in K1, K2.
    unfold prob, lo_end, hi_end. destruct inc;
    repeat match goal with |- context [Rbar_lt_dec ?x ?y] => destruct (Rbar_lt_dec x y) end; auto; exfalso; tauto.
Qed.

Lemma probComposition_image inc g ginv dginv pole A B s : inverse_pair inc g ginv A B ->
  within A B s -> wf_seg s -> has_int s -> cont_inside s ->
  derivative_on ginv dginv (lo_end inc g A B) (hi_end inc g A B) ->
  (if isDirac s then is_finite (g (sa s)) else ends_ok g (sa s) (sb s)) ->
  exists t, probComposition g ginv dginv pole s = Ok t /\ image_piece inc g A B s t /\
    (forall a m, s = DiracSeg a m -> t = DiracSeg (real (g a)) m).
Proof.
  intros IP Wi W HI C DV EO. destruct (isDirac s) eqn:D.
  - destruct s as [| | | |a m|]; try discriminate. simpl in EO. unfold is_finite in EO.
    destruct (g a) as [y| |] eqn:E; simpl in EO; try discriminate.
    exists (DiracSeg y m). simpl. rewrite E. splits; auto.
    + apply (image_dirac inc g ginv A B); auto; apply Wi.
    + intros a' m' H. injection H as <- <-. rewrite E. auto.
  - pose proof (wf_lt s D W) as L. destruct (Wi) as (W1 & W2).
    assert (DV' : derivative_on ginv dginv (lo_end inc g (sa s) (sb s)) (hi_end inc g (sa s) (sb s))).
    { intros y (Y1 & Y2). apply DV.
      assert (SB : Rbar_le (sa s) B) by (apply (Rbar_le_trans _ (sb s)); auto; apply Rbar_lt_le; auto).
      assert (SA : Rbar_le A (sb s)) by (apply (Rbar_le_trans _ (sa s)); auto; apply Rbar_lt_le; auto).
      pose proof (g_le inc g ginv A B IP A (sa s) (Rbar_le_refl _) W1 SB) as K1.
      pose proof (g_le inc g ginv A B IP (sb s) B SA W2 (Rbar_le_refl _)) as K2.
      unfold lo_end, hi_end in *. destruct inc; split; eauto using Rbar_le_lt_trans, Rbar_lt_le_trans. }
    pose proof (g_lt inc g ginv A B IP (sa s) (sb s) W1 L W2) as GL.
    assert (T : exists t, probComposition g ginv dginv pole s = Ok t /\ isDirac t = false /\
       sa t = lo_end inc g (sa s) (sb s) /\ sb t = hi_end inc g (sa s) (sb s) /\
       forall y, sf t y = prob_comp (sf s) ginv dginv y).
    { assert (E : probComposition g ginv dginv pole s =
        (let fn := prob_comp (sf s) ginv dginv in
      let ga := g (sa s) in
      let gb := g (sb s) in
      if isinf ga then if blt gb 0 then mk_minf gb fn else mk_pinf gb fn
      else if isinf gb then if blt 0 ga then mk_pinf ga fn else mk_minf ga fn
      else Ok
        (if blt ga gb then
           if (beq ga 0 && pole)%bool then PoleSeg (real ga) (real gb) fn true
           else Seg (real ga) (real gb) fn
         else if beq ga gb then DiracSeg (real ga) (seg_integrate s m_infty p_infty)
         else if (beq gb 0 && pole)%bool then PoleSeg (real gb) (real ga) fn false
         else Seg (real gb) (real ga) fn))) by (destruct s; try discriminate; reflexivity).
      rewrite E. clear E. cbv zeta. destruct EO as (O1 & O2 & O3 & O4).
      unfold lo_end, hi_end in *.
      destruct (g (sa s)) as [x| |]; destruct (g (sb s)) as [y| |]; cbn [isinf].
      - destruct inc.
        + rewrite (proj2 (blt_true x y)) by auto. cbn [real].
          destruct (beq x 0 && pole)%bool; eexists; splits; reflexivity.
        + rewrite (blt_no x y) by (apply Rbar_lt_le; auto). cbn [real].
          destruct (beqP x y) as [H|_]; [rewrite H in GL; now apply Rbar_lt_irrefl in GL|].
          destruct (beq y 0 && pole)%bool; eexists; splits; reflexivity.
      - destruct inc; [|now simpl in GL].
        rewrite (proj2 (blt_true 0 x)) by (apply O3; auto). eexists; splits; reflexivity.
      - destruct inc; [now simpl in GL|].
        rewrite (blt_no 0 x) by (apply O4; auto). eexists; splits; reflexivity.
      - destruct inc; [now simpl in GL|]. rewrite (blt_no y 0) by (apply O2; auto). eexists; splits; reflexivity.
      - destruct inc; now simpl in GL.
      - destruct inc; [now simpl in GL|]. destruct (O2 eq_refl).
      - destruct inc; [|now simpl in GL]. rewrite (proj2 (blt_true y 0)) by (apply O1; auto). eexists; splits; reflexivity.
      - destruct inc; [destruct (O1 eq_refl)|now simpl in GL].
      - destruct inc; now simpl in GL. }
    destruct T as (t & E & Dt & E1 & E2 & F). exists t. splits; auto.
    + apply (image_smooth inc g ginv dginv A B s t); auto.
    + intros a m ->. discriminate.
Qed.

Lemma Forall_ex2 {X Y} (P : X -> Y -> Prop) l : Forall (fun x => exists y, P x y) l -> exists l', Forall2 P l l'.
Proof. induction 1 as [|x l (y & H) _ (l' & IH)]; [exists []; constructor|exists (y :: l'); constructor; auto]. Qed.
Lemma Forall2_imp {X Y} (P Q : X -> Y -> Prop) l l' : (forall x y, P x y -> Q x y) -> Forall2 P l l' -> Forall2 Q l l'.
Proof. intros H. induction 1; constructor; auto. Qed.

Lemma image_sep_of eps inc g A B l l' : image_sep eps g l ->
  Forall2 (fun s t => image_piece inc g A B s t /\ (forall a m, s = DiracSeg a m -> t = DiracSeg (real (g a)) m)) l l' ->
  dirac_sep eps l'.
Proof.
  intros S F. revert S. induction F as [|s t l l' (H & HD) F IH]; intros S; [constructor|].
  inversion S as [|? ? SF S']; subst. constructor; [|apply IH; auto].
  apply Forall_forall. intros t' Ht'.
  destruct t as [| | | |b k|]; auto. destruct t' as [| | | |b' k'|]; auto.
  assert (exists s', In s' l /\ isDirac s' = true /\ (forall a m, s' = DiracSeg a m -> DiracSeg b' k' = DiracSeg (real (g a)) m)) as (s' & Hs' & D' & E').
  { clear -F Ht'. induction F; [destruct Ht'|]. destruct Ht' as [->|Ht'].
    - exists x. split; [left; auto|]. split; [symmetry; apply H|apply H].
    - destruct (IHF Ht') as (s' & ? & ?). exists s'; simpl; auto. }
  destruct s as [| | | |a m|]; try (destruct H as (H & _); discriminate H).
  destruct s' as [| | | |a' m'|]; try discriminate.
  specialize (HD a m eq_refl). specialize (E' a' m' eq_refl). injection HD as -> ->. injection E' as -> ->.
  rewrite Forall_forall in SF. exact (SF _ Hs').
Qed.

Lemma composition_list eps inc g ginv dginv pole A B l : inverse_pair inc g ginv A B ->
  ordered l -> Forall wf_seg l -> Forall (within A B) l -> Forall has_int l -> Forall cont_inside l ->
  derivative_on ginv dginv (lo_end inc g A B) (hi_end inc g A B) ->
  Forall (fun s => if isDirac s then is_finite (g (sa s)) else ends_ok g (sa s) (sb s)) l ->
  image_sep eps g l ->
  exists q, addMap eps (probComposition g ginv dginv pole) empty_pwf l = Ok q /\ ordered (segs q) /\ Forall wf_seg (segs q) /\
    Forall has_int (segs q) /\
    forall u v, Rbar_le A u -> Rbar_lt u v -> Rbar_le v B ->
      pprob (segs q) (lo_end inc g u v) (hi_end inc g u v) = pprob l u v.
Proof.
  intros IP O W Wi HI C DV EO S.
  assert (X : Forall (fun s => exists t, probComposition g ginv dginv pole s = Ok t /\ image_piece inc g A B s t /\
    (forall a m, s = DiracSeg a m -> t = DiracSeg (real (g a)) m)) l).
  { rewrite Forall_forall in W, Wi, HI, C, EO |- *. intros s Hs. apply (probComposition_image inc g ginv dginv pole A B); auto; exact (EO s Hs). }
  apply Forall_ex2 in X. destruct X as (l' & X).
  assert (S' : dirac_sep eps l').
  { apply (image_sep_of eps inc g A B l l' S). eapply Forall2_imp; [|exact X]. simpl. intros; tauto. }
  assert (I2 : Forall2 (image_piece inc g A B) l l') by (eapply Forall2_imp; [|exact X]; simpl; intros; tauto).
  destruct (list_image eps inc g ginv A B l l' IP O W Wi I2 S') as (q & Q1 & _ & Q2 & Q3 & Q4 & Q5).
  exists q. splits; auto. rewrite (addMap_all _ _ l l'); auto. eapply Forall2_imp; [|exact X]; simpl; intros; tauto.
Qed.

(** image_sep only looks at atoms *)
Lemma image_sep_pos eps g l : image_sep eps g l <-> ForallOrdPairs (fun a b => eps < Rabs (real (g (Finite a)) - real (g (Finite b)))) (dirac_pos l).
Proof.
  induction l as [|s l IH]; [split; constructor|].
  assert (K : forall P : R -> Prop, Forall P (dirac_pos l) <-> Forall (fun t => match t with DiracSeg b _ => P b | _ => True end) l).
  { intros P. rewrite !Forall_forall. split.
    - intros H t Ht. destruct t; auto. apply H, dirac_pos_In. eauto.
    - intros H b Hb. apply dirac_pos_In in Hb. destruct Hb as (m & Hm). exact (H _ Hm). }
  assert (T : forall l : list segment, Forall (fun _ => True) l) by (intros l0; apply Forall_forall; auto).
  unfold image_sep in *. destruct s as [| | | |a m|]; unfold dirac_pos; simpl; fold (dirac_pos l);
  try (rewrite <- IH; split; [intros H; inversion H; auto|intros H; constructor; auto]).
  split; intros H; inversion H as [|? ? H1 H2]; subst; constructor; try (apply IH; auto).
  - apply (K (fun b => eps < Rabs (real (g a) - real (g b)))); auto.
  - apply (K (fun b => eps < Rabs (real (g a) - real (g b)))); auto.
Qed.

Lemma copyComposition_law eps inc g ginv dginv pole A B l : inverse_pair inc g ginv A B ->
  ordered l -> Forall wf_seg l -> Forall (within A B) l -> Forall has_int l -> Forall cont_inside l ->
  derivative_on ginv dginv (lo_end inc g A B) (hi_end inc g A B) ->
  Forall (ends_ok_split g) l -> dirac_sep eps l -> image_sep eps g l ->
  exists q, copyComposition eps l g ginv dginv pole = Ok q /\ ordered (segs q) /\ Forall wf_seg (segs q) /\
    Forall has_int (segs q) /\
    forall u v, Rbar_le A u -> Rbar_lt u v -> Rbar_le v B ->
      pprob (segs q) (lo_end inc g u v) (hi_end inc g u v) = pprob l u v.
Proof.
  intros IP O W Wi HI C DV EO DS S. unfold copyComposition.
  assert (S0 : StronglySorted Rbar_lt [Finite 0]) by (constructor; constructor).
  destruct (splitByPoints_ok eps l [Finite 0] S0 O W DS) as (p & E & Es & _). rewrite E. cbn [rbind]. rewrite Es.
  destruct (split_all_ordered [Finite 0] l S0 O W) as (O' & W' & P').
  assert (HI' : Forall has_int (split_all [Finite 0] l)) by (apply (split_all_prob [Finite 0] l 0 0); auto using Rbar_le_refl).
  destruct (composition_list eps inc g ginv dginv pole A B (split_all [Finite 0] l)) as (q & Q1 & Q2 & Q3 & Q4 & Q5); auto.
  - apply split_all_within; auto.
  - apply split_all_cont; auto.
  - apply Forall_forall. intros t Ht. apply split_all_In in Ht. destruct Ht as (s & Hs & Ht).
    rewrite Forall_forall in EO, W. specialize (EO s Hs). specialize (W s Hs). unfold ends_ok_split in EO.
    destruct (isDirac s) eqn:D.
    + destruct (split_seg_spec [Finite 0] s S0 W) as (_ & _ & _ & H & _). rewrite (H D) in Ht.
      destruct Ht as [<-|[]]. rewrite D. exact EO.
    + pose proof (wf_lt s D W) as L. unfold split_seg in Ht. cbn [filter] in Ht.
      destruct (bltP (sa s) 0) as [L1|L1]; destruct (bltP 0 (sb s)) as [L2|L2]; cbn [andb] in Ht, EO; cbn [split_from In] in Ht.
      * destruct (split_piece_spec s (sa s) 0 (conj D W)) as (F1 & F2 & F3 & _); auto using Rbar_le_refl, Rbar_lt_le.
        destruct (split_piece_spec s 0 (sb s) (conj D W)) as (G1 & G2 & G3 & _); auto using Rbar_le_refl, Rbar_lt_le.
        destruct Ht as [<-|[<-|[]]]; [rewrite F3, F1, F2|rewrite G3, G1, G2]; tauto.
      * destruct (split_piece_spec s (sa s) (sb s) (conj D W)) as (F1 & F2 & F3 & _); auto using Rbar_le_refl.
        destruct Ht as [<-|[]]; rewrite F3, F1, F2; auto.
      * destruct (split_piece_spec s (sa s) (sb s) (conj D W)) as (F1 & F2 & F3 & _); auto using Rbar_le_refl.
        destruct Ht as [<-|[]]; rewrite F3, F1, F2; auto.
      * destruct (split_piece_spec s (sa s) (sb s) (conj D W)) as (F1 & F2 & F3 & _); auto using Rbar_le_refl.
        destruct Ht as [<-|[]]; rewrite F3, F1, F2; auto.
  - apply image_sep_pos. rewrite P'. apply image_sep_pos; auto.
  - exists q. splits; auto. intros u v U UV V. rewrite Q5; auto. apply split_all_prob; auto. apply Rbar_lt_le; auto.
Qed.
