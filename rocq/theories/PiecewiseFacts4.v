(** Pointwise operations on piecewise functions. *)
From Coq Require Import Reals Lra Lia List Bool Arith Sorted Permutation.
From Coquelicot Require Import Coquelicot.
From Verif Require Import Base Bisect BisectFacts Seg Piecewise PiecewiseSpec PiecewiseFacts PiecewiseFacts2 PiecewiseFacts3.
Import List ListNotations.
Open Scope R_scope.

(** ** Consecutive pairs of a strictly increasing list *)

Lemma pairs_up_In l a b :
  StronglySorted Rbar_lt l ->
  (In (a, b) (pairs_up l) <->
   In a l /\ In b l /\ Rbar_lt a b /\ (forall y, In y l -> ~ (Rbar_lt a y /\ Rbar_lt y b))).
Proof.
  induction l as [|p l IH]; intros S; [simpl; tauto|].
  apply StronglySorted_inv in S. destruct S as [S F]. specialize (IH S). rewrite Forall_forall in F.
  destruct l as [|q l].
  - simpl. split; [tauto|]. intros ([<-|[]] & [<-|[]] & H & _). exact (Rbar_lt_irrefl _ H).
  - change (pairs_up (p :: q :: l)) with ((p, q) :: pairs_up (q :: l)).
    assert (Hpq : Rbar_lt p q) by (apply F; left; auto).
    assert (Fq : forall y, In y l -> Rbar_lt q y).
    { apply StronglySorted_inv in S. destruct S as [_ Fq]. rewrite Forall_forall in Fq. auto. }
    cbn [In]. split.
    + intros [E|H].
      * injection E as <- <-. splits; auto.
        intros y [<-|[<-|Hy]] [L1 L2].
        -- exact (Rbar_lt_irrefl _ L1).
        -- exact (Rbar_lt_irrefl _ L2).
        -- exact (Rbar_lt_irrefl _ (Rbar_lt_trans _ _ _ L2 (Fq y Hy))).
      * apply IH in H. destruct H as (H1 & H2 & H3 & H4). cbn [In] in H1, H2. splits; auto.
        intros y [<-|Hy] [L1 L2]; [|apply (H4 y); [exact Hy|split; auto]].
        exact (Rbar_lt_irrefl _ (Rbar_lt_trans _ _ _ L1 (F a H1))).
    + intros (Ha & Hb & Hab & N).
      destruct Hb as [<-|Hb].
      { exfalso. destruct Ha as [<-|Ha]; [exact (Rbar_lt_irrefl _ Hab)|].
        exact (Rbar_lt_irrefl _ (Rbar_lt_trans _ _ _ Hab (F a Ha))). }
      destruct Ha as [<-|Ha].
      * left. destruct Hb as [<-|Hb]; auto.
        exfalso. apply (N q); [right; left; auto|]. split; auto.
      * right. apply IH. splits; auto.
Qed.

Lemma pairs_up_sorted l :
  StronglySorted Rbar_lt l -> StronglySorted (fun p q => Rbar_le (snd p) (fst q)) (pairs_up l).
Proof.
  induction l as [|p l IH]; intros S; [constructor|].
  destruct l as [|q l]; [constructor|].
  change (pairs_up (p :: q :: l)) with ((p, q) :: pairs_up (q :: l)).
  apply StronglySorted_inv in S. destruct S as [S F].
  constructor; auto. apply Forall_forall. intros [a b] H.
  apply pairs_up_In in H; auto. destruct H as (Ha & _). simpl.
  destruct Ha as [<-|Ha]; [apply Rbar_le_refl|].
  apply StronglySorted_inv in S. destruct S as [_ Fq]. rewrite Forall_forall in Fq.
  apply Rbar_lt_le; auto.
Qed.

(** ** Lookup by ends *)

Lemma findSegmentByEnds_Some l a b s :
  findSegmentByEnds l a b = Some s -> In s l /\ sa s = a /\ sb s = b.
Proof.
  unfold findSegmentByEnds. intros H. apply find_some in H. destruct H as [H1 H2]. b2p. auto.
Qed.

Lemma findSegmentByEnds_None l a b s :
  findSegmentByEnds l a b = None -> In s l -> ~ (sa s = a /\ sb s = b).
Proof.
  unfold findSegmentByEnds. intros H Hs [E1 E2]. apply find_none with (x := s) in H; auto.
  rewrite E1, E2, !beq_refl in H. discriminate.
Qed.

Lemma findSegmentByEnds_hit l s :
  ordered l -> Forall wf_seg l -> In s l -> isDirac s = false ->
  findSegmentByEnds l (sa s) (sb s) = Some s.
Proof.
  intros O W Hs D. destruct (findSegmentByEnds l (sa s) (sb s)) as [t|] eqn:E.
  - apply findSegmentByEnds_Some in E. destruct E as (Ht & E1 & E2). f_equal.
    assert (L : Rbar_lt (sa s) (sb s)).
    { apply cont_lt. split; auto. rewrite Forall_forall in W; auto. }
    clear D. revert Hs Ht. induction l as [|u l IH]; [intros []|].
    apply StronglySorted_inv in O. destruct O as [O F]. inversion W as [|? ? Wu Wl]; subst.
    rewrite Forall_forall in F.
    intros [<-|Hs] [<-|Ht]; auto; exfalso.
    + destruct (F t Ht) as [B _]. rewrite E1 in B. apply (Rbar_lt_not_le _ _ L B).
    + destruct (F s Hs) as [B _]. rewrite E2 in B. apply (Rbar_lt_not_le _ _ L B).
  - exfalso. eapply findSegmentByEnds_None; eauto.
Qed.

(** ** The common refinement *)

Section Op.
Variables (f g : list segment).
Hypothesis Of : ordered f.
Hypothesis Og : ordered g.
Hypothesis Wf : Forall wf_seg f.
Hypothesis Wg : Forall wf_seg g.

Let B := np_unique (getBreaks f ++ getBreaks g).

Lemma B_sorted : StronglySorted Rbar_lt B.
Proof. apply np_unique_sorted. Qed.

Lemma B_In y : In y B <-> In y (getBreaks f) \/ In y (getBreaks g).
Proof. unfold B. rewrite np_unique_In, in_app_iff. reflexivity. Qed.

Lemma common_breaks :
  np_unique (getBreaks (split_all B f) ++ getBreaks (split_all B g)) = B.
Proof.
  apply sorted_ext; auto using np_unique_sorted, B_sorted.
  intros y. rewrite np_unique_In, in_app_iff, !split_breaks_In by auto using B_sorted.
  rewrite B_In. split.
  - intros [[H|[H _]]|[H|[H _]]]; auto; apply B_In in H; auto.
  - intros [H|H]; auto.
Qed.

Variable op : R -> R -> R.

Let fs := split_all B f.
Let gs := split_all B g.
Let hs := flat_map (op_segment op) (makeCommonSegmentList fs gs).

Lemma fs_ok : ordered fs /\ Forall wf_seg fs.
Proof. destruct (split_all_ordered B f B_sorted Of Wf) as (A1 & A2 & _); auto. Qed.
Lemma gs_ok : ordered gs /\ Forall wf_seg gs.
Proof. destruct (split_all_ordered B g B_sorted Og Wg) as (A1 & A2 & _); auto. Qed.

Definition piece_of (ab : Rbar * Rbar) : list segment :=
  op_segment op (findSegmentByEnds fs (fst ab) (snd ab), findSegmentByEnds gs (fst ab) (snd ab)).

Lemma hs_pieces : hs = flat_map piece_of (pairs_up B).
Proof.
  unfold hs, makeCommonSegmentList. fold fs gs.
  replace (np_unique (getBreaks fs ++ getBreaks gs)) with B by (symmetry; apply common_breaks).
  induction (pairs_up B) as [|ab l IH]; simpl; auto. rewrite IH. reflexivity.
Qed.

Lemma remake_spec s F : isDirac s = false -> wf_seg s ->
  sa (remake s F) = sa s /\ sb (remake s F) = sb s /\ isDirac (remake s F) = false /\
  wf_seg (remake s F) /\ (forall x, sf (remake s F) x = F x).
Proof. destruct s; simpl; intros D W; try discriminate D; splits; auto. Qed.

Lemma piece_of_spec a b s : Rbar_lt a b -> In s (piece_of (a, b)) ->
  sa s = a /\ sb s = b /\ continuous_piece s /\
  piece_of (a, b) = [s] /\
  (forall x, sf s x = make_segfun op (findSegmentByEnds fs a b) (findSegmentByEnds gs a b) x).
Proof.
  intros L. unfold piece_of, op_segment; cbn [fst snd].
  assert (K : forall l t, Forall wf_seg l -> findSegmentByEnds l a b = Some t ->
            sa t = a /\ sb t = b /\ isDirac t = false /\ wf_seg t).
  { intros l t W E. apply findSegmentByEnds_Some in E. destruct E as (H1 & H2 & H3).
    splits; auto; [|rewrite Forall_forall in W; auto].
    destruct (isDirac t) eqn:D; auto. exfalso. destruct t; try discriminate D.
    simpl in H2, H3. rewrite <- H2, <- H3 in L. exact (Rbar_lt_irrefl _ L). }
  destruct (findSegmentByEnds fs a b) as [t|] eqn:E1; destruct (findSegmentByEnds gs a b) as [u|] eqn:E2;
  simpl; intros H; try contradiction; destruct H as [<-|[]].
  - destruct (K _ _ (proj2 fs_ok) E1) as (H1 & H2 & H3 & H4).
    destruct (remake_spec t (make_segfun op (Some t) (Some u)) H3 H4) as (R1 & R2 & R3 & R4 & R5).
    splits; auto; try congruence; split; auto.
  - destruct (K _ _ (proj2 fs_ok) E1) as (H1 & H2 & H3 & H4).
    destruct (remake_spec t (make_segfun op (Some t) None) H3 H4) as (R1 & R2 & R3 & R4 & R5).
    splits; auto; try congruence; split; auto.
  - destruct (K _ _ (proj2 gs_ok) E2) as (H1 & H2 & H3 & H4).
    destruct (remake_spec u (make_segfun op None (Some u)) H3 H4) as (R1 & R2 & R3 & R4 & R5).
    splits; auto; try congruence; split; auto.
Qed.

Lemma hs_In s : In s hs <-> exists a b, In (a, b) (pairs_up B) /\ In s (piece_of (a, b)).
Proof.
  rewrite hs_pieces, in_flat_map. split.
  - intros ([a b] & H). eauto.
  - intros (a & b & H). exists (a, b); auto.
Qed.

Lemma hs_cont : Forall continuous_piece hs.
Proof.
  apply Forall_forall. intros s Hs. apply hs_In in Hs. destruct Hs as (a & b & Hab & Hs).
  apply pairs_up_In in Hab; [|apply B_sorted]. destruct Hab as (_ & _ & L & _).
  apply (piece_of_spec a b s L Hs).
Qed.

Lemma hs_ordered : ordered hs.
Proof.
  rewrite hs_pieces. pose proof (pairs_up_sorted B B_sorted) as S.
  assert (L : forall a b, In (a, b) (pairs_up B) -> Rbar_lt a b).
  { intros a b H. apply pairs_up_In in H; [tauto|apply B_sorted]. }
  induction (pairs_up B) as [|[a b] l IH]; simpl; [constructor|].
  apply StronglySorted_inv in S. destruct S as [S F]. rewrite Forall_forall in F.
  apply SS_app. splits.
  - destruct (piece_of (a, b)) as [|s [|t r]] eqn:E; [constructor|repeat constructor|].
    exfalso. destruct (piece_of_spec a b s) as (_ & _ & _ & E2 & _); [apply L; left; auto|rewrite E; left; auto|].
    congruence.
  - apply IH; auto. intros; apply L; right; auto.
  - intros s t Hs Ht. apply in_flat_map in Ht. destruct Ht as ([c d] & Hcd & Ht).
    destruct (piece_of_spec a b s) as (A1 & A2 & _); [apply L; left; auto|auto|].
    destruct (piece_of_spec c d t) as (B1 & B2 & _); [apply L; right; auto|auto|].
    pose proof (F _ Hcd) as Q. simpl in Q.
    pose proof (L a b (or_introl eq_refl)) as L1. pose proof (L c d (or_intror Hcd)) as L2.
    split; [rewrite A2, B1; auto|]. rewrite A1, B2. intros E. subst d.
    apply (Rbar_lt_irrefl b). apply (Rbar_le_lt_trans _ c); auto. apply (Rbar_lt_trans _ a); auto. rewrite E; exact L2.
Qed.

(** a piece of a split function that contains x away from the breakpoints sits exactly on a pair *)
Lemma split_piece_pair l (x : R) s :
  ordered l -> Forall wf_seg l -> (forall y, In y (getBreaks l) -> In y B) ->
  In s (split_all B l) -> isDirac s = false -> In (sa s, sb s) (pairs_up B).
Proof.
  intros Ol Wl Hin Hs D. apply pairs_up_In; [apply B_sorted|].
  destruct (split_all_ordered B l B_sorted Ol Wl) as (A1 & A2 & _).
  assert (E : forall y, In y (getBreaks (split_all B l)) -> In y B).
  { intros y Hy. apply split_breaks_In in Hy; auto using B_sorted. destruct Hy as [Hy|[Hy _]]; auto. }
  splits.
  - apply E. apply getBreaks_In. eauto.
  - apply E. apply getBreaks_In. eauto.
  - apply cont_lt. split; auto. rewrite Forall_forall in A2; auto.
  - intros y Hy. apply (split_no_inside B l s y B_sorted Wl Hs Hy).
Qed.

End Op.

(** value away from breakpoints *)
Definition open_value (l : list segment) (x v : R) : Prop :=
  (exists s, In s l /\ isDirac s = false /\ covers s x /\ v = sf s x) \/
  ((forall s, In s l -> isDirac s = false -> ~ covers s x) /\ v = 0).

Lemma call_vec_open l (x : R) :
  ordered l -> Forall wf_seg l -> ~ In (Finite x) (getBreaks l) -> open_value l x (call_vec l x).
Proof.
  intros O W N. destruct (call_vec_value l x O W) as [(s & H1 & H2 & H3 & H4)|(H1 & H2)].
  - apply getSegments_cont in H1. left. exists s. splits; try tauto; auto.
  - right. split.
    + intros s Hs D. apply H1; auto. apply getSegments_cont; auto.
    + destruct H2 as [(s & l' & E & D & Q & _)|[_ H2]]; auto.
      exfalso. apply N. apply getBreaks_In. exists s. split; auto.
      assert (In s (getSegments l)) by (rewrite E; apply in_or_app; simpl; auto).
      apply getSegments_cont in H. tauto.
Qed.

Lemma open_value_call_vec l (x v : R) :
  ordered l -> Forall wf_seg l -> ~ In (Finite x) (getBreaks l) -> open_value l x v -> call_vec l x = v.
Proof.
  intros O W N H. destruct (call_vec_open l x O W N) as [(s & H1 & H2 & H3 & H4)|(H1 & H2)];
  destruct H as [(t & K1 & K2 & K3 & K4)|(K1 & K2)].
  - rewrite H4, K4. rewrite (ordered_cover_unique l s t x); auto.
  - exfalso; apply (K1 s); auto.
  - exfalso; apply (H1 t); auto.
  - congruence.
Qed.

Lemma split_open pts l (x : R) v :
  StronglySorted Rbar_lt pts -> Forall wf_seg l ->
  open_value l x v -> open_value (split_all pts l) x v.
Proof.
  intros S W. rewrite Forall_forall in W. intros [(s & H1 & H2 & H3 & H4)|(H1 & H2)].
  - left. destruct (split_seg_spec pts s S (W _ H1)) as (P1 & _ & _ & _ & P5 & _).
    destruct (proj1 (P5 H2 x) H3) as (u & Hu & Cu).
    rewrite Forall_forall in P1. destruct (P1 u Hu) as (_ & Du & Fu & _).
    exists u. splits; auto; [apply split_all_In; eauto|congruence|rewrite Fu; auto].
  - right. split; auto. intros u Hu Du Cu. apply split_all_In in Hu. destruct Hu as (s & Hs & Hu).
    destruct (split_seg_spec pts s S (W _ Hs)) as (P1 & _ & _ & _ & P5 & _).
    rewrite Forall_forall in P1. destruct (P1 u Hu) as (_ & Du' & _).
    apply (H1 s Hs); [congruence|]. apply P5; [congruence|eauto].
Qed.

(** ** Pointwise value of the continuous part of an operation *)

Definition op_pieces (op : R -> R -> R) (f g : list segment) : list segment :=
  let B := np_unique (getBreaks f ++ getBreaks g) in
  flat_map (op_segment op) (makeCommonSegmentList (split_all B f) (split_all B g)).

Lemma op_pieces_value op f g (x : R) u v :
  ordered f -> ordered g -> Forall wf_seg f -> Forall wf_seg g -> op 0 0 = 0 ->
  ~ In (Finite x) (getBreaks f) -> ~ In (Finite x) (getBreaks g) ->
  open_value f x u -> open_value g x v ->
  open_value (op_pieces op f g) x (op u v).
Proof.
  intros Of Og Wf Wg H00 Nf Ng Vf Vg.
  set (B := np_unique (getBreaks f ++ getBreaks g)).
  pose proof (B_sorted f g) as SB. fold B in SB.
  assert (HBf : forall y, In y (getBreaks f) -> In y B).
  { intros y Hy. apply (B_In f g). auto. }
  assert (HBg : forall y, In y (getBreaks g) -> In y B).
  { intros y Hy. apply (B_In f g). auto. }
  pose proof (split_open B f x u SB Wf Vf) as Vf'.
  pose proof (split_open B g x v SB Wg Vg) as Vg'.
  destruct (fs_ok f g Of Wf) as [Ofs Wfs]. destruct (gs_ok f g Og Wg) as [Ogs Wgs].
  fold B in Ofs, Wfs, Ogs, Wgs.
  set (fs := split_all B f) in *. set (gs := split_all B g) in *.
  (* what the lookup by ends returns on the pair containing x *)
  assert (KF : forall a b, In (a, b) (pairs_up B) -> Rbar_le a x -> Rbar_lt x b ->
     match findSegmentByEnds fs a b with Some s => u = sf s x | None => u = 0 end).
  { intros a b Hab La Lb. pose proof Hab as Hab'. apply pairs_up_In in Hab; auto.
    destruct Hab as (Ia & Ib & L & N).
    destruct (findSegmentByEnds fs a b) as [s|] eqn:E.
    - apply findSegmentByEnds_Some in E. destruct E as (Hs & E1 & E2).
      assert (Cs : covers s x) by (split; [rewrite E1|rewrite E2]; auto).
      assert (Ds : isDirac s = false).
      { destruct (isDirac s) eqn:D; auto. destruct s; try discriminate D. simpl in E1, E2.
        rewrite <- E1, <- E2 in L. destruct (Rbar_lt_irrefl _ L). }
      destruct Vf' as [(t & K1 & K2 & K3 & ->)|(K1 & _)].
      + rewrite (ordered_cover_unique fs s t x); auto.
      + exfalso; apply (K1 s); auto.
    - destruct Vf' as [(t & K1 & K2 & K3 & ->)|(_ & ->)]; auto.
      exfalso. assert (P : In (sa t, sb t) (pairs_up B)).
      { apply (split_piece_pair f g f x t); auto. }
      apply pairs_up_In in P; auto. destruct P as (P1 & P2 & P3 & P4).
      destruct K3 as [C1 C2].
      assert (sa t = a).
      { destruct (Rbar_total_order (sa t) a) as [[Q|Q]|Q]; auto; exfalso.
        - apply (P4 a Ia). split; auto. exact (Rbar_le_lt_trans _ _ _ La C2).
        - apply (N (sa t) P1). split; auto. exact (Rbar_le_lt_trans _ _ _ C1 Lb). }
      assert (sb t = b).
      { destruct (Rbar_total_order (sb t) b) as [[Q|Q]|Q]; auto; exfalso.
        - apply (N (sb t) P2). split; auto. exact (Rbar_le_lt_trans _ _ _ La C2).
        - apply (P4 b Ib). split; auto. exact (Rbar_le_lt_trans _ _ _ C1 Lb). }
      apply (findSegmentByEnds_None fs a b t E K1); auto. }
  assert (KG : forall a b, In (a, b) (pairs_up B) -> Rbar_le a x -> Rbar_lt x b ->
     match findSegmentByEnds gs a b with Some s => v = sf s x | None => v = 0 end).
  { intros a b Hab La Lb. pose proof Hab as Hab'. apply pairs_up_In in Hab; auto.
    destruct Hab as (Ia & Ib & L & N).
    destruct (findSegmentByEnds gs a b) as [s|] eqn:E.
    - apply findSegmentByEnds_Some in E. destruct E as (Hs & E1 & E2).
      assert (Cs : covers s x) by (split; [rewrite E1|rewrite E2]; auto).
      assert (Ds : isDirac s = false).
      { destruct (isDirac s) eqn:D; auto. destruct s; try discriminate D. simpl in E1, E2.
        rewrite <- E1, <- E2 in L. destruct (Rbar_lt_irrefl _ L). }
      destruct Vg' as [(t & K1 & K2 & K3 & ->)|(K1 & _)].
      + rewrite (ordered_cover_unique gs s t x); auto.
      + exfalso; apply (K1 s); auto.
    - destruct Vg' as [(t & K1 & K2 & K3 & ->)|(_ & ->)]; auto.
      exfalso. assert (P : In (sa t, sb t) (pairs_up B)).
      { apply (split_piece_pair f g g x t); auto. }
      apply pairs_up_In in P; auto. destruct P as (P1 & P2 & P3 & P4).
      destruct K3 as [C1 C2].
      assert (sa t = a).
      { destruct (Rbar_total_order (sa t) a) as [[Q|Q]|Q]; auto; exfalso.
        - apply (P4 a Ia). split; auto. exact (Rbar_le_lt_trans _ _ _ La C2).
        - apply (N (sa t) P1). split; auto. exact (Rbar_le_lt_trans _ _ _ C1 Lb). }
      assert (sb t = b).
      { destruct (Rbar_total_order (sb t) b) as [[Q|Q]|Q]; auto; exfalso.
        - apply (N (sb t) P2). split; auto. exact (Rbar_le_lt_trans _ _ _ La C2).
        - apply (P4 b Ib). split; auto. exact (Rbar_le_lt_trans _ _ _ C1 Lb). }
      apply (findSegmentByEnds_None gs a b t E K1); auto. }
  (* is x covered by a pair carrying a piece? *)
  assert (Dec : (exists s, In s (op_pieces op f g) /\ covers s x) \/
                (forall s, In s (op_pieces op f g) -> ~ covers s x)).
  { clear. induction (op_pieces op f g) as [|s ss IH]; [right; intros s []|].
    destruct IH as [(t & H1 & H2)|H]; [left; exists t; simpl; auto|].
    destruct (Rbar_le_dec (sa s) x); destruct (Rbar_lt_dec x (sb s));
    try (left; exists s; simpl; unfold covers; auto; fail);
    right; intros t [<-|Ht]; auto; unfold covers; tauto. }
  destruct Dec as [(s & Hs & Cs)|NC].
  - left. pose proof Hs as Hs'. apply (hs_In f g Wf Wg op) in Hs. destruct Hs as (a & b & Hab & Hs).
    fold B in Hab.
    assert (Hab' := Hab). apply pairs_up_In in Hab; auto. destruct Hab as (Ia & Ib & L & N).
    destruct (piece_of_spec f g Of Og Wf Wg op a b s L Hs) as (E1 & E2 & C3 & E4 & E5).
    fold B fs gs in E5.
    exists s. splits; auto; [apply C3|]. rewrite E5.
    destruct Cs as [C1 C2]. rewrite E1 in C1; rewrite E2 in C2.
    specialize (KF a b Hab' C1 C2). specialize (KG a b Hab' C1 C2).
    unfold piece_of in E4. fold B fs gs in E4. cbn [fst snd] in E4.
    destruct (findSegmentByEnds fs a b) as [t1|]; destruct (findSegmentByEnds gs a b) as [t2|]; subst; auto.
  - right. split; auto.
    destruct Vf' as [(t & K1 & K2 & K3 & E)|(_ & ->)].
    + exfalso. assert (P : In (sa t, sb t) (pairs_up B)) by (apply (split_piece_pair f g f x t); auto).
      assert (HF := findSegmentByEnds_hit fs t Ofs Wfs K1 K2).
      assert (P' := P). apply pairs_up_In in P; auto. destruct P as (_ & _ & L & _).
      destruct (piece_of f g op (sa t, sb t)) as [|s r] eqn:Q.
      * unfold piece_of in Q. fold B fs gs in Q. cbn [fst snd] in Q. rewrite HF in Q. simpl in Q. discriminate.
      * assert (Hs : In s (piece_of f g op (sa t, sb t))) by (rewrite Q; left; auto).
        destruct (piece_of_spec f g Of Og Wf Wg op (sa t) (sb t) s L Hs) as (E1 & E2 & _).
        apply (NC s); [apply (hs_In f g Wf Wg op); eauto|].
        destruct K3. split; [rewrite E1|rewrite E2]; auto.
    + destruct Vg' as [(t & K1 & K2 & K3 & E)|(_ & ->)]; auto.
      exfalso. assert (P : In (sa t, sb t) (pairs_up B)) by (apply (split_piece_pair f g g x t); auto).
      assert (HG := findSegmentByEnds_hit gs t Ogs Wgs K1 K2).
      assert (P' := P). apply pairs_up_In in P; auto. destruct P as (_ & _ & L & _).
      destruct (piece_of f g op (sa t, sb t)) as [|s r] eqn:Q.
      * unfold piece_of in Q. fold B fs gs in Q. cbn [fst snd] in Q. rewrite HG in Q.
        destruct (findSegmentByEnds fs (sa t) (sb t)); simpl in Q; discriminate.
      * assert (Hs : In s (piece_of f g op (sa t, sb t))) by (rewrite Q; left; auto).
        destruct (piece_of_spec f g Of Og Wf Wg op (sa t) (sb t) s L Hs) as (E1 & E2 & _).
        apply (NC s); [apply (hs_In f g Wf Wg op); eauto|].
        destruct K3. split; [rewrite E1|rewrite E2]; auto.
Qed.

(** ** Atoms *)

Lemma getDirac_Some l (x : R) s : getDirac l x = Some s -> exists m, s = DiracSeg x m /\ In (DiracSeg x m) l.
Proof.
  unfold getDirac. intros H. apply find_some in H. destruct H as [H1 H2]. b2p.
  destruct s as [| | | |a m|]; try discriminate. simpl in H0. injection H0 as ->. eauto.
Qed.

Lemma getDirac_None l (x : R) : getDirac l x = None -> ~ In x (dirac_pos l).
Proof.
  intros H C. apply dirac_pos_In in C. destruct C as (m & C).
  unfold getDirac in H. apply find_none with (x := DiracSeg x m) in H; auto.
  simpl in H. rewrite beq_refl in H. discriminate.
Qed.

(** at most one atom per position *)
Definition atoms_nodup (l : list segment) : Prop := NoDup (dirac_pos l).

Lemma sep_nodup eps l : 0 <= eps -> dirac_sep eps l -> atoms_nodup l.
Proof.
  intros He. rewrite dirac_sep_pos. unfold atoms_nodup.
  induction (dirac_pos l) as [|a r IH]; intros H; [constructor|].
  inversion H as [|? ? F H']; subst. constructor; auto.
  intros C. rewrite Forall_forall in F. specialize (F a C).
  replace (a - a) with 0 in F by lra. rewrite Rabs_R0 in F. lra.
Qed.

Lemma atoms_unique l (x m m' : R) :
  atoms_nodup l -> In (DiracSeg x m) l -> In (DiracSeg x m') l -> m = m'.
Proof.
  unfold atoms_nodup. induction l as [|s l IH]; [intros _ []|].
  intros N [->|H1] [E2|H2].
  - congruence.
  - exfalso. simpl in N. inversion N as [|? ? N1 N2]; subst. apply N1. apply dirac_pos_In; eauto.
  - exfalso. subst s. simpl in N. inversion N as [|? ? N1 N2]; subst. apply N1. apply dirac_pos_In; eauto.
  - apply IH; auto. destruct s; simpl in N; auto. inversion N; auto.
Qed.

Lemma getDirac_hit l (x m : R) : atoms_nodup l -> In (DiracSeg x m) l -> getDirac l x = Some (DiracSeg x m).
Proof.
  intros N H. destruct (getDirac l x) as [s|] eqn:E.
  - apply getDirac_Some in E. destruct E as (k & -> & H'). rewrite (atoms_unique l x m k); auto.
  - apply getDirac_None in E. exfalso. apply E. apply dirac_pos_In; eauto.
Qed.

Lemma set_dirac_props x m l :
  map (fun s => (sa s, sb s)) (set_dirac x m l) = map (fun s => (sa s, sb s)) l /\
  getSegments (set_dirac x m l) = getSegments l /\ dirac_pos (set_dirac x m l) = dirac_pos l /\
  (forall s, In s (set_dirac x m l) -> wf_seg s \/ In s l) /\
  (forall y k, y <> x -> In (DiracSeg y k) (set_dirac x m l) <-> In (DiracSeg y k) l) /\
  (atoms_nodup l -> In x (dirac_pos l) -> forall k, In (DiracSeg x k) (set_dirac x m l) <-> k = m).
Proof.
  induction l as [|s l IH]; simpl.
  - splits; auto; try tauto; try (intros s []).
  - destruct IH as (I1 & I2 & I3 & I4 & I5 & I6).
    destruct s as [| | | |a k0|]; simpl in *; unfold getSegments in *; simpl;
    rewrite ?I1, ?I2, ?I3;
    try (splits; auto;
      [ intros s [<-|Hs]; [auto|destruct (I4 s Hs); auto]
      | intros y k Hy; rewrite I5 by auto; intuition discriminate
      | intros N Hx k; specialize (I6 N Hx k); rewrite <- I6; intuition discriminate ]; fail).
    destruct (reqP a x) as [->|Na]; simpl.
    + splits; auto.
      * intros s [<-|Hs]; [left; exact I|auto].
      * intros y k Hy. split; intros [E|H]; auto; injection E as E1 E2; congruence.
      * intros N _ k. unfold atoms_nodup in N. simpl in N. inversion N as [|? ? N1 N2]; subst. split.
        -- intros [E|H]; [congruence|]. exfalso. apply N1. apply dirac_pos_In; eauto.
        -- intros ->; auto.
    + rewrite I1, I2, I3. splits; auto.
      * intros s [<-|Hs]; [left; exact I|destruct (I4 s Hs); auto].
      * intros y k Hy. rewrite I5 by auto. reflexivity.
      * intros N [E|Hx] k; [congruence|].
        unfold atoms_nodup in N. simpl in N. inversion N as [|? ? N1 N2]; subst.
        rewrite <- (I6 N2 Hx k). split; [intros [E|H]; [congruence|auto]|auto].
Qed.

Lemma ordered_ends l l' :
  map (fun s => (sa s, sb s)) l' = map (fun s => (sa s, sb s)) l -> ordered l -> ordered l'.
Proof.
  revert l'; induction l as [|s l IH]; intros [|t l'] E O; try discriminate; [constructor|].
  simpl in E. injection E as E1 E2 E3.
  apply StronglySorted_inv in O. destruct O as [O F].
  constructor; [apply IH; auto|].
  apply Forall_forall. intros u Hu. rewrite Forall_forall in F.
  apply (in_map (fun s => (sa s, sb s))) in Hu. rewrite E3 in Hu. apply in_map_iff in Hu.
  destruct Hu as (v & Ev & Hv). injection Ev as E4 E5.
  destruct (F v Hv). split; [rewrite E2, <- E4|rewrite E1, <- E5]; auto.
Qed.

(** state of the result while atoms are merged in *)
Definition good (eps : R) (p : list segment) : Prop :=
  ordered p /\ Forall wf_seg p /\ dirac_sep eps p.

Lemma dirac_sep_iff eps l : 0 <= eps ->
  (dirac_sep eps l <-> (atoms_nodup l /\ forall a b, In a (dirac_pos l) -> In b (dirac_pos l) -> a <> b -> eps < Rabs (a - b))).
Proof.
  intros He. rewrite dirac_sep_pos. unfold atoms_nodup.
  induction (dirac_pos l) as [|a r IH].
  - split; [intros _; split; [constructor|intros a b []]|constructor].
  - split.
    + intros H. inversion H as [|? ? F H']; subst. apply IH in H'. destruct H' as [N Q].
      rewrite Forall_forall in F. split.
      * constructor; auto. intros C. specialize (F a C).
        replace (a - a) with 0 in F by lra. rewrite Rabs_R0 in F. lra.
      * intros x y [<-|Hx] [<-|Hy] Hn; auto; [congruence|]. rewrite Rabs_minus_sym; auto.
    + intros [N Q]. inversion N as [|? ? N1 N2]; subst. constructor.
      * apply Forall_forall. intros x Hx. apply Q; simpl; auto. intros ->; auto.
      * apply IH. split; auto. intros; apply Q; simpl; auto.
Qed.

Lemma getSegments_app l1 l2 : getSegments (l1 ++ l2) = getSegments l1 ++ getSegments l2.
Proof. apply filter_app. Qed.

Lemma add_dirac_good eps p (x m : R) :
  0 <= eps -> good eps (segs p) ->
  (forall s, In s (segs p) -> isDirac s = false -> ~ inside s x) ->
  (forall a, In a (dirac_pos (segs p)) -> eps < Rabs (x - a)) ->
  exists q, addSegment eps p (DiracSeg x m) = Ok q /\ good eps (segs q) /\
    getSegments (segs q) = getSegments (segs p) /\
    (forall s, In s (segs q) <-> s = DiracSeg x m \/ In s (segs p)).
Proof.
  intros He (O & W & D) Hin Hsep.
  destruct (addSegment_compatible eps p (DiracSeg x m) O W I) as (l1 & l2 & E & P1 & P2 & E1 & E2).
  { intros t Ht. rewrite Forall_forall in W. pose proof (W t Ht) as Wt. split.
    - destruct (isDirac t) eqn:Dt.
      + destruct t as [| | | |a k|]; try discriminate Dt.
        assert (Q : eps < Rabs (x - a)) by (apply Hsep; apply dirac_pos_In; eauto).
        assert (x <> a). { intros ->. replace (a - a) with 0 in Q by lra. rewrite Rabs_R0 in Q. lra. }
        unfold before; cbn. destruct (Rle_or_lt x a); [left|right]; split; auto; try lra; congruence.
      + assert (L : Rbar_lt (sa t) (sb t)) by (apply cont_lt; split; auto).
        pose proof (Hin t Ht Dt) as N. unfold inside in N.
        destruct (Rbar_lt_dec (sa t) x) as [L1|L1].
        * assert (L2 : Rbar_le (sb t) x) by (apply Rbar_not_lt; tauto).
          right. split; auto. cbn [sb]. intros E. rewrite E in L1. exact (Rbar_lt_irrefl _ L1).
        * apply Rbar_not_lt in L1. left. split; auto. cbn [sa]. intros E.
          rewrite E in L1. exact (Rbar_lt_not_le _ _ L L1).
    - destruct t as [| | | |a k|]; auto. apply Hsep. apply dirac_pos_In; eauto. }
  exists (add_sorted p (DiracSeg x m)). rewrite E2.
  assert (Hin2 : forall s, In s (l1 ++ DiracSeg x m :: l2) <-> s = DiracSeg x m \/ In s (segs p)).
  { intros s. rewrite E, !in_app_iff. simpl. intuition. }
  splits; auto.
  - split; [|split].
    + apply SS_insert; auto. rewrite <- E; auto.
    + apply Forall_forall. intros s Hs. apply Hin2 in Hs. destruct Hs as [->|Hs]; [exact I|].
      rewrite Forall_forall in W; auto.
    + apply dirac_sep_pos. rewrite dirac_pos_app. simpl.
      eapply FOP_perm; [intros a b; rewrite Rabs_minus_sym; auto|apply Permutation_middle|].
      rewrite <- dirac_pos_app, <- E.
      constructor; [apply Forall_forall; auto|]. apply dirac_sep_pos; auto.
  - rewrite E, !getSegments_app. reflexivity.
Qed.

(** the mass combination performed by op_diracs *)
Definition comb (op : R -> R -> R) (mp mo : option R) : option R :=
  match mp, mo with
  | Some a, Some b => Some (op a b)
  | Some a, None => Some a
  | None, mo => mo
  end.
Definition mass_at (l : list segment) (x : R) : option R := option_map smass (getDirac l x).

Lemma mass_at_iff l x m : atoms_nodup l -> (mass_at l x = Some m <-> In (DiracSeg x m) l).
Proof.
  intros N. unfold mass_at. split.
  - destruct (getDirac l x) eqn:E; simpl; [|discriminate]. apply getDirac_Some in E.
    destruct E as (k & -> & H). simpl. intros Q; injection Q as <-; auto.
  - intros H. rewrite (getDirac_hit l x m); auto.
Qed.

Lemma mass_at_none l x : atoms_nodup l -> (mass_at l x = None <-> ~ In x (dirac_pos l)).
Proof.
  intros N. unfold mass_at. split.
  - destruct (getDirac l x) eqn:E; simpl; [discriminate|]. intros _. apply getDirac_None; auto.
  - intros H. destruct (getDirac l x) eqn:E; simpl; auto. apply getDirac_Some in E.
    destruct E as (m & _ & Q). exfalso; apply H. apply dirac_pos_In; eauto.
Qed.

Lemma mass_at_pos l x : atoms_nodup l -> (In x (dirac_pos l) <-> exists m, mass_at l x = Some m).
Proof.
  intros N. rewrite dirac_pos_In. split; intros (m & H); exists m; apply mass_at_iff; auto.
Qed.

Lemma op_dirac1_ok eps op other p (x : R) :
  0 <= eps -> good eps (segs p) -> atoms_nodup other ->
  (In x (dirac_pos (segs p)) \/ In x (dirac_pos other)) ->
  (forall s, In s (segs p) -> isDirac s = false -> ~ inside s x) ->
  (forall a, In a (dirac_pos (segs p)) -> a = x \/ eps < Rabs (x - a)) ->
  exists q, op_dirac1 eps op other p x = Ok q /\ good eps (segs q) /\
    getSegments (segs q) = getSegments (segs p) /\
    mass_at (segs q) x = comb op (mass_at (segs p) x) (mass_at other x) /\
    (forall y, y <> x -> mass_at (segs q) y = mass_at (segs p) y).
Proof.
  intros He Gp No Hx Hin Hsep. pose proof Gp as (O & W & D).
  pose proof (sep_nodup eps _ He D) as Np.
  unfold op_dirac1, mass_at at 2 3.
  destruct (getDirac (segs p) x) as [s|] eqn:Es; destruct (getDirac other x) as [d|] eqn:Ed.
  - apply getDirac_Some in Es. destruct Es as (m & -> & Hs).
    destruct (set_dirac_props x (op m (smass d)) (segs p)) as (S1 & S2 & S3 & S4 & S5 & S6).
    eexists; split; [reflexivity|]. cbn [segs smass option_map].
    assert (Nq : atoms_nodup (set_dirac x (op m (smass d)) (segs p))) by (unfold atoms_nodup; rewrite S3; auto).
    splits; auto.
    + split; [|split].
      * eapply ordered_ends; eauto.
      * apply Forall_forall. intros s Hs'. destruct (S4 s Hs'); auto. rewrite Forall_forall in W; auto.
      * apply dirac_sep_pos. rewrite S3. apply dirac_sep_pos; auto.
    + simpl comb. apply mass_at_iff; auto. apply S6; auto. apply dirac_pos_In; eauto.
    + intros y Hy. destruct (mass_at (segs p) y) as [k|] eqn:E.
      * apply mass_at_iff; auto. apply S5; auto. apply mass_at_iff; auto.
      * apply mass_at_none in E; auto. apply mass_at_none; auto. rewrite S3; auto.
  - eexists; split; [reflexivity|]. simpl. splits; auto. unfold mass_at. rewrite Es. reflexivity.
  - apply getDirac_None in Es. apply getDirac_Some in Ed. destruct Ed as (m & -> & Hd).
    destruct (add_dirac_good eps p x m He Gp Hin) as (q & Q1 & Q2 & Q3 & Q4).
    { intros a Ha. destruct (Hsep a Ha) as [->|]; auto. contradiction. }
    pose proof (sep_nodup eps _ He (proj2 (proj2 Q2))) as Nq.
    exists q. cbn [smass option_map]. splits; auto.
    + apply mass_at_iff; auto. apply Q4; auto.
    + intros y Hy. destruct (mass_at (segs p) y) as [k|] eqn:E.
      * apply mass_at_iff; auto. apply Q4. right. apply mass_at_iff; auto.
      * apply mass_at_none in E; auto. apply mass_at_none; auto.
        intros C. apply E. apply dirac_pos_In in C. destruct C as (k & C). apply Q4 in C.
        destruct C as [C|C]; [congruence|]. apply dirac_pos_In; eauto.
  - exfalso. apply getDirac_None in Es. apply getDirac_None in Ed. tauto.
Qed.

Lemma op_dirac_loop_ok eps op other xs : forall p,
  0 <= eps -> good eps (segs p) -> atoms_nodup other -> NoDup xs ->
  (forall x, In x xs -> In x (dirac_pos (segs p)) \/ In x (dirac_pos other)) ->
  (forall x s, In x xs -> In s (getSegments (segs p)) -> ~ inside s x) ->
  (forall x a, In x xs -> In a (dirac_pos (segs p)) -> a = x \/ eps < Rabs (x - a)) ->
  (forall x y, In x xs -> In y xs -> x = y \/ eps < Rabs (x - y)) ->
  exists q, op_dirac_loop eps op other p xs = Ok q /\ good eps (segs q) /\
    getSegments (segs q) = getSegments (segs p) /\
    (forall x, In x xs -> mass_at (segs q) x = comb op (mass_at (segs p) x) (mass_at other x)) /\
    (forall y, ~ In y xs -> mass_at (segs q) y = mass_at (segs p) y).
Proof.
  induction xs as [|x xs IH]; intros p He Gp No Nx Hx Hin Hsep Hss; simpl.
  - exists p. splits; auto. intros x [].
  - inversion Nx as [|? ? Nx1 Nx2]; subst.
    destruct (op_dirac1_ok eps op other p x He Gp No) as (p1 & E1 & G1 & S1 & M1 & M2).
    { apply Hx; left; auto. }
    { intros s Hs Ds. apply Hin; [left; auto|]. apply getSegments_cont; auto. }
    { intros a Ha. apply Hsep; [left; auto|auto]. }
    rewrite E1; simpl.
    pose proof (sep_nodup eps _ He (proj2 (proj2 Gp))) as Np.
    pose proof (sep_nodup eps _ He (proj2 (proj2 G1))) as N1.
    destruct (IH p1 He G1 No Nx2) as (q & Q1 & Q2 & Q3 & Q4 & Q5).
    + intros y Hy. destruct (Hx y (or_intror Hy)) as [H|H]; auto. left.
      apply mass_at_pos; auto. apply mass_at_pos in H; auto. destruct H as (m & H). exists m.
      rewrite M2; auto. intros ->; auto.
    + intros y s Hy Hs. apply Hin; [right; auto|]. rewrite <- S1; auto.
    + intros y a Hy Ha. apply mass_at_pos in Ha; auto. destruct Ha as (m & Ha).
      destruct (Req_dec a x) as [->|Na].
      * destruct (Hss y x); simpl; auto.
      * rewrite M2 in Ha by auto. apply Hsep; [right; auto|]. apply mass_at_pos; auto. eauto.
    + intros y z Hy Hz. apply Hss; right; auto.
    + exists q. splits; auto.
      * congruence.
      * intros y [<-|Hy].
        -- rewrite Q5 by auto. auto.
        -- rewrite Q4 by auto. rewrite M2; auto. intros ->; auto.
      * intros y Hy. rewrite Q5 by (intros C; apply Hy; right; auto). apply M2. intros ->; apply Hy; left; auto.
Qed.

Lemma inb_iff x l : inb x l = true <-> In x l.
Proof.
  unfold inb. rewrite existsb_exists. split.
  - intros (y & H & E). b2p. subst; auto.
  - intros H. exists x. split; auto. apply req_refl.
Qed.

Lemma add_missing_spec l : forall acc, NoDup acc ->
  NoDup (add_missing acc l) /\ (forall x, In x (add_missing acc l) <-> In x acc \/ In x l).
Proof.
  induction l as [|a l IH]; intros acc N; simpl; [split; auto; tauto|].
  destruct (inb a acc) eqn:E.
  - apply inb_iff in E. destruct (IH acc N) as [I1 I2]. split; auto.
    intros x. rewrite I2. split; [intuition|]. intros [H|[<-|H]]; auto.
  - assert (Na : ~ In a acc) by (rewrite <- inb_iff, E; discriminate).
    destruct (IH (acc ++ [a])) as [I1 I2].
    + apply (Permutation_NoDup (l := a :: acc)); [|constructor; auto].
      apply Permutation_cons_append.
    + split; auto. intros x. rewrite I2, in_app_iff. simpl. intuition.
Qed.

Lemma op_diracs_ok eps op p other :
  0 <= eps -> good eps (segs p) -> dirac_sep eps other ->
  (forall x s, In x (dirac_pos other) \/ In x (dirac_pos (segs p)) -> In s (getSegments (segs p)) -> ~ inside s x) ->
  (forall x a, In x (dirac_pos other) -> In a (dirac_pos (segs p)) -> a = x \/ eps < Rabs (x - a)) ->
  exists q, op_diracs eps op p other = Ok q /\ good eps (segs q) /\
    getSegments (segs q) = getSegments (segs p) /\
    (forall x, mass_at (segs q) x = comb op (mass_at (segs p) x) (mass_at other x)).
Proof.
  intros He Gp Do Hin Hc. pose proof Gp as (O & W & D).
  pose proof (sep_nodup eps _ He D) as Np. pose proof (sep_nodup eps _ He Do) as No.
  pose proof (proj1 (dirac_sep_iff eps _ He) D) as [_ Sp].
  pose proof (proj1 (dirac_sep_iff eps _ He) Do) as [_ So].
  unfold op_diracs. destruct (add_missing_spec (dirac_pos other) (dirac_pos (segs p)) Np) as [A1 A2].
  destruct (op_dirac_loop_ok eps op other (add_missing (dirac_pos (segs p)) (dirac_pos other)) p) as (q & Q1 & Q2 & Q3 & Q4 & Q5); auto.
  - intros x Hx. apply A2; auto.
  - intros x s Hx Hs. apply Hin; auto. apply A2 in Hx. tauto.
  - intros x a Hx Ha. apply A2 in Hx. destruct Hx as [Hx|Hx].
    + destruct (Req_dec a x); auto. 
    + apply Hc; auto.
  - intros x y Hx Hy. apply A2 in Hx. apply A2 in Hy.
    destruct (Req_dec x y) as [|N]; auto. right.
    destruct Hx as [Hx|Hx], Hy as [Hy|Hy]; auto.
    + destruct (Hc y x Hy Hx) as [|Q]; [congruence|]. rewrite Rabs_minus_sym; auto.
    + destruct (Hc x y Hx Hy) as [|Q]; [congruence|]. auto.
  - exists q. splits; auto. intros x.
    destruct (in_dec Req_EM_T x (add_missing (dirac_pos (segs p)) (dirac_pos other))) as [H|H]; auto.
    rewrite Q5 by auto. rewrite A2 in H.
    rewrite (proj2 (mass_at_none (segs p) x Np)) by tauto.
    rewrite (proj2 (mass_at_none other x No)) by tauto. reflexivity.
Qed.

(** ** The whole operation *)

Lemma cross_sep_pos eps f g : cross_sep eps f g ->
  forall a b, In a (dirac_pos f) -> In b (dirac_pos g) -> a = b \/ eps < Rabs (a - b).
Proof.
  intros H a b Ha Hb. apply dirac_pos_In in Ha. apply dirac_pos_In in Hb.
  destruct Ha as (m & Ha). destruct Hb as (k & Hb). exact (H a m b k Ha Hb).
Qed.

Lemma hs_no_inside f g op (x : R) s :
  ordered f -> ordered g -> Forall wf_seg f -> Forall wf_seg g ->
  In (Finite x) (getBreaks f) \/ In (Finite x) (getBreaks g) ->
  In s (op_pieces op f g) -> ~ inside s x.
Proof.
  intros Of Og Wf Wg Hx Hs [L1 L2].
  apply (hs_In f g Wf Wg op) in Hs. destruct Hs as (a & b & Hab & Hs).
  apply pairs_up_In in Hab; [|apply B_sorted]. destruct Hab as (_ & _ & L & N).
  destruct (piece_of_spec f g Of Og Wf Wg op a b s L Hs) as (E1 & E2 & _).
  apply (N x); [apply B_In; auto|]. rewrite <- E1, <- E2. auto.
Qed.

Lemma dirac_is_break l x : In x (dirac_pos l) -> In (Finite x) (getBreaks l).
Proof.
  intros H. apply dirac_pos_In in H. destruct H as (m & H). apply getBreaks_In.
  eexists; split; [exact H|]. left; reflexivity.
Qed.

Lemma operation_ok eps op f g :
  0 <= eps -> good eps f -> good eps g -> cross_sep eps f g ->
  exists h, operation eps op f g = Ok h /\ good eps (segs h) /\
    getSegments (segs h) = op_pieces op f g /\
    (forall x, mass_at (segs h) x = comb op (mass_at f x) (mass_at g x)).
Proof.
  intros He (Of & Wf & Df) (Og & Wg & Dg) Hc0.
  pose proof (cross_sep_pos eps f g Hc0) as Hc.
  pose proof (sep_nodup eps _ He Df) as Nf. pose proof (sep_nodup eps _ He Dg) as Ng.
  unfold operation. set (B := np_unique (getBreaks f ++ getBreaks g)).
  destruct (splitByPoints_ok eps f B (B_sorted f g) Of Wf Df) as (qf & E1 & E2 & _).
  destruct (splitByPoints_ok eps g B (B_sorted f g) Og Wg Dg) as (qg & E3 & E4 & _).
  rewrite E1, E3; cbn [rbind]. rewrite E2, E4. fold (op_pieces op f g).
  change (flat_map (op_segment op) (makeCommonSegmentList (split_all B f) (split_all B g))) with (op_pieces op f g).
  assert (Oh : ordered (op_pieces op f g)) by (apply hs_ordered; auto).
  assert (Ch : Forall continuous_piece (op_pieces op f g)) by (apply hs_cont; auto).
  assert (Wh : Forall wf_seg (op_pieces op f g)) by (eapply Forall_impl; [|exact Ch]; intros s [_ ?]; auto).
  assert (Ph : dirac_pos (op_pieces op f g) = []).
  { apply dirac_pos_cont. eapply Forall_impl; [|exact Ch]; intros s [? _]; auto. }
  assert (Dh : dirac_sep eps (op_pieces op f g)) by (apply dirac_sep_pos; rewrite Ph; constructor).
  destruct (addAll_ordered eps _ Oh Wh Dh) as (h0 & E5 & E6 & _).
  rewrite E5; cbn [rbind].
  assert (G0 : good eps (segs h0)) by (rewrite E6; split; auto).
  assert (S0 : getSegments (segs h0) = op_pieces op f g) by (rewrite E6; apply getSegments_id; auto).
  destruct (op_diracs_ok eps op h0 f He G0 Df) as (h1 & E7 & G1 & S1 & M1).
  { intros x s Hx Hs. rewrite S0 in Hs. rewrite E6, Ph in Hx.
    destruct Hx as [Hx|[]]. apply (hs_no_inside f g op x s); auto. left. apply dirac_is_break; auto. }
  { intros x a _ Ha. rewrite E6, Ph in Ha. destruct Ha. }
  rewrite E7; cbn [rbind].
  pose proof (sep_nodup eps _ He (proj2 (proj2 G1))) as N1.
  assert (N0 : forall x, mass_at (segs h0) x = None).
  { intros x. apply mass_at_none; [unfold atoms_nodup|]; rewrite E6, Ph; [constructor|simpl; tauto]. }
  assert (M1' : forall x, mass_at (segs h1) x = mass_at f x).
  { intros x. rewrite M1, N0. reflexivity. }
  assert (P1 : forall x, In x (dirac_pos (segs h1)) -> In x (dirac_pos f)).
  { intros x Hx. apply mass_at_pos in Hx; auto. destruct Hx as (m & Hx). rewrite M1' in Hx.
    apply mass_at_pos; eauto. }
  destruct (op_diracs_ok eps op h1 g He G1 Dg) as (h2 & E8 & G2 & S2 & M2).
  { intros x s Hx Hs. rewrite S1, S0 in Hs. apply (hs_no_inside f g op x s); auto.
    destruct Hx as [Hx|Hx]; [right|left; apply P1 in Hx]; apply dirac_is_break; auto. }
  { intros x a Hx Ha. apply P1 in Ha. destruct (Hc a x Ha Hx) as [|Q]; auto.
    right. rewrite Rabs_minus_sym; auto. }
  exists h2. splits; auto.
  - congruence.
  - intros x. rewrite M2, M1'. reflexivity.
Qed.

Lemma call_vec_getSegments l l' x : getSegments l = getSegments l' -> call_vec l x = call_vec l' x.
Proof. intros H. unfold call_vec. rewrite H. reflexivity. Qed.

Lemma operation_value eps op f g :
  0 <= eps -> good eps f -> good eps g -> cross_sep eps f g -> op 0 0 = 0 ->
  exists h, operation eps op f g = Ok h /\
    forall x : R, ~ In (Finite x) (getBreaks f) -> ~ In (Finite x) (getBreaks g) ->
      call_vec (segs h) x = op (call_vec f x) (call_vec g x).
Proof.
  intros He Gf Gg Hc H00.
  destruct (operation_ok eps op f g He Gf Gg Hc) as (h & E & G & S & _).
  exists h. split; auto. intros x Nf Ng.
  destruct Gf as (Of & Wf & _). destruct Gg as (Og & Wg & _).
  assert (Ch : Forall continuous_piece (op_pieces op f g)) by (apply hs_cont; auto).
  assert (Wh : Forall wf_seg (op_pieces op f g)) by (eapply Forall_impl; [|exact Ch]; intros s [_ ?]; auto).
  rewrite (call_vec_getSegments (segs h) (op_pieces op f g)).
  2:{ rewrite S. symmetry. apply getSegments_id; auto. }
  apply open_value_call_vec; auto.
  - apply hs_ordered; auto.
  - intros C. apply getBreaks_In in C. destruct C as (s & Hs & Hx).
    apply (hs_In f g Wf Wg op) in Hs. destruct Hs as (a & b & Hab & Hs).
    apply pairs_up_In in Hab; [|apply B_sorted]. destruct Hab as (Ha & Hb & L & _).
    destruct (piece_of_spec f g Of Og Wf Wg op a b s L Hs) as (E1 & E2 & _).
    rewrite E1, E2 in Hx. apply B_In in Ha. apply B_In in Hb.
    destruct Hx as [<-|<-]; tauto.
  - apply op_pieces_value; auto; apply call_vec_open; auto.
Qed.
