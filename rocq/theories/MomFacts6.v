(** The pieces of a mixture inherit what is known about the pieces of the components. *)
From Coq Require Import Reals Lra Lia List Bool Sorted Permutation.
From Coquelicot Require Import Coquelicot.
From Verif Require Import Base Seg Piecewise PiecewiseSpec PiecewiseFacts PiecewiseFacts2 PiecewiseFacts3 PiecewiseFacts4 PiecewiseMain OperationFacts Integral IntegralFacts SegIntSpec SegIntFacts
  Transform TransformSpec TransformFacts TransformFacts2 TransformMain AtomFacts MixSpec Mix MixFacts MomSpec MomFacts3 MomFacts4 MomFacts5.
Import List ListNotations.
Open Scope R_scope.

Section Inherit.
Variable PP : (R -> R) -> Rbar -> Rbar -> Prop.
Hypothesis PP_sub : forall h a b u v, PP h a b -> Rbar_le a u -> Rbar_lt u v -> Rbar_le v b -> PP h u v.
Hypothesis PP_ext : forall h k a b, (forall x, h x = k x) -> PP h a b -> PP k a b.
Hypothesis PP_plus : forall h k a b, PP h a b -> PP k a b -> PP (fun x => h x + k x) a b.
Definition all_PP (l : list segment) : Prop := forall s, In s l -> isDirac s = false -> PP (sf s) (sa s) (sb s).

Lemma split_PP pts l : StronglySorted Rbar_lt pts -> Forall wf_seg l -> all_PP l -> all_PP (split_all pts l).
Proof.
  intros SB W H t Ht D. apply split_all_In in Ht. destruct Ht as (s & Hs & Ht). rewrite Forall_forall in W.
  destruct (split_seg_spec pts s SB (W s Hs)) as (F & _). rewrite Forall_forall in F. destruct (F t Ht) as (Wt & Dt & -> & A & B).
  rewrite Dt in D. apply (PP_sub _ (sa s) (sb s)); auto. apply wf_lt; auto. rewrite Dt; auto.
Qed.
Lemma op_PP f g : ordered f -> ordered g -> Forall wf_seg f -> Forall wf_seg g -> all_PP f -> all_PP g -> all_PP (op_pieces Rplus f g).
Proof.
  intros Of Og Wf Wg Hf Hg t Ht D. set (B := np_unique (getBreaks f ++ getBreaks g)).
  pose proof (B_sorted f g) as SB. fold B in SB.
  assert (EH : op_pieces Rplus f g = flat_map (piece_of f g Rplus) (pairs_up B)) by (apply (hs_pieces f g Wf Wg Rplus)).
  rewrite EH in Ht. apply in_flat_map in Ht. destruct Ht as ((a, b) & Hab & Ht). apply pairs_up_In in Hab; auto. destruct Hab as (_ & _ & L & _).
  destruct (piece_of_spec f g Of Og Wf Wg Rplus a b t L Ht) as (S1 & S2 & S3 & S4 & S5). fold B in S5. rewrite S1, S2.
  assert (K : forall l s, Forall wf_seg l -> all_PP l -> findSegmentByEnds (split_all B l) a b = Some s -> PP (sf s) a b).
  { intros l s W H E. apply findSegmentByEnds_Some in E. destruct E as (E1 & E2 & E3). rewrite <- E2, <- E3. apply (split_PP B l); auto.
    destruct (isDirac s) eqn:Ds; auto. exfalso. destruct s; try discriminate. simpl in E2, E3. rewrite <- E2, <- E3 in L. exact (Rbar_lt_irrefl _ L). }
  unfold piece_of in Ht. fold B in Ht. cbn [fst snd] in Ht.
  destruct (findSegmentByEnds (split_all B f) a b) as [t1|] eqn:E1; destruct (findSegmentByEnds (split_all B g) a b) as [t2|] eqn:E2.
  - apply (PP_ext (fun x => sf t1 x + sf t2 x)); [intros; rewrite S5; reflexivity|]. apply PP_plus; [apply (K f)|apply (K g)]; auto.
  - apply (PP_ext (sf t1)); [intros; rewrite S5; simpl; ring|]. apply (K f); auto.
  - apply (PP_ext (sf t2)); [intros; rewrite S5; simpl; ring|]. apply (K g); auto.
  - destruct Ht.
Qed.
Lemma operation_PP eps f g h : 0 <= eps -> component eps f -> component eps g -> cross_sep eps f g -> operation eps Rplus f g = Ok h ->
  all_PP f -> all_PP g -> all_PP (segs h).
Proof.
  intros He (Of & Wf & Df & _) (Og & Wg & Dg & _) C E Hf Hg. destruct (operation_ok eps Rplus f g He) as (h' & E' & _ & S & _); try (split; auto); auto.
  rewrite E in E'. injection E' as <-. intros t Ht D. apply (op_PP f g); auto. rewrite <- S. apply getSegments_cont; auto.
Qed.
Lemma scale_PP p l : (forall h a b, PP h a b -> PP (fun x => h x * p) a b) -> all_PP l -> all_PP (map (rop_seg Rmult p) l).
Proof.
  intros SC H t Ht D. apply in_map_iff in Ht. destruct Ht as (s & <- & Hs). destruct (isDirac s) eqn:Ds; [destruct s; discriminate|].
  destruct (rop_mult s p Ds) as (-> & -> & -> & _). auto.
Qed.
End Inherit.

Definition P_nn (h : R -> R) (a b : Rbar) : Prop := forall x, betw a b x -> 0 <= h x.
Definition P_cont (h : R -> R) (a b : Rbar) : Prop := forall x, betw a b x -> continuous h x.
Definition P_mean (h : R -> R) (a b : Rbar) : Prop := integrable (fun x => x * h x) a b.
Definition P_all (h : R -> R) (a b : Rbar) : Prop := P_nn h a b /\ P_cont h a b /\ P_mean h a b.
Lemma betw_sub a b u v (x : R) : Rbar_le a u -> Rbar_le v b -> betw u v x -> betw a b x.
Proof. intros A B (X & Y). split; [eapply Rbar_le_lt_trans; [exact A|exact X]|eapply Rbar_lt_le_trans; [exact Y|exact B]]. Qed.
Lemma P_sub h a b u v : P_all h a b -> Rbar_le a u -> Rbar_lt u v -> Rbar_le v b -> P_all h u v.
Proof.
  intros (N & C & E) A L B. split; [|split].
  - intros x X. apply N. eapply betw_sub; eauto.
  - intros x X. apply C. eapply betw_sub; eauto.
  - apply (integrable_sub _ a b); auto.
Qed.
Lemma P_ext h k a b : (forall x, h x = k x) -> P_all h a b -> P_all k a b.
Proof.
  intros X (N & C & E). split; [|split].
  - intros x I0. rewrite <- X. apply N; auto.
  - intros x I0. apply (continuous_ext h k x X). apply C; auto.
  - apply (integrable_ext (fun x => x * h x)); auto. intros; rewrite X; auto.
Qed.
Lemma P_plus h k a b : P_all h a b -> P_all k a b -> P_all (fun x => h x + k x) a b.
Proof.
  intros (N & C & E) (N' & C' & E'). split; [|split].
  - intros x I0. specialize (N x I0). specialize (N' x I0). lra.
  - intros x I0. apply (continuous_plus (V := R_NormedModule) h k); auto.
  - apply (integrable_ext (fun x => x * h x + x * k x)); [intros; ring|]. apply integrable_plus; auto.
Qed.
Lemma P_scal p h a b : 0 <= p -> P_all h a b -> P_all (fun x => h x * p) a b.
Proof.
  intros P0 (N & C & E). split; [|split].
  - intros x I0. apply Rmult_le_pos; auto.
  - intros x I0. apply (continuous_mult (K := R_AbsRing) h (fun _ => p)); auto. apply continuous_const.
  - apply (integrable_ext (fun x => p * (x * h x))); [intros; ring|]. apply integrable_scal; auto.
Qed.
Definition rdy (l : list segment) : Prop := all_PP P_all l /\ forall a m, In (DiracSeg a m) l -> 0 <= m.
Lemma ready_rdy l : mean_ready l -> rdy l.
Proof.
  intros (_ & _ & N & C & E). rewrite Forall_forall in N, C. split.
  - intros s Hs D. split; [|split].
    + intros x (X1 & X2). specialize (N s Hs). destruct s; try discriminate; apply N; auto.
    + intros x X. apply C; auto.
    + apply E; auto.
  - intros a m H. apply (N _ H).
Qed.
Lemma rdy_ready l : Forall wf_seg l -> Forall has_int l -> rdy l -> mean_ready l.
Proof.
  intros W HI (P & A). unfold mean_ready. split; auto. split; auto. split; [|split].
  - apply Forall_forall. intros s Hs. destruct (isDirac s) eqn:D.
    + destruct s; try discriminate. apply (A _ _ Hs).
    + destruct (P s Hs D) as (N & _). destruct s; try discriminate; intros x X Y; apply N; split; auto.
  - apply Forall_forall. intros s Hs x D X. destruct (P s Hs D) as (_ & C & _). apply C; auto.
  - intros s Hs D. apply (P s Hs D).
Qed.
Lemma scale_rdy eps p l q : 0 <= p -> component eps l -> rdy l -> mul_num eps l p = Ok q -> rdy (segs q).
Proof.
  intros P0 (O & W & D & _) (P & A) E. destruct (roperation_ok eps Rmult l p O W D) as (q' & E' & S & _ & _). unfold mul_num in E. rewrite E in E'. injection E' as <-. rewrite S.
  split; [apply scale_PP; auto; intros; apply P_scal; auto|].
  intros a m H. apply in_map_iff in H. destruct H as (s & Es & Hs). destruct s as [| | | |x k|]; try discriminate Es. simpl in Es. injection Es as <- <-.
  apply Rmult_le_pos; eauto.
Qed.
Lemma add_rdy eps f g h : 0 <= eps -> component eps f -> component eps g -> cross_sep eps f g -> operation eps Rplus f g = Ok h ->
  rdy f -> rdy g -> rdy (segs h).
Proof.
  intros He Cf Cg C E (Pf & Af) (Pg & Ag). split.
  - apply (operation_PP P_all P_sub P_ext P_plus eps f g h); auto.
  - destruct Cf as (Of & Wf & Df & _), Cg as (Og & Wg & Dg & _). destruct (operation_atoms_main eps Rplus f g He Of Og Wf Wg Df Dg C) as (h' & E' & _ & A).
    rewrite E in E'. injection E' as <-. intros x m H. apply A in H as [(mf & mg & H1 & H2 & ->)|[(H & _)|(H & _)]]; eauto.
    specialize (Af _ _ H1). specialize (Ag _ _ H2). lra.
Qed.
Lemma mix_loop_rdy eps : 0 <= eps -> forall pcs acc (D : list (list segment)) q,
  component eps (segs acc) -> Forall (fun pc => component eps (snd pc)) pcs ->
  atoms_apart eps (D ++ map snd pcs) -> (forall x m, In (DiracSeg x m) (segs acc) -> exists d k, In d D /\ In (DiracSeg x k) d) ->
  rdy (segs acc) -> Forall (fun pc => 0 <= fst pc /\ rdy (snd pc)) pcs -> mix_loop eps acc pcs = Ok q -> rdy (segs q).
Proof.
  intros He. induction pcs as [|(p & c) pcs IH]; intros acc D q A F S K Ra Rp E.
  - simpl in E. injection E as <-. auto.
  - inversion F as [|? ? Fc F']; inversion Rp as [|? ? (P0 & Rc) Rp']; subst. simpl in Fc, P0, Rc. destruct (scale_ok eps c p Fc) as (pc & E1 & C1 & P1 & K1).
    assert (X : cross_sep eps (segs acc) (segs pc)).
    { intros a m b k Ha Hb. destruct (K a m Ha) as (d & k' & Hd & Hk). destruct (K1 b k Hb) as (k2 & Hc).
      apply (S d c) with (m := k') (k := k2); auto; apply in_app_iff; simpl; auto. }
    destruct (add_ok eps (segs acc) (segs pc) He A C1 X) as (h & E2 & C2 & P2 & K2).
    simpl in E. rewrite E1 in E. cbn [rbind] in E. rewrite E2 in E. cbn [rbind] in E.
    apply (IH h (D ++ [c])) in E; auto.
    + rewrite <- app_assoc. exact S.
    + intros x m H. destruct (K2 x m H) as [(k & Hk)|(k & Hk)].
      * destruct (K x k Hk) as (d & k' & Hd & Hk'). exists d, k'. split; auto. apply in_app_iff; auto.
      * destruct (K1 x k Hk) as (k' & Hk'). exists c, k'. split; auto. apply in_app_iff; simpl; auto.
    + apply (add_rdy eps (segs acc) (segs pc)); auto. apply (scale_rdy eps p c); auto.
Qed.
Lemma mix_ready eps ps cs q : 0 <= eps -> length ps = length cs -> Forall (component eps) cs -> atoms_apart eps cs ->
  Forall (fun p => 0 <= p) ps -> Forall mean_ready cs -> mix_pdf eps ps cs = Ok q -> mean_ready (segs q).
Proof.
  intros He L F S P0 R E. destruct cs as [|c cs]; destruct ps as [|p ps]; try discriminate.
  destruct (mix_ok eps (p :: ps) (c :: cs) He L ltac:(discriminate) F S) as (q' & E' & (_ & W & _ & HI) & _). rewrite E in E'. injection E' as <-.
  apply rdy_ready; auto. unfold mix_pdf in E. rewrite L, Nat.eqb_refl in E. simpl combine in E. cbv iota in E.
  inversion F; inversion P0; inversion R; subst. destruct (scale_ok eps c p H1) as (pc & E1 & C1 & P1 & K1). rewrite E1 in E. cbn [rbind] in E.
  simpl in L. assert (L' : length ps = length cs) by lia.
  assert (M : map snd (combine ps cs) = cs).
  { clear -L'. revert cs L'. induction ps; intros [|c cs] L; try discriminate; auto. simpl. f_equal. apply IHps. simpl in L. lia. }
  apply (mix_loop_rdy eps He (combine ps cs) pc [c] q) in E; auto.
  - rewrite Forall_forall in *. intros (p', c') I0. apply H2. rewrite <- M. apply (in_map snd) in I0. exact I0.
  - rewrite M. exact S.
  - intros x m I0. destruct (K1 x m I0) as (k & Hk). exists c, k. simpl; auto.
  - apply (scale_rdy eps p c); auto. apply ready_rdy; auto.
  - rewrite Forall_forall in *. intros (p', c') I0. split; [apply H6; apply in_combine_l in I0; auto|]. apply ready_rdy. apply H10. apply in_combine_r in I0; auto.
Qed.
