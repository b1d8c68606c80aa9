(** Adding atoms to a function with continuous pieces; the mass at zero of a product; extrema of
    discrete variables. *)
From Coq Require Import Reals Lra Lia List Bool Sorted Permutation.
From Coquelicot Require Import Coquelicot.
From Verif Require Import Base Bisect BisectFacts Seg Piecewise PiecewiseSpec PiecewiseFacts PiecewiseFacts2 PiecewiseFacts3 PiecewiseFacts4 Integral IntegralFacts SegInt SegIntSpec SegIntFacts CumintFacts SegIntMain Indep IndepSpec AtomFacts AtomFacts2.
Import List ListNotations.
Open Scope R_scope.

Lemma merge_dirac_segments eps a m l l' : merge_dirac eps a m l = Some l' ->
  getSegments l' = getSegments l /\ (Forall wf_seg l -> Forall wf_seg l').
Proof.
  revert l'. induction l as [|s l IH]; intros l' H; simpl in H; [discriminate|].
  destruct s as [| | | |a0 m0|];
  try (destruct (merge_dirac eps a m l) as [r|] eqn:E; [|discriminate]; injection H as <-;
       destruct (IH _ eq_refl) as (H1 & H2); unfold getSegments in *; simpl; rewrite ?H1; split; auto;
       intros W; inversion W; subst; constructor; auto; fail).
  destruct (rle (Rabs (a - a0)) eps).
  - injection H as <-. split; auto. intros W; inversion W; subst; constructor; simpl; auto.
  - destruct (merge_dirac eps a m l) as [r|] eqn:E; [|discriminate]; injection H as <-.
    destruct (IH _ eq_refl) as (H1 & H2); unfold getSegments in *; simpl; rewrite ?H1; split; auto;
    intros W; inversion W; subst; constructor; auto.
Qed.

Definition clear_of (l : list segment) (x : R) : Prop := forall s, In s l -> isDirac s = false -> ~ inside s x.

Lemma clear_of_segments l l' x : getSegments l' = getSegments l -> clear_of l x -> clear_of l' x.
Proof.
  intros E C s Hs D. assert (H : In s (getSegments l')) by (apply filter_In; destruct s; auto; discriminate).
  rewrite E in H. apply filter_In in H. apply C; tauto.
Qed.

Lemma pm_notin l (z : R) : ~ In z (dirac_pos l) -> pm l z = 0.
Proof.
  induction l as [|s l IH]; intros H; auto. rewrite pm_cons.
  destruct s as [| | | |a m|]; simpl in H; rewrite IH; auto; simpl; try lra.
  destruct (Req_EM_T a z); [tauto|lra].
Qed.
Lemma pm_In l (z m : R) : atoms_nodup l -> In (DiracSeg z m) l -> pm l z = m.
Proof.
  unfold atoms_nodup. induction l as [|s l IH]; intros N H; [contradiction|]. rewrite pm_cons. destruct H as [->|H].
  - simpl in N. inversion N; subst. rewrite pm_notin by auto. simpl. destruct (Req_EM_T z z); [ring|congruence].
  - destruct s as [| | | |a k|]; simpl in N; try (rewrite IH; auto; simpl; lra).
    inversion N as [|? ? N1 N2]; subst. rewrite IH by auto. simpl. destruct (Req_EM_T a z) as [->|]; [|lra].
    exfalso. apply N1, dirac_pos_In. eauto.
Qed.

Lemma add_atom_good eps p (a m : R) : 0 <= eps -> good eps (segs p) -> clear_of (segs p) a ->
  (forall b, In b (dirac_pos (segs p)) -> a = b \/ eps < Rabs (a - b)) ->
  exists q, addSegment eps p (DiracSeg a m) = Ok q /\ good eps (segs q) /\
    getSegments (segs q) = getSegments (segs p) /\
    (forall z, pm (segs q) z = pm (segs p) z + if Req_EM_T a z then m else 0) /\
    (forall b, In b (dirac_pos (segs q)) <-> b = a \/ In b (dirac_pos (segs p))).
Proof.
  intros He G C S. destruct (in_dec Req_EM_T a (dirac_pos (segs p))) as [H|H].
  - destruct (merge_dirac eps a m (segs p)) as [l|] eqn:E.
    + destruct (merge_dirac_some _ _ _ _ _ E) as (a' & m' & H1 & H2 & H3 & H4 & H5 & H6).
      destruct (merge_dirac_segments _ _ _ _ _ E) as (H7 & H8).
      assert (a' = a). { destruct (S a') as [->|L]; auto; [apply dirac_pos_In; eauto|lra]. }
      subst a'. exists (PW l (brks p)). unfold addSegment. rewrite E. cbn [segs]. destruct G as (G1 & G2 & G3). splits; auto.
      * split; [eapply ordered_ends; eauto|]. split; auto. apply dirac_sep_pos. rewrite H6. apply dirac_sep_pos; auto.
      * intros b. rewrite H6. split; auto. intros [->|]; auto.
    + exfalso. apply dirac_pos_In in H. destruct H as (k & H). clear - E H He.
      induction (segs p) as [|s l IH]; [contradiction|]. simpl in E. destruct H as [->|H].
      * rewrite (proj2 (rle_true _ _)) in E; [discriminate|]. rewrite Rminus_diag_eq, Rabs_R0; auto.
      * assert (merge_dirac eps a m l = None); [|auto].
        destruct (merge_dirac eps a m l); auto. destruct s; simpl in E; try discriminate.
        destruct (rle _ _); discriminate.
  - destruct (add_dirac_good eps p a m He G C) as (q & Q1 & Q2 & Q3 & Q4).
    { intros b Hb. destruct (S b Hb) as [->|]; auto. contradiction. }
    exists q. splits; auto.
    + pose proof (sep_nodup eps _ He (proj2 (proj2 Q2))) as Nq. pose proof (sep_nodup eps _ He (proj2 (proj2 G))) as Np.
      intros z. destruct (Req_EM_T a z) as [->|Nz].
      * rewrite (pm_notin (segs p) z H), (pm_In (segs q) z m); auto; [ring|]. apply Q4; auto.
      * destruct (in_dec Req_EM_T z (dirac_pos (segs p))) as [Hz|Hz].
        { apply dirac_pos_In in Hz. destruct Hz as (k & Hk).
          rewrite (pm_In (segs p) z k), (pm_In (segs q) z k); auto; [ring|]. apply Q4; auto. }
        { rewrite !pm_notin; auto; [ring|]. intros K. apply dirac_pos_In in K. destruct K as (k & K). apply Q4 in K.
          destruct K as [K|K]; [congruence|]. apply Hz, dirac_pos_In; eauto. }
    + intros b. rewrite !dirac_pos_In. setoid_rewrite Q4. split.
      * intros (k & [E|E]); [injection E as -> _; auto|eauto].
      * intros [->|(k & E)]; eauto.
Qed.

Lemma add_atoms_good eps l : forall p, 0 <= eps -> good eps (segs p) -> discrete l ->
  (forall a, In a (dirac_pos l) -> clear_of (segs p) a) ->
  (forall a b, In a (dirac_pos l) -> In b (dirac_pos l) \/ In b (dirac_pos (segs p)) -> a = b \/ eps < Rabs (a - b)) ->
  exists q, addAll eps p l = Ok q /\ good eps (segs q) /\
    getSegments (segs q) = getSegments (segs p) /\
    (forall z, pm (segs q) z = pm (segs p) z + pm l z) /\
    (forall b, In b (dirac_pos (segs q)) <-> In b (dirac_pos l) \/ In b (dirac_pos (segs p))).
Proof.
  induction l as [|s l IH]; intros p He G D C S.
  - exists p. simpl. splits; auto; [intros z; unfold pm; simpl; ring|tauto].
  - inversion D as [|? ? Ds D']; subst. destruct s as [| | | |a m|]; try discriminate. simpl in C, S.
    destruct (add_atom_good eps p a m He G) as (p1 & P1 & P2 & P3 & P4 & P5); auto.
    destruct (IH p1 He P2 D') as (q & Q1 & Q2 & Q3 & Q4 & Q5).
    + intros b Hb. eapply clear_of_segments; eauto.
    + intros x b Hx [Hb|Hb]; auto. apply P5 in Hb. destruct Hb as [->|Hb]; auto.
    + exists q. cbn [addAll]. rewrite P1. cbn [rbind]. splits; auto.
      * congruence.
      * intros z. rewrite Q4, P4, pm_cons. unfold pm1. ring.
      * intros b. rewrite Q5, P5. simpl. intuition.
Qed.

(** ** The product at zero *)
Lemma seg_integrate_full s : wf_seg s -> integrable_piece s -> seg_integrate s m_infty p_infty = mass s.
Proof.
  intros W HI. destruct (pw_integrate_total_main [s]) as (H & _); [repeat constructor; auto..|].
  rewrite pw_integrate_sum in H. unfold total_mass in H. simpl in H. lra.
Qed.
Lemma zero_mass_val f g : Forall wf_seg g -> Forall integrable_piece g ->
  zero_mass f g = pm f 0 * cont_mass g.
Proof.
  intros W HI. unfold zero_mass.
  assert (IN : forall (m I : R) l, (forall s, In s l -> In s g) ->
    fold_left (fun I s => I + seg_integrate s m_infty p_infty * m) l I = I + m * sumR (map mass l)).
  { intros m I l. revert I. induction l as [|s l IH]; intros I Hl; simpl; [ring|].
    rewrite IH by (intros; apply Hl; simpl; auto). rewrite seg_integrate_full; [ring| |].
    - rewrite Forall_forall in W. apply W, Hl; simpl; auto.
    - rewrite Forall_forall in HI. apply HI, Hl; simpl; auto. }
  assert (OUT : forall l I, discrete l ->
    fold_left (fun I fi => if req (spos fi) 0
                         then fold_left (fun I s => I + seg_integrate s m_infty p_infty * smass fi) (getSegments g) I
                         else I) l I = I + pm l 0 * cont_mass g).
  { induction l as [|s l IH]; intros I D; simpl; [unfold pm; simpl; ring|].
    inversion D as [|? ? Ds D']; subst. destruct s as [| | | |a m|]; try discriminate.
    rewrite IH by auto. rewrite pm_cons. unfold spos. cbn [sa real pm1 smass].
    destruct (reqP a 0) as [->|Na].
    - rewrite IN by (intros s Hs; apply filter_In in Hs; tauto). unfold cont_mass.
      destruct (Req_EM_T 0 0); [|congruence]. ring.
    - destruct (Req_EM_T a 0); [contradiction|]. ring. }
  rewrite OUT by apply getDiracs_discrete. rewrite pm_getDiracs. ring.
Qed.

Lemma mass_split l : total_mass l = atom_mass l + cont_mass l.
Proof.
  unfold total_mass, atom_mass, cont_mass, getSegments. induction l as [|s l IH]; [simpl; ring|].
  cbn [map filter]. rewrite !sumR_cons, IH.
  destruct s; cbn [isSegment isDirac negb]; cbn iota; cbn [map smass]; rewrite ?sumR_cons; try ring. change (mass (DiracSeg a m)) with m. ring.
Qed.

(** weighted atoms *)
Definition watom (w : R -> R) (l : list segment) : R :=
  sumR (map (fun s => match s with DiracSeg x m => w x * m | _ => 0 end) l).
Lemma watom_pm l z : watom (fun x => if Req_EM_T x z then 1 else 0) l = pm l z.
Proof.
  unfold watom, pm. apply sumR_ext. intros s _. destruct s; auto. destruct (Req_EM_T a z); ring.
Qed.
Lemma watom_one l : watom (fun _ => 1) l = atom_mass l.
Proof. unfold watom, atom_mass. apply sumR_ext. intros s _. destruct s; auto. simpl. ring. Qed.
Lemma pair_sum_plus w w' f g : pair_sum (fun x y => w x y + w' x y) f g = pair_sum w f g + pair_sum w' f g.
Proof.
  unfold pair_sum. rewrite <- sumR_plus. apply sumR_ext. intros s _. rewrite <- sumR_plus. apply sumR_ext. intros t _.
  destruct s, t; ring.
Qed.
Lemma pair_sum_scal c w f g : pair_sum (fun x y => c * w x y) f g = c * pair_sum w f g.
Proof.
  unfold pair_sum. rewrite <- sumR_scal. apply sumR_ext. intros s _. rewrite <- sumR_scal. apply sumR_ext. intros t _.
  destruct s, t; ring.
Qed.
Lemma pair_sum_mult u v f g : pair_sum (fun x y => u x * v y) f g = watom u f * watom v g.
Proof.
  unfold pair_sum, watom. rewrite Rmult_comm, <- sumR_scal. apply sumR_ext. intros s _.
  rewrite (Rmult_comm _ (match s with DiracSeg _ _ => _ | _ => _ end)), <- sumR_scal. apply sumR_ext. intros t _. destruct s, t; ring.
Qed.

Lemma sumR_zero l : (forall v, In v l -> v = 0) -> sumR l = 0.
Proof. induction l as [|a l IH]; intros H; simpl; auto. rewrite (H a), IH; simpl; auto; [lra|]. intros; apply H; simpl; auto. Qed.

Lemma findSegment_total l (x : R) : l <> [] -> exists o, findSegment l x = Ok o /\ forall s, o = Some s -> In s l.
Proof.
  intros N. unfold findSegment. set (ind := bisect_left _ _ _).
  destruct ((0 <? ind)%nat && (ind <? length l)%nat)%bool eqn:E1.
  - apply andb_prop in E1. destruct E1 as (_ & E1). apply Nat.ltb_lt in E1.
    destruct (nth_error l ind) as [s|] eqn:E; [|apply nth_error_None in E; lia].
    eexists; split; eauto. intros s' [= <-]. eapply nth_error_In; eauto.
  - destruct (ind =? 0)%nat eqn:E2.
    + destruct l as [|s l]; [congruence|]. destruct (ble (sa s) x && ble x (sb s))%bool; eexists; split; eauto; try discriminate.
      intros s' [= <-]. simpl; auto.
    + destruct (nth_error l (ind - 1)) as [s|] eqn:E.
      * destruct (beq (sb s) x); eexists; split; eauto; try discriminate. intros s' [= <-]. eapply nth_error_In; eauto.
      * exfalso. apply nth_error_None in E.
        assert (ind <= length l)%nat by (apply bisect_left_bound). apply Nat.eqb_neq in E2.
        destruct l; [congruence|]. simpl in *. lia.
Qed.

Lemma pm_op_mul_zero f g : pm_op Rmult f g 0 = pm f 0 * atom_mass g + atom_mass f * pm g 0 - pm f 0 * pm g 0.
Proof.
  unfold pm_op. rewrite (pair_sum_ext _ (fun x y => (if Req_EM_T x 0 then 1 else 0) * 1 + 1 * (if Req_EM_T y 0 then 1 else 0)
     + -1 * ((if Req_EM_T x 0 then 1 else 0) * (if Req_EM_T y 0 then 1 else 0)))).
  - set (i0 := fun x : R => if Req_EM_T x 0 then 1 else 0).
    change (pair_sum (fun x y => i0 x * 1 + 1 * i0 y + -1 * (i0 x * i0 y)) f g = pm f 0 * atom_mass g + atom_mass f * pm g 0 - pm f 0 * pm g 0).
    rewrite (pair_sum_plus (fun x y => i0 x * 1 + 1 * i0 y) (fun x y => -1 * (i0 x * i0 y))).
    rewrite (pair_sum_plus (fun x y => i0 x * 1) (fun x y => 1 * i0 y)), (pair_sum_scal (-1) (fun x y => i0 x * i0 y)).
    rewrite (pair_sum_mult i0 (fun _ => 1)), (pair_sum_mult (fun _ => 1) i0), (pair_sum_mult i0 i0).
    unfold i0. rewrite !watom_pm, !watom_one. ring.
  - intros x m y k _ _. destruct (Req_EM_T (x * y) 0) as [E|E]; destruct (Req_EM_T x 0) as [E1|E1]; destruct (Req_EM_T y 0) as [E2|E2]; try lra.
    + apply Rmult_integral in E. tauto.
    + exfalso. apply E. rewrite E1; ring.
    + exfalso. apply E. rewrite E1; ring.
    + exfalso. apply E. rewrite E2; ring.
Qed.

Lemma discrete_getDiracs l : discrete l -> getDiracs l = l.
Proof. unfold getDiracs. induction 1 as [|s l Ds D IH]; simpl; auto. rewrite Ds, IH. auto. Qed.

Lemma prod_diracs_ok eps fg f g : 0 <= eps ->
  ordered (segs fg) -> Forall wf_seg (segs fg) -> getDiracs (segs fg) = [] ->
  segs fg <> [] \/ (exists x m y k, In (DiracSeg x m) f /\ In (DiracSeg y k) g) ->
  Forall wf_seg f -> Forall integrable_piece f -> Forall wf_seg g -> Forall integrable_piece g ->
  0 <= cont_mass f -> 0 <= cont_mass g -> 0 <= pm f 0 -> 0 <= pm g 0 ->
  values_sep eps Rmult f g ->
  (forall x m y k, In (DiracSeg x m) f -> In (DiracSeg y k) g -> clear_of (segs fg) (x * y)) ->
  (0 < pm f 0 \/ 0 < pm g 0 -> clear_of (segs fg) 0 /\
     forall x m y k, In (DiracSeg x m) f -> In (DiracSeg y k) g -> x * y = 0 \/ eps < Rabs (x * y)) ->
  exists q, prod_diracs eps fg f g = Ok q /\ good eps (segs q) /\
    getSegments (segs q) = getSegments (segs fg) /\
    (forall z, z <> 0 -> pm (segs q) z = pm_op Rmult f g z) /\
    pm (segs q) 0 = pm_op Rmult f g 0 + pm f 0 * cont_mass g + pm g 0 * cont_mass f /\
    (forall b, In b (dirac_pos (segs q)) -> (b = 0 /\ (0 < pm f 0 \/ 0 < pm g 0)) \/ exists x m y k, In (DiracSeg x m) f /\ In (DiracSeg y k) g /\ b = x * y).
Proof.
  intros He O W ND NE Wf If Wg Ig Cf Cg Zf Zg VS CL Z. unfold prod_diracs.
  destruct (convdiracs_ok eps Rmult f g He) as (d & h & D1 & D2 & D3 & D4 & D5 & D6).
  destruct (D6 VS) as (D7 & D8). rewrite D1. cbn [rbind]. rewrite discrete_getDiracs by auto.
  assert (DP : dirac_pos (segs fg) = []) by (rewrite <- getDiracs_pos, ND; auto).
  destruct (add_atoms_good eps (segs d) fg He) as (q & Q1 & Q2 & Q3 & Q4 & Q5); auto.
  { split; auto. split; auto. apply dirac_sep_pos. rewrite DP. constructor. }
  { intros a Ha. apply D8 in Ha. destruct Ha as (x & m & y & k & H1 & H2 & ->). eauto. }
  { rewrite DP. intros a b Ha [Hb|[]]. apply D8 in Ha. destruct Ha as (x & m & y & k & H1 & H2 & ->).
    apply D8 in Hb. destruct Hb as (x' & m' & y' & k' & H1' & H2' & ->). eauto. }
  rewrite Q1. cbn [rbind].
  assert (P : forall z, pm (segs q) z = pm_op Rmult f g z).
  { intros z. rewrite Q4. rewrite (pm_notin (segs fg)) by (rewrite DP; auto). rewrite D5. unfold pm_op. rewrite Rplus_0_l.
    apply pair_sum_ext. intros. rewrite D7. auto. }
  assert (POS : forall b, In b (dirac_pos (segs q)) -> (b = 0 /\ (0 < pm f 0 \/ 0 < pm g 0)) \/ exists x m y k, In (DiracSeg x m) f /\ In (DiracSeg y k) g /\ b = x * y).
  { intros b Hb. apply Q5 in Hb. rewrite DP in Hb. destruct Hb as [Hb|[]]. right. apply D8; auto. }
  destruct (findSegment_total (segs q) 0) as (o & -> & Ho).
  { intros E. destruct NE as [NE|(x & m & y & k & Hx & Hy)].
    - rewrite E in Q3. destruct (segs fg) as [|s l]; [congruence|].
      unfold getSegments in Q3; simpl in Q3. unfold getDiracs in ND; simpl in ND. destruct s; discriminate.
    - assert (K : In (x * y) (dirac_pos (segs q))) by (apply Q5; left; apply D8; exists x, m, y, k; auto). rewrite E in K. destruct K. }
  cbn [rbind]. unfold probDiracAtZeroInProd. rewrite !zero_mass_val by auto. set (m0 := pm f 0 * cont_mass g + pm g 0 * cont_mass f).
  assert (M0 : 0 <= m0) by (unfold m0; apply Rplus_le_le_0_compat; apply Rmult_le_pos; auto).
  destruct (rltP 0 m0) as [L|L].
  - cbn [smass].
    assert (PP : 0 < pm f 0 \/ 0 < pm g 0).
    { unfold m0 in L. destruct Zf; auto. destruct Zg; auto. rewrite <- H, <- H0 in L. lra. }
    destruct (Z PP) as (Z1 & Z2).
    assert (ADD : exists q', addSegment eps q (DiracSeg 0 m0) = Ok q' /\ good eps (segs q') /\
       getSegments (segs q') = getSegments (segs fg) /\
       (forall z, z <> 0 -> pm (segs q') z = pm_op Rmult f g z) /\ pm (segs q') 0 = pm_op Rmult f g 0 + pm f 0 * cont_mass g + pm g 0 * cont_mass f /\
       (forall b, In b (dirac_pos (segs q')) -> (b = 0 /\ (0 < pm f 0 \/ 0 < pm g 0)) \/ exists x m y k, In (DiracSeg x m) f /\ In (DiracSeg y k) g /\ b = x * y)).
    { destruct (add_atom_good eps q 0 m0 He Q2) as (q' & A1 & A2 & A3 & A4 & A5).
      - eapply clear_of_segments; eauto.
      - intros b Hb. apply Q5 in Hb. rewrite DP in Hb. destruct Hb as [Hb|[]]. apply D8 in Hb.
        destruct Hb as (x & m & y & k & H1 & H2 & ->). destruct (Z2 _ _ _ _ H1 H2) as [->|]; auto.
        right. rewrite Rminus_0_l, Rabs_Ropp. auto.
      - exists q'. splits; auto; [congruence| | |].
        + intros z Hz. rewrite A4, P. destruct (Req_EM_T 0 z); [congruence|ring].
        + rewrite A4, P. destruct (Req_EM_T 0 0); [unfold m0; ring|congruence].
        + intros b Hb. apply A5 in Hb. destruct Hb as [->|Hb]; auto. }
    destruct o as [[| | | |a m|]|]; auto.
    destruct (reqP a 0) as [->|Na]; auto.
    assert (Hin := Ho _ eq_refl).
    pose proof (sep_nodup eps _ He (proj2 (proj2 Q2))) as Nq.
    destruct (set_dirac_pm (segs q) 0 m0 m) as (S1 & S2).
    { exists (DiracSeg 0 m). split; auto. apply getDirac_hit; auto. }
    destruct (set_dirac_props 0 (m + m0) (segs q)) as (T1 & T2 & T3 & T4 & _).
    eexists. split; [reflexivity|]. cbn [segs]. splits; auto.
    + destruct Q2 as (G1 & G2 & G3). split; [eapply ordered_ends; eauto|]. split.
      * apply Forall_forall. intros s Hs. rewrite Forall_forall in G2. destruct (T4 s Hs); auto.
      * apply dirac_sep_pos. rewrite T3. apply dirac_sep_pos; auto.
    + congruence.
    + intros z Hz. rewrite S1, P. destruct (Req_EM_T 0 z); [congruence|ring].
    + rewrite S1, P. destruct (Req_EM_T 0 0); [unfold m0; ring|congruence].
    + intros b Hb. rewrite T3 in Hb. auto.
  - assert (m0 = 0) by lra. exists q. splits; auto.
    rewrite P. unfold m0 in H. lra.
Qed.

(** ** Extrema of discrete variables *)
Lemma discrete_above l z : discrete l -> prob_above l z = watom (fun y => if Rlt_dec z y then 1 else 0) l.
Proof.
  unfold prob_above, total_mass, cdf_spec, watom. induction 1 as [|s l Ds D IH]; simpl; [ring|].
  destruct s as [| | | |a m|]; try discriminate. rewrite <- IH. simpl.
  destruct (Rle_dec a z); destruct (Rlt_dec z a); lra.
Qed.
Lemma discrete_below l z : discrete l -> prob_below l z = watom (fun y => if Rlt_dec y z then 1 else 0) l.
Proof.
  unfold prob_below, cdf_spec, watom. induction 1 as [|s l Ds D IH]; [unfold pm; simpl; ring|].
  destruct s as [| | | |a m|]; try discriminate. rewrite pm_cons. simpl map. rewrite !sumR_cons, <- IH. simpl.
  destruct (Rle_dec a z); destruct (Rlt_dec a z); destruct (Req_EM_T a z); lra.
Qed.

Lemma min_pairs f g z : discrete f -> discrete g ->
  pm f z * prob_above g z + prob_above f z * pm g z + pm f z * pm g z = pm_op Rmin f g z.
Proof.
  intros Df Dg. rewrite !discrete_above by auto. unfold pm_op.
  rewrite <- !watom_pm. set (i0 := fun x : R => if Req_EM_T x z then 1 else 0). set (j0 := fun y : R => if Rlt_dec z y then 1 else 0).
  rewrite <- (pair_sum_mult i0 j0), <- (pair_sum_mult j0 i0), <- (pair_sum_mult i0 i0), <- !pair_sum_plus. apply pair_sum_ext. intros x m y k _ _. unfold i0, j0.
  unfold Rmin. destruct (Rle_dec x y); repeat match goal with |- context [Req_EM_T ?a ?b] => destruct (Req_EM_T a b) | |- context [Rlt_dec ?a ?b] => destruct (Rlt_dec a b) end; try lra.
Qed.
Lemma max_pairs f g z : discrete f -> discrete g ->
  pm f z * prob_below g z + prob_below f z * pm g z + pm f z * pm g z = pm_op Rmax f g z.
Proof.
  intros Df Dg. rewrite !discrete_below by auto. unfold pm_op.
  rewrite <- !watom_pm. set (i0 := fun x : R => if Req_EM_T x z then 1 else 0). set (j0 := fun y : R => if Rlt_dec y z then 1 else 0).
  rewrite <- (pair_sum_mult i0 j0), <- (pair_sum_mult j0 i0), <- (pair_sum_mult i0 i0), <- !pair_sum_plus. apply pair_sum_ext. intros x m y k _ _. unfold i0, j0.
  unfold Rmax. destruct (Rle_dec x y); repeat match goal with |- context [Req_EM_T ?a ?b] => destruct (Req_EM_T a b) | |- context [Rlt_dec ?a ?b] => destruct (Rlt_dec a b) end; try lra.
Qed.

Lemma pm_op_total op f g ps : NoDup ps -> (forall x m y k, In (DiracSeg x m) f -> In (DiracSeg y k) g -> In (op x y) ps) ->
  sumR (map (pm_op op f g) ps) = atom_mass f * atom_mass g.
Proof.
  intros N H. rewrite <- pair_sum_one. unfold pm_op.
  transitivity (pair_sum (fun x y => sumR (map (fun z => if Req_EM_T (op x y) z then 1 else 0) ps)) f g).
  - clear N H. induction ps as [|z ps IH].
    + simpl. symmetry. unfold pair_sum. apply sumR_zero. intros v Hv. apply in_map_iff in Hv. destruct Hv as (s & <- & _).
      apply sumR_zero. intros v Hv. apply in_map_iff in Hv. destruct Hv as (t & <- & _). destruct s, t; ring.
    + cbn [map]. rewrite sumR_cons, IH, <- pair_sum_plus. apply pair_sum_ext. intros. rewrite sumR_cons. reflexivity.
  - apply pair_sum_ext. intros x m y k Hx Hy. specialize (H _ _ _ _ Hx Hy). clear Hx Hy. revert N H. generalize (op x y). clear.
    intros v N H. induction N as [|z ps Nz N IH]; [contradiction|]. simpl map. rewrite sumR_cons.
    destruct (Req_EM_T v z) as [->|Hv].
    + rewrite sumR_zero; [ring|]. intros w Hw. apply in_map_iff in Hw. destruct Hw as (u & <- & Hu).
      destruct (Req_EM_T z u); [subst; contradiction|auto].
    + destruct H as [->|H]; [congruence|]. rewrite IH by auto. ring.
Qed.
