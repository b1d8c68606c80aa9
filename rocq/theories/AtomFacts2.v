(** Facts about atoms in minima, maxima and products. *)
From Coq Require Import Reals Lra List Bool Sorted Permutation.
From Coquelicot Require Import Coquelicot.
From Verif Require Import Base Bisect Seg Piecewise PiecewiseSpec PiecewiseFacts PiecewiseFacts2 PiecewiseFacts3 PiecewiseFacts4 Integral IntegralFacts SegInt SegIntSpec SegIntFacts CumintFacts SegIntMain Indep IndepSpec AtomFacts.
Import List ListNotations.
Open Scope R_scope.

Lemma set_dirac_pm l (x v m : R) : (exists s, getDirac l x = Some s /\ smass s = m) ->
  (forall z, pm (set_dirac x (m + v) l) z = pm l z + if Req_EM_T x z then v else 0) /\
  atom_mass (set_dirac x (m + v) l) = atom_mass l + v.
Proof.
  intros (s & G & M). unfold getDirac in G. induction l as [|t l IH]; [discriminate|].
  simpl in G. destruct t as [| | | |a k|]; simpl in G;
  try (destruct (IH G) as (I1 & I2); unfold atom_mass in *; simpl; rewrite I2; split; [|lra];
       intros z; rewrite !pm_cons, I1; lra).
  destruct (beqP a x) as [E|N].
  - injection E as ->. injection G as <-. simpl in M. subst k. simpl. rewrite req_refl. unfold atom_mass. simpl. split; [|lra].
    intros z. rewrite !pm_cons. simpl. destruct (Req_EM_T x z); lra.
  - destruct (IH G) as (I1 & I2). simpl. destruct (reqP a x) as [->|_]; [congruence|].
    unfold atom_mass in *. simpl. rewrite I2. split; [|lra]. intros z. rewrite !pm_cons, I1. lra.
Qed.

Lemma set_dirac_discrete x m l : discrete l -> discrete (set_dirac x m l).
Proof.
  induction 1 as [|s l Ds D IH]; [constructor|]. destruct s; try discriminate. simpl.
  destruct (req a x); constructor; auto.
Qed.

Lemma add_dirac1_ok eps p (a m : R) : 0 <= eps -> ordered (segs p) -> discrete (segs p) ->
  exists q a', add_dirac1 eps p (DiracSeg a m) = Ok q /\ Rabs (a - a') <= eps /\
    ((forall b, In b (dirac_pos (segs p)) -> a = b \/ eps < Rabs (a - b)) -> a' = a) /\
    ordered (segs q) /\ discrete (segs q) /\
    (forall z, pm (segs q) z = pm (segs p) z + if Req_EM_T a' z then m else 0) /\
    (forall b, In b (dirac_pos (segs q)) <-> b = a' \/ In b (dirac_pos (segs p))).
Proof.
  intros He O D. unfold add_dirac1. cbn [sa]. destruct (getDirac (segs p) a) as [s|] eqn:G.
  - pose proof G as G'. apply getDirac_Some in G'. destruct G' as (k & -> & Hs).
    destruct (set_dirac_pm (segs p) a m k) as (S1 & S2); [eauto|].
    destruct (set_dirac_props a (k + m) (segs p)) as (T1 & T2 & T3 & _).
    exists (PW (set_dirac a (k + m) (segs p)) (brks p)), a. unfold spos. cbn [sa real smass segs]. splits; auto.
    + rewrite Rminus_diag_eq, Rabs_R0; auto.
    + eapply ordered_ends; eauto.
    + apply set_dirac_discrete; auto.
    + intros b. rewrite T3. split; auto. intros [->|]; auto. apply dirac_pos_In; eauto.
  - apply add_atom; auto.
Qed.

Lemma add_diracs_ok eps l : forall p, 0 <= eps -> ordered (segs p) -> discrete (segs p) -> discrete l ->
  exists q, add_dirac_loop eps p l = Ok q /\ ordered (segs q) /\ discrete (segs q) /\
    atom_mass (segs q) = atom_mass (segs p) + atom_mass l /\
    ((forall a b, In a (dirac_pos l) -> In b (dirac_pos l) \/ In b (dirac_pos (segs p)) -> a = b \/ eps < Rabs (a - b)) ->
      (forall z, pm (segs q) z = pm (segs p) z + pm l z) /\
      forall b, In b (dirac_pos (segs q)) <-> In b (dirac_pos l) \/ In b (dirac_pos (segs p))).
Proof.
  induction l as [|s l IH]; intros p He O D Dl.
  - exists p. simpl. splits; auto.
    + unfold atom_mass. simpl. lra.
    + intros _. unfold pm. simpl. split; [intros; ring|tauto].
  - inversion Dl as [|? ? Ds Dl']; subst. destruct s as [| | | |a m|]; try discriminate.
    destruct (add_dirac1_ok eps p a m He O D) as (p1 & a' & E1 & H1 & S1 & O1 & D1 & M1 & P1).
    destruct (IH p1 He O1 D1 Dl') as (q & Q1 & Q2 & Q3 & Q4 & Q5).
    exists q. cbn [add_dirac_loop]. rewrite E1. cbn [rbind]. splits; auto.
    + rewrite Q4. unfold atom_mass at 4. simpl map. rewrite sumR_cons. fold (atom_mass l). simpl.
      assert (K : atom_mass (segs p1) = atom_mass (segs p) + m).
      { set (ps := dirac_pos (segs p1)).
        assert (N : NoDup ps) by (apply ordered_discrete_nodup; auto).
        rewrite (discrete_atom_mass (segs p1) D1 ps N) by auto.
        rewrite (discrete_atom_mass (segs p) D ps N) by (intros b Hb; apply P1; auto).
        rewrite (sumR_ext _ (fun z => pm (segs p) z + pm [DiracSeg a' m] z)).
        - rewrite sumR_plus. f_equal.
          rewrite <- (discrete_atom_mass [DiracSeg a' m]); [unfold atom_mass; simpl; lra|repeat constructor|auto|].
          intros b [<-|[]]. apply P1; auto.
        - intros z _. rewrite M1. unfold pm at 3. simpl. ring. }
      rewrite K. ring.
    + intros S. assert (a' = a). { apply S1. intros b Hb. apply S; simpl; auto. }
      subst a'. destruct Q5 as (Q5 & Q6).
      { intros x b Hx [Hb|Hb].
        - apply S; simpl; auto.
        - apply P1 in Hb. destruct Hb as [->|Hb]; apply S; simpl; auto. }
      split.
      * intros z. rewrite Q5, M1, pm_cons. simpl. ring.
      * intros b. rewrite Q6, P1. simpl. intuition.
Qed.

(** probabilities beyond a point, per piece *)
Lemma above_piece s (x : R) : wf_seg s -> integrable_piece s -> isConst s = false ->
  seg_integrate s x p_infty = mass s - mass_upto s x.
Proof.
  intros W HI C. destruct (isDirac s) eqn:D.
  - destruct s as [| | | |a m|]; try discriminate. unfold seg_integrate, mass, mass_upto. simpl beq.
    destruct (Rle_dec a x) as [L|L].
    + rewrite (proj2 (blt_false x a)) by (simpl; lra). simpl.
      rewrite (proj2 (beq_false x p_infty)) by discriminate. simpl. ring.
    + rewrite (proj2 (blt_true x a)) by (simpl; lra). rewrite (proj2 (blt_true a p_infty)) by (simpl; auto). simpl. ring.
  - assert (W' : Rbar_lt (sa s) (sb s)) by (destruct s; auto; discriminate).
    assert (WL := Rbar_lt_le _ _ W').
    pose proof (integrable_piece_int s D HI) as HI'.
    rewrite seg_integrate_clamp; auto; [|simpl; auto].
    rewrite mass_upto_cpart by auto. rewrite mass_Q; auto. rewrite (clamp_high s p_infty); auto; [|destruct (sb s); simpl; auto].
    destruct (clamp_in s x WL).
    assert (E : cpart s x = Q (sf s) (sa s) (clamp s x)).
    { unfold cpart. destruct s; try discriminate; reflexivity. }
    rewrite E. rewrite <- (Q_chasles (sf s) (sa s) (sb s) (sa s) (clamp s x) (sb s)); auto using Rbar_le_refl. ring.
Qed.

Lemma below_piece s (x : R) : wf_seg s -> integrable_piece s -> isConst s = false ->
  seg_integrate s m_infty x = mass_upto s x - pm1 x s.
Proof.
  intros W HI C. destruct (isDirac s) eqn:D.
  - destruct s as [| | | |a m|]; try discriminate. unfold seg_integrate, mass_upto, pm1.
    rewrite (proj2 (blt_true m_infty a)) by (simpl; auto).
    rewrite (proj2 (beq_false m_infty x)) by discriminate. simpl.
    destruct (Rle_dec a x) as [L|L]; destruct (Req_EM_T a x) as [E|E]; try lra.
    + rewrite (proj2 (blt_false a x)) by (simpl; lra). simpl. ring.
    + rewrite (proj2 (blt_true a x)) by (simpl; lra). simpl. ring.
    + rewrite (proj2 (blt_false a x)) by (simpl; lra). simpl. ring.
  - assert (W' : Rbar_lt (sa s) (sb s)) by (destruct s; auto; discriminate).
    assert (WL := Rbar_lt_le _ _ W').
    pose proof (integrable_piece_int s D HI) as HI'.
    rewrite seg_integrate_clamp; auto; [|simpl; auto].
    rewrite mass_upto_cpart by auto. rewrite (clamp_low s m_infty); auto; [|destruct (sa s); simpl; auto].
    assert (E : cpart s x = Q (sf s) (sa s) (clamp s x)).
    { unfold cpart. destruct s; try discriminate; reflexivity. }
    rewrite E. destruct s; try discriminate; simpl; ring.
Qed.

Lemma prob_above_ok l (x : R) : Forall wf_seg l -> Forall integrable_piece l -> no_const l ->
  pw_integrate l x p_infty = prob_above l x.
Proof.
  intros W HI C. rewrite pw_integrate_sum. unfold prob_above, total_mass, cdf_spec, no_const in *.
  rewrite Forall_forall in W, HI, C.
  rewrite (sumR_ext _ (fun s => mass s + -1 * mass_upto s x)).
  - rewrite sumR_plus, sumR_scal. ring.
  - intros s Hs. rewrite above_piece; auto. ring.
Qed.
Lemma prob_below_ok l (x : R) : Forall wf_seg l -> Forall integrable_piece l -> no_const l ->
  pw_integrate l m_infty x = prob_below l x.
Proof.
  intros W HI C. rewrite pw_integrate_sum. unfold prob_below, cdf_spec, pm, no_const in *.
  rewrite Forall_forall in W, HI, C.
  rewrite (sumR_ext _ (fun s => mass_upto s x + -1 * pm1 x s)).
  - rewrite sumR_plus, sumR_scal. fold (pm1 x). ring_simplify. reflexivity.
  - intros s Hs. rewrite below_piece; auto. ring.
Qed.

(** the three discrete parts *)
Lemma extr_own_pm tail f g z : pm (extr_own tail f g) z = pm f z * tail g z.
Proof.
  unfold extr_own. induction f as [|s f IH]; [unfold pm; simpl; ring|].
  rewrite pm_cons. unfold getDiracs in *. simpl filter.
  destruct s as [| | | |a m|]; cbn [isDirac map]; cbn iota; cbn [map]; rewrite ?pm_cons, IH; unfold spos; cbn [pm1 sa real smass];
  try (unfold pm1; ring). destruct (Req_EM_T a z) as [->|]; ring.
Qed.
Lemma extr_own_mass tail f g : atom_mass (extr_own tail f g) = sumR (map (fun s => smass s * tail g (spos s)) (getDiracs f)).
Proof. unfold atom_mass, extr_own. rewrite map_map. reflexivity. Qed.
Lemma getDiracs_pos l : dirac_pos (getDiracs l) = dirac_pos l.
Proof. induction l as [|s l IH]; auto. unfold getDiracs in *. simpl filter. destruct s; simpl; rewrite ?IH; auto. Qed.
Lemma getDiracs_discrete l : discrete (getDiracs l).
Proof. apply Forall_forall. intros s Hs. apply filter_In in Hs. tauto. Qed.
Lemma extr_own_pos tail f g : dirac_pos (extr_own tail f g) = dirac_pos f.
Proof.
  unfold extr_own. rewrite <- (getDiracs_pos f). pose proof (getDiracs_discrete f) as D.
  induction D as [|s l Ds D IH]; auto. destruct s; try discriminate. simpl. rewrite IH. reflexivity.
Qed.
Lemma extr_own_discrete tail f g : discrete (extr_own tail f g).
Proof. apply Forall_forall. intros s Hs. apply in_map_iff in Hs. destruct Hs as (t & <- & _). reflexivity. Qed.
Lemma extr_both_discrete f g : discrete (extr_both f g).
Proof.
  apply Forall_forall. intros s Hs. apply in_flat_map in Hs. destruct Hs as (t & _ & H).
  destruct (getDirac f (sa t)); [|contradiction]. destruct H as [<-|[]]. reflexivity.
Qed.
Lemma getDirac_pm l (x : R) : atoms_nodup l -> (match getDirac l x with Some d => smass d | None => 0 end) = pm l x.
Proof.
  unfold atoms_nodup, getDirac. induction l as [|s l IH]; intros N; auto.
  rewrite pm_cons. simpl find. destruct s as [| | | |a m|]; simpl in N; simpl;
  try (rewrite IH; auto; lra).
  inversion N as [|? ? N1 N2]; subst. destruct (beqP a x) as [E|NE].
  - injection E as ->. simpl. destruct (Req_EM_T x x); [|congruence].
    assert (pm l x = 0); [|lra]. clear - N1. induction l as [|t l IH]; auto. rewrite pm_cons.
    destruct t as [| | | |b k|]; simpl in *; try (rewrite IH; auto; lra).
    destruct (Req_EM_T b x); [subst; tauto|]. rewrite IH; auto; lra.
  - rewrite IH; auto. destruct (Req_EM_T a x); [congruence|lra].
Qed.
Lemma extr_both_pm f g z : atoms_nodup f -> pm (extr_both f g) z = pm f z * pm g z.
Proof.
  intros N. unfold extr_both. induction g as [|s g IH]; [unfold pm; simpl; ring|].
  rewrite (pm_cons s g). unfold getDiracs in *. simpl filter.
  destruct s as [| | | |a m|]; simpl isDirac; cbn iota; try (rewrite IH; simpl; ring).
  cbn [flat_map]. rewrite pm_app, IH. cbn [sa]. pose proof (getDirac_pm f a N) as P.
  destruct (getDirac f a) as [d|]; [rewrite pm_cons|]; unfold pm at 1; cbn [map sumR fold_right]; unfold pm1, spos; cbn [sa real];
  destruct (Req_EM_T a z) as [E|E]; try subst a; rewrite <- ?P; try (cbn [smass]; simpl sumR; ring).
Qed.
Lemma extr_both_pos f g b : In b (dirac_pos (extr_both f g)) -> In b (dirac_pos f) /\ In b (dirac_pos g).
Proof.
  unfold extr_both. intros H. apply dirac_pos_In in H. destruct H as (m & H). apply in_flat_map in H.
  destruct H as (t & T1 & T2). apply filter_In in T1. destruct T1 as (T1 & T3). destruct t as [| | | |a k|]; try discriminate.
  cbn [sa] in T2. destruct (getDirac f a) as [d|] eqn:G; [|contradiction]. destruct T2 as [E|[]].
  apply getDirac_Some in G. destruct G as (k' & -> & G). unfold spos in E. simpl in E. injection E as <- _.
  split; apply dirac_pos_In; eauto.
Qed.
Lemma extr_both_nodup f g : atoms_nodup g -> NoDup (dirac_pos (extr_both f g)).
Proof.
  unfold atoms_nodup. rewrite <- (getDiracs_pos g). unfold extr_both. pose proof (getDiracs_discrete g) as D.
  induction D as [|s l Ds D IH]; intros N; [constructor|]. destruct s as [| | | |a m|]; try discriminate.
  simpl in N. inversion N as [|? ? N1 N2]; subst. cbn [flat_map]. rewrite dirac_pos_app.
  cbn [sa]. destruct (getDirac f a); simpl; auto. constructor; auto.
  intros C. apply dirac_pos_In in C. destruct C as (k & C). apply in_flat_map in C. destruct C as (t & T1 & T2).
  destruct (getDirac f (sa t)); [|contradiction]. destruct T2 as [E|[]]. injection E as E _. apply N1.
  apply dirac_pos_In. rewrite Forall_forall in D. specialize (D t T1). destruct t as [| | | |b j|]; try discriminate.
  unfold spos in E; simpl in E. subst b. eauto.
Qed.

Lemma addAll_discrete_sep eps l : 0 <= eps -> discrete l -> NoDup (dirac_pos l) ->
  exists q, addAll eps empty_pwf l = Ok q /\ ordered (segs q) /\ discrete (segs q) /\ atom_mass (segs q) = atom_mass l /\
    ((forall a b, In a (dirac_pos l) -> In b (dirac_pos l) -> a = b \/ eps < Rabs (a - b)) ->
     (forall z, pm (segs q) z = pm l z) /\ forall b, In b (dirac_pos (segs q)) <-> In b (dirac_pos l)).
Proof.
  intros He D N.
  assert (E : l = map (fun kv => DiracSeg (fst kv) (snd kv)) (map (fun s => (spos s, smass s)) l) /\ map fst (map (fun s => (spos s, smass s)) l) = dirac_pos l).
  { clear N. induction D as [|s l Ds D (IH1 & IH2)]; auto. destruct s; try discriminate. simpl. rewrite <- IH1, IH2. auto. }
  destruct E as (E1 & E2).
  destruct (add_keys eps (map (fun s => (spos s, smass s)) l) empty_pwf He) as (q & h & Q1 & Q2 & Q3 & Q4 & Q5 & Q6).
  { constructor. } { constructor. } { rewrite E2. auto. }
  exists q. rewrite E1 at 1. splits; auto.
  - rewrite <- E1 in Q1. apply addAll_mass in Q1. rewrite Q1. unfold atom_mass at 1. simpl. ring.
  - intros S. destruct Q6 as (Q6 & Q7).
    { rewrite E2. intros a b Ha [Hb|[]]. auto. }
    split.
    + intros z. rewrite Q5. unfold pm. simpl map at 1. simpl sumR at 1. rewrite Rplus_0_l, map_map. apply sumR_ext.
      intros s Hs. rewrite Q6. unfold discrete in D. rewrite Forall_forall in D. specialize (D s Hs).
      destruct s; try discriminate. unfold spos. simpl. destruct (Req_EM_T a z); ring.
    + intros b. rewrite Q7, E2. simpl. tauto.
Qed.

Lemma extr_ok tail eps f g : 0 <= eps -> atoms_nodup f -> atoms_nodup g ->
  exists q, probDiracsInExtr tail eps f g = Ok q /\ ordered (segs q) /\ discrete (segs q) /\
   atom_mass (segs q) = atom_mass (extr_own tail f g) + atom_mass (extr_own tail g f) + atom_mass (extr_both f g) /\
   (dirac_sep eps f -> dirac_sep eps g -> cross_sep eps f g ->
     (forall z, pm (segs q) z = pm f z * tail g z + tail f z * pm g z + pm f z * pm g z) /\
     forall b, In b (dirac_pos (segs q)) <-> In b (dirac_pos f) \/ In b (dirac_pos g)).
Proof.
  intros He Nf Ng. unfold probDiracsInExtr.
  destruct (addAll_discrete_sep eps (extr_own tail f g) He) as (fd & F1 & F2 & F3 & F4 & F5);
    [apply extr_own_discrete|rewrite extr_own_pos; auto|].
  destruct (addAll_discrete_sep eps (extr_own tail g f) He) as (gd & G1 & G2 & G3 & G4 & G5);
    [apply extr_own_discrete|rewrite extr_own_pos; auto|].
  destruct (addAll_discrete_sep eps (extr_both f g) He) as (hd & H1 & H2 & H3 & H4 & H5);
    [apply extr_both_discrete|apply extr_both_nodup; auto|].
  destruct (add_diracs_ok eps (getDiracs (segs gd)) fd He F2 F3 (getDiracs_discrete _)) as (q1 & A1 & A2 & A3 & A4 & A5).
  destruct (add_diracs_ok eps (getDiracs (segs hd)) q1 He A2 A3 (getDiracs_discrete _)) as (q2 & B1 & B2 & B3 & B4 & B5).
  rewrite atom_mass_getDiracs in *. rewrite getDiracs_pos in *.
  exists q2. rewrite F1, G1, H1. cbn [rbind]. unfold add_diracs. rewrite A1. cbn [rbind]. splits; auto.
  - rewrite B4, A4, F4, G4, H4. ring.
  - intros Sf Sg Sc.
    apply dirac_sep_iff in Sf; auto. destruct Sf as (_ & Sf). apply dirac_sep_iff in Sg; auto. destruct Sg as (_ & Sg).
    assert (Sc' := cross_sep_pos eps f g Sc).
    assert (SF : forall a b, In a (dirac_pos f) -> In b (dirac_pos f) -> a = b \/ eps < Rabs (a - b)).
    { intros a b Ha Hb. destruct (Req_dec a b); auto. }
    assert (SG : forall a b, In a (dirac_pos g) -> In b (dirac_pos g) -> a = b \/ eps < Rabs (a - b)).
    { intros a b Ha Hb. destruct (Req_dec a b); auto. }
    assert (SC : forall a b, In a (dirac_pos g) -> In b (dirac_pos f) -> a = b \/ eps < Rabs (a - b)).
    { intros a b Ha Hb. destruct (Sc' b a Hb Ha) as [->|L]; auto. rewrite Rabs_minus_sym. auto. }
    rewrite !extr_own_pos in *.
    destruct F5 as (F5 & F6); auto. destruct G5 as (G5 & G6); auto.
    destruct H5 as (H5 & H6).
    { intros a b Ha Hb. apply extr_both_pos in Ha. apply extr_both_pos in Hb. apply SF; tauto. }
    destruct A5 as (A5 & A6).
    { intros a b Ha Hb. rewrite G6 in *. rewrite F6 in Hb. destruct Hb; auto. }
    destruct B5 as (B5 & B6).
    { intros a b Ha Hb. rewrite H6 in *. apply extr_both_pos in Ha. rewrite A6, G6, F6 in Hb.
      destruct Hb as [Hb|[Hb|Hb]]; [apply extr_both_pos in Hb| |]; try (apply SF; tauto); apply SG; tauto. }
    split.
    + intros z. rewrite B5, A5, !pm_getDiracs, F5, G5, H5, !extr_own_pm, extr_both_pm; auto. ring.
    + intros b. rewrite B6, A6, H6, G6, F6. split; [|tauto].
      intros [K|[K|K]]; auto. apply extr_both_pos in K. tauto.
Qed.
