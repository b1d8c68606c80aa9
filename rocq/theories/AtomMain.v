(** Main statements about the discrete parts of arithmetic on independent variables. *)
From Coq Require Import Reals Lra List Bool Sorted Permutation.
From Coquelicot Require Import Coquelicot.
From Verif Require Import Base Bisect Seg Piecewise PiecewiseSpec PiecewiseFacts PiecewiseFacts2 PiecewiseFacts3 PiecewiseFacts4 Integral SegInt SegIntSpec SegIntFacts Indep IndepSpec AtomFacts AtomFacts2 AtomFacts3.
Import List ListNotations.
Open Scope R_scope.

(** C21: the atoms of op(X,Y).  Whatever the operation, the result exists, consists of ordered atoms
    and has the product of the masses.  Positions may be moved, by the near-duplicate merging of
    addSegment, by at most the tolerance; if the values of the operation are equal or further apart than
    that, nothing is moved and P(op(X,Y) = z) is exactly the sum over the pairs. *)
Lemma discrete_arith_main :
  forall eps op f g, 0 <= eps ->
  exists q, convdiracs eps op f g = Ok q /\ ordered (segs q) /\ discrete (segs q) /\
    atom_mass (segs q) = atom_mass f * atom_mass g /\
    (exists h : R -> R, (forall k, Rabs (k - h k) <= eps) /\
       forall z, pm (segs q) z = pm_op (fun x y => h (op x y)) f g z) /\
    (values_sep eps op f g ->
      (forall z, pm (segs q) z = pm_op op f g z) /\
      (forall z, (exists m, In (DiracSeg z m) (segs q)) <->
                 exists x m y k, In (DiracSeg x m) f /\ In (DiracSeg y k) g /\ z = op x y)).
Proof.
  intros eps op f g He. destruct (convdiracs_ok eps op f g He) as (q & h & H1 & H2 & H3 & H4 & H5 & H6).
  exists q. splits; auto.
  - apply (convdiracs_mass eps op); auto.
  - exists h. split; auto.
  - intros S. destruct (H6 S) as (H7 & H8). split.
    + intros z. rewrite H5. apply pair_sum_ext. intros. rewrite H7. auto.
    + intros z. rewrite <- dirac_pos_In. apply H8.
Qed.

(** C22: the atoms of min(X,Y). *)
Lemma min_atoms_main :
  forall eps f g, 0 <= eps ->
  Forall wf_seg f -> Forall integrable_piece f -> no_const f ->
  Forall wf_seg g -> Forall integrable_piece g -> no_const g ->
  dirac_sep eps f -> dirac_sep eps g -> cross_sep eps f g ->
  exists q, probDiracsInMin eps f g = Ok q /\ ordered (segs q) /\ discrete (segs q) /\
    forall z, pm (segs q) z = pm f z * prob_above g z + prob_above f z * pm g z + pm f z * pm g z.
Proof.
  intros eps f g He Wf If Cf Wg Ig Cg Sf Sg Sc.
  destruct (extr_ok (fun g x => pw_integrate g x p_infty) eps f g He) as (q & H1 & H2 & H3 & H4 & H5).
  { eapply sep_nodup; eauto. } { eapply sep_nodup; eauto. }
  destruct (H5 Sf Sg Sc) as (H6 & H7). exists q. splits; auto.
  intros z. rewrite H6, !prob_above_ok; auto.
Qed.

(** C22: the atoms of max(X,Y). *)
Lemma max_atoms_main :
  forall eps f g, 0 <= eps ->
  Forall wf_seg f -> Forall integrable_piece f -> no_const f ->
  Forall wf_seg g -> Forall integrable_piece g -> no_const g ->
  dirac_sep eps f -> dirac_sep eps g -> cross_sep eps f g ->
  exists q, probDiracsInMax eps f g = Ok q /\ ordered (segs q) /\ discrete (segs q) /\
    forall z, pm (segs q) z = pm f z * prob_below g z + prob_below f z * pm g z + pm f z * pm g z.
Proof.
  intros eps f g He Wf If Cf Wg Ig Cg Sf Sg Sc.
  destruct (extr_ok (fun g x => pw_integrate g m_infty x) eps f g He) as (q & H1 & H2 & H3 & H4 & H5).
  { eapply sep_nodup; eauto. } { eapply sep_nodup; eauto. }
  destruct (H5 Sf Sg Sc) as (H6 & H7). exists q. splits; auto.
  intros z. rewrite H6, !prob_below_ok; auto.
Qed.

Lemma discrete_int l : discrete l -> Forall wf_seg l /\ Forall integrable_piece l /\ no_const l.
Proof.
  unfold no_const. intros D. splits; eapply Forall_impl; try exact D; intros s Hs; destruct s; try discriminate; simpl; auto.
Qed.
Lemma extr_discrete (tail spec : list segment -> R -> R) op eps f g :
  0 <= eps -> discrete f -> discrete g -> atoms_nodup f -> atoms_nodup g ->
  (forall l z, discrete l -> tail l z = spec l z) ->
  (forall x y, op x y = x \/ op x y = y) ->
  (forall z, pm f z * spec g z + spec f z * pm g z + pm f z * pm g z = pm_op op f g z) ->
  exists q, probDiracsInExtr tail eps f g = Ok q /\ discrete (segs q) /\
    atom_mass (segs q) = atom_mass f * atom_mass g /\
    (dirac_sep eps f -> dirac_sep eps g -> cross_sep eps f g ->
     forall z, pm (segs q) z = pm_op op f g z).
Proof.
  intros He Df Dg Nf Ng T OP P.
  destruct (extr_ok tail eps f g He Nf Ng) as (q & H1 & H2 & H3 & H4 & H5).
  exists q. splits; auto.
  - rewrite H4.
    set (ps := nodup Req_EM_T (dirac_pos f ++ dirac_pos g)).
    assert (N : NoDup ps) by apply NoDup_nodup.
    assert (IF : forall a, In a (dirac_pos f) -> In a ps) by (intros; apply nodup_In, in_app_iff; auto).
    assert (IG : forall a, In a (dirac_pos g) -> In a ps) by (intros; apply nodup_In, in_app_iff; auto).
    rewrite (discrete_atom_mass (extr_own tail f g) (extr_own_discrete _ _ _) ps N) by (rewrite extr_own_pos; auto).
    rewrite (discrete_atom_mass (extr_own tail g f) (extr_own_discrete _ _ _) ps N) by (rewrite extr_own_pos; auto).
    rewrite (discrete_atom_mass (extr_both f g) (extr_both_discrete _ _) ps N) by (intros a Ha; apply extr_both_pos in Ha; apply IF; tauto).
    rewrite <- (pm_op_total op f g ps N).
    + rewrite <- !sumR_plus. apply sumR_ext. intros z _. rewrite !extr_own_pm, extr_both_pm, !T by auto. rewrite <- P. ring.
    + intros x m y k Hx Hy. destruct (OP x y) as [-> | ->]; [apply IF|apply IG]; apply dirac_pos_In; eauto.
  - intros Sf Sg Sc z. destruct (H5 Sf Sg Sc) as (H6 & _). rewrite H6, !T, <- P by auto. ring.
Qed.

(** C22: for purely discrete variables the atoms of the minimum and of the maximum carry the whole mass
    (one for probability distributions), and each value gets the sum over the pairs of atoms. *)
Lemma extrema_discrete_main :
  forall eps f g, 0 <= eps -> discrete f -> discrete g -> atoms_nodup f -> atoms_nodup g ->
  (exists q, probDiracsInMin eps f g = Ok q /\ discrete (segs q) /\
    atom_mass (segs q) = atom_mass f * atom_mass g /\
    (dirac_sep eps f -> dirac_sep eps g -> cross_sep eps f g -> forall z, pm (segs q) z = pm_op Rmin f g z)) /\
  (exists q, probDiracsInMax eps f g = Ok q /\ discrete (segs q) /\
    atom_mass (segs q) = atom_mass f * atom_mass g /\
    (dirac_sep eps f -> dirac_sep eps g -> cross_sep eps f g -> forall z, pm (segs q) z = pm_op Rmax f g z)).
Proof.
  intros eps f g He Df Dg Nf Ng. split.
  - apply (extr_discrete _ prob_above); auto.
    + intros l z D. destruct (discrete_int l D) as (A & B & C). apply prob_above_ok; auto.
    + intros x y. unfold Rmin. destruct (Rle_dec x y); auto.
    + intros z. apply min_pairs; auto.
  - apply (extr_discrete _ prob_below); auto.
    + intros l z D. destruct (discrete_int l D) as (A & B & C). apply prob_below_ok; auto.
    + intros x y. unfold Rmax. destruct (Rle_dec x y); auto.
    + intros z. apply max_pairs; auto.
Qed.

(** C23: the atoms of the product: away from zero the sum over the pairs of atoms; at zero exactly
    P(X=0) + P(Y=0) - P(X=0)P(Y=0).  [fg] is the continuous part the atoms are added to. *)
Lemma product_zero_main :
  forall eps fg f g, 0 <= eps ->
  ordered (segs fg) -> Forall wf_seg (segs fg) -> getDiracs (segs fg) = [] -> segs fg <> [] ->
  Forall wf_seg f -> Forall integrable_piece f -> Forall wf_seg g -> Forall integrable_piece g ->
  total_mass f = 1 -> total_mass g = 1 ->
  0 <= cont_mass f -> 0 <= cont_mass g -> 0 <= pm f 0 -> 0 <= pm g 0 ->
  values_sep eps Rmult f g ->
  (forall x m y k s, In (DiracSeg x m) f -> In (DiracSeg y k) g -> In s (segs fg) -> ~ inside s (x * y)) ->
  (0 < pm f 0 \/ 0 < pm g 0 -> (forall s, In s (segs fg) -> ~ inside s 0) /\
     forall x m y k, In (DiracSeg x m) f -> In (DiracSeg y k) g -> x * y = 0 \/ eps < Rabs (x * y)) ->
  exists q, prod_diracs eps fg f g = Ok q /\ ordered (segs q) /\ dirac_sep eps (segs q) /\
    getSegments (segs q) = segs fg /\
    (forall z, z <> 0 -> pm (segs q) z = pm_op Rmult f g z) /\
    pm (segs q) 0 = pm f 0 + pm g 0 - pm f 0 * pm g 0.
Proof.
  intros eps fg f g He O W ND NE Wf If Wg Ig Tf Tg Cf Cg Zf Zg VS CL Z.
  destruct (prod_diracs_ok eps fg f g) as (q & Q1 & Q2 & Q3 & Q4 & Q5 & _); auto.
  { intros x m y k Hx Hy s Hs _. eauto. }
  { intros PP. destruct (Z PP) as (Z1 & Z2). split; auto. intros s Hs _. auto. }
  exists q. splits; auto; try apply Q2.
  - rewrite Q3. clear - ND. unfold getDiracs in ND. unfold getSegments. induction (segs fg) as [|s l IH]; auto.
    simpl in ND. unfold isSegment in *. simpl. destruct (isDirac s) eqn:D; [discriminate|]. simpl. rewrite IH; auto.
  - rewrite Q5, pm_op_mul_zero. rewrite mass_split in Tf, Tg.
    replace (cont_mass g) with (1 - atom_mass g) by lra. replace (cont_mass f) with (1 - atom_mass f) by lra. ring.
Qed.
