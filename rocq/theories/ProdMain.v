(** Main statements about products and quotients of independent variables. *)
From Coq Require Import Reals Lra List Bool Sorted Permutation.
From Coquelicot Require Import Coquelicot.
From Verif Require Import Base Bisect Seg Piecewise PiecewiseSpec PiecewiseFacts Integral SegInt SegIntSpec IntParts IntPartsFacts Indep IndepSpec AtomFacts AtomFacts2 AtomFacts3 ConvolFacts PairFacts ExtrFacts QuotFacts QuotFacts2 ProdFacts ProdFacts2.
Import List ListNotations.
Open Scope R_scope.

(** C27: the pairs of pieces selected for a product.  When no piece has zero inside, the selection
    succeeds, and a pair with at least one continuous piece is selected exactly if the two pieces take values
    x and y with x * y = z.  Pairs of atoms are never selected. *)
Lemma prod_pairs_exact_main :
  forall f g z, z <> 0 -> Forall wf_seg f -> Forall wf_seg g -> Forall one_sided f -> Forall one_sided g ->
  exists l, findSegList f g z op_mul = Ok l /\
    forall si sj, In si f -> In sj g ->
      (isDirac si = false \/ isDirac sj = false -> In (si, sj) l <-> exists x y : R, takes si x /\ takes sj y /\ z = x * y) /\
      (isDirac si = true -> isDirac sj = true -> ~ In (si, sj) l).
Proof.
  intros f g z Z Wf Wg Of Og. exists (filter (fun p => prodrel z (fst p) (snd p)) (seg_pairs f g)). split.
  - unfold findSegList. rewrite Forall_forall in *. apply filter_res_ok. intros p Hp. apply seg_pairs_In in Hp. destruct Hp.
    apply pair_relevant_prod. apply corners_ne; auto.
  - rewrite Forall_forall in *. intros si sj Hi Hj. rewrite filter_In. cbn [fst snd]. split.
    + intros D. rewrite <- prodrel_takes; auto. rewrite seg_pairs_In. cbn [fst snd]. tauto.
    + intros Di Dj (_ & K). destruct si, sj; try discriminate. rewrite prodrel_both in K. discriminate.
Qed.

(** C27: the pairs selected for a quotient: exactly those that take values x and y with x = z * y. *)
Lemma quot_pairs_exact_main :
  forall f g z, z <> 0 -> Forall wf_seg f -> Forall wf_seg g ->
    forall si sj, In si f -> In sj g ->
      (isDirac si = false \/ isDirac sj = false -> In (si, sj) (findSegListDiv f g z) <-> exists x y : R, takes si x /\ takes sj y /\ x = z * y) /\
      (isDirac si = true -> isDirac sj = true -> ~ In (si, sj) (findSegListDiv f g z)).
Proof.
  intros f g z Z Wf Wg si sj Hi Hj. rewrite Forall_forall in *.
  assert (E : In (si, sj) (findSegListDiv f g z) <-> divrel z si sj = true).
  { unfold findSegListDiv. rewrite filter_In, seg_pairs_In. cbn [fst snd]. unfold divrel. tauto. }
  rewrite E. split.
  - intros D. apply divrel_takes; auto.
  - intros Di Dj K. destruct si, sj; try discriminate. rewrite divrel_both in K. discriminate.
Qed.

(** C27: one value of the density of the product.  With the pairs selected for any z of the same sign that no
    product of ends separates from x, the number computed at x <> 0 is the density of X*Y: the integral of
    f(t) g(x/t) / |t| plus the contributions of the atoms. *)
Lemma prod_point_exact_main :
  forall f g z x, x <> 0 -> Forall wf_seg f -> Forall wf_seg g -> Forall one_sided f -> Forall one_sided g ->
  same_prod_cell f g z x -> kernel_integrable (fun t => t) (fun t => x / t) (fun t => / Rabs t) f g ->
  exists v, rbind (findSegList f g z op_mul) (fun l => convprod_at_point l x) = Ok v /\ prod_density f g x v.
Proof.
  intros f g z x X Wf Wg Of Og C HI. rewrite (findProd_rel f g z x) by auto. cbn [rbind]. apply prod_value; auto.
Qed.

(** C27: one value of the density of the quotient, when the denominator has no atoms.  Both ways of computing
    it, over the denominator and over the numerator, give the density of X/Y. *)
Lemma quot_point_exact_main :
  forall f g z x, x <> 0 -> Forall wf_seg f -> Forall wf_seg g -> Forall one_sided g -> getDiracs g = [] ->
  same_quot_cell f g z x ->
  (kernel_integrable (fun t => x * t) (fun t => t) Rabs f g ->
   exists v, convdiv_at_point (findSegListDiv f g z) x = Ok v /\ quot_density f g x v) /\
  (kernel_integrable (fun t => t) (fun t => t / x) (fun t => Rabs t / x / x) f g ->
   exists v, convdiv2_at_point (findSegListDiv f g z) x = Ok v /\ quot_density f g x v).
Proof.
  intros f g z x X Wf Wg Og Gd C. rewrite (findDiv_rel f g z x) by auto. split; intros HI.
  - apply div_value; auto.
  - apply div2_value; auto.
Qed.

(** C26: an atom in the denominator.  Both ways of computing the quotient give m f(c) |c| instead of
    m f(x c) |c|, so the result is the density of X/Y only if f takes the same value at c and x c (or m is 0). *)
Lemma quot_atom_denominator_main :
  forall s c m x, wf_seg s -> isDirac s = false -> c <> 0 -> x <> 0 -> takes s (x * c) ->
  convdiv_at_point (findSegListDiv [s] [DiracSeg c m] x) x = Ok (m * sf s c * Rabs c) /\
  convdiv2_at_point (findSegListDiv [s] [DiracSeg c m] x) x = Ok (m * sf s c * Rabs c) /\
  (forall v, quot_density [s] [DiracSeg c m] x v <-> v = m * sf s (x * c) * Rabs c) /\
  (quot_density [s] [DiracSeg c m] x (m * sf s c * Rabs c) <-> m * sf s c = m * sf s (x * c)).
Proof.
  intros s c m x W D C X T.
  assert (E : findSegListDiv [s] [DiracSeg c m] x = [(s, DiracSeg c m)]).
  { change (findSegListDiv [s] [DiracSeg c m] x) with (filter (fun p => divrel x (fst p) (snd p)) [(s, DiracSeg c m)]). cbn [filter fst snd].
    replace (divrel x s (DiracSeg c m)) with true; auto. symmetry. apply rel_atom_r; auto. unfold takes in T. rewrite D in T. auto. }
  rewrite E.
  assert (V1 : convdiv_at_point [(s, DiracSeg c m)] x = Ok (m * sf s c * Rabs c)).
  { unfold convdiv_at_point. cbn [sum_pairs fst snd]. unfold div_pair, isSegment. rewrite D. cbn [isDirac negb andb]. unfold spos. cbn [sa real smass].
    replace (req c 0) with false by (symmetry; apply req_false; auto). cbn [rbind]. f_equal. ring. }
  assert (V2 : convdiv2_at_point [(s, DiracSeg c m)] x = Ok (m * sf s c * Rabs c)).
  { unfold convdiv2_at_point. cbn [sum_pairs fst snd]. unfold div2_pair, isSegment. rewrite D. cbn [isDirac negb andb]. unfold spos. cbn [sa real smass].
    replace (req c 0) with false by (symmetry; apply req_false; auto). cbn [rbind]. f_equal. ring. }
  assert (DN : dens [s] (x * c) = sf s (x * c)).
  { rewrite dens_sum. cbn [map]. rewrite sumR_cons. change (sumR []) with 0. unfold takes in T. rewrite D in T. rewrite dens1_in; [ring|auto|tauto|tauto]. }
  assert (K : forall v, quot_density [s] [DiracSeg c m] x v <-> v = m * sf s (x * c) * Rabs c).
  { assert (DZ : forall t, dens [DiracSeg c m] t = 0) by (intros; rewrite dens_sum; cbn [map]; rewrite sumR_cons; change (sumR []) with 0; rewrite dens1_dirac; auto; ring).
    assert (HZ : has_int (fun t => dens [s] (x * t) * dens [DiracSeg c m] t * Rabs t) m_infty p_infty 0) by (apply has_int_null; intros t; rewrite DZ; ring).
    assert (A1 : atom_sum (fun a => dens [DiracSeg c m] (a / x) * (Rabs a * / x * / x)) [s] = 0).
    { unfold atom_sum. cbn [map]. rewrite sumR_cons. change (sumR []) with 0. destruct s; try discriminate; ring. }
    assert (A2 : atom_sum (fun b => dens [s] (x * b) * Rabs b) [DiracSeg c m] = m * sf s (x * c) * Rabs c).
    { unfold atom_sum. cbn [map]. rewrite sumR_cons. change (sumR []) with 0. rewrite DN. ring. }
    intros v. unfold quot_density. rewrite A1, A2. split.
    - intros (I & H & ->). rewrite (has_int_unique _ _ _ _ H _ HZ). ring.
    - intros ->. exists 0. split; auto. ring. }
  splits; auto. rewrite K. assert (0 < Rabs c) by (apply Rabs_pos_lt; auto). split; intros H0; nra.
Qed.

(** C26: the case X triangular on [0,4] (density t/8), Y = 2: at 1/2 the code gives 1/2, the density of X/2 there is 1/4. *)
Lemma quot_atom_refuted_main :
  exists s c m x v, wf_seg s /\ takes s (x * c) /\ m = 1 /\
    convdiv_at_point (findSegListDiv [s] [DiracSeg c m] x) x = Ok v /\ ~ quot_density [s] [DiracSeg c m] x v.
Proof.
  exists (Seg 0 4 (fun t => t / 8)), 2, 1, (1/2), (1 * (2 / 8) * Rabs 2).
  assert (T : takes (Seg 0 4 (fun t => t / 8)) (1/2 * 2)) by (unfold takes; simpl; lra).
  assert (W : wf_seg (Seg 0 4 (fun t => t / 8))) by (simpl; lra).
  destruct (quot_atom_denominator_main (Seg 0 4 (fun t => t / 8)) 2 1 (1/2) W eq_refl ltac:(lra) ltac:(lra) T) as (A & _ & _ & B).
  splits; auto. intros K. apply B in K. change (1 * (2 / 8) = 1 * (1 / 2 * 2 / 8)) in K. lra.
Qed.
