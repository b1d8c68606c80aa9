(** Main statements about whole quotients of independent variables. *)
From Coq Require Import Reals Lra Lia List Bool Sorted Permutation.
From Coquelicot Require Import Coquelicot.
From Verif Require Import Base Bisect Seg Piecewise PiecewiseSpec PiecewiseFacts PiecewiseFacts2 PiecewiseFacts3 PiecewiseFacts4 Integral SegInt SegIntSpec IntParts Wide WideMain Indep IndepSpec AtomFacts AtomFacts2 AtomFacts3 ConvolFacts IndepAsm AsmFacts ExtrFacts ExtrFacts2 ExtrFacts3 QuotFacts QuotFacts2 ProdFacts ProdFacts2 ProdAsmFacts DivAsm DivAsmSpec DivAsmFacts DivAsmFacts2 DivAsmFacts3.
Import List ListNotations.
Open Scope R_scope.

Lemma quot_end_aux eps ueps nz f g f' g' q : refines f f' -> refines g g' -> good_ub (dub ueps nz f' g') -> good eps (segs q) ->
  getSegments (segs q) = cells (dval f' g') (dub ueps nz f' g') ->
  (forall b, In b (dirac_pos (segs q)) <-> exists x m y k, In (DiracSeg x m) f /\ In (DiracSeg y k) g /\ b = x / y) ->
  ~ In 0 (dirac_pos g) -> forall y : R, is_end (segs q) y -> end_quot f g y \/ y = 0 \/ y = 1 \/ y = -1.
Proof.
  intros Rf Rg GU _ Q3 Q6 NZ y (s & Hs & E). destruct (isDirac s) eqn:D.
  - left. destruct s; try discriminate. simpl in E. assert (K : Finite a = Finite y) by (destruct E; auto). injection K as ->.
    assert (K : In y (dirac_pos (segs q))) by (apply dirac_pos_In; eauto). apply Q6 in K. destruct K as (u & m1 & w & k & H1 & H2 & ->). exists u, w. splits; auto.
    + left. exists (DiracSeg u m1). simpl; auto.
    + left. exists (DiracSeg w k). simpl; auto.
    + intros ->. apply NZ. apply dirac_pos_In. eauto.
  - assert (C : In s (cells (dval f' g') (dub ueps nz f' g'))) by (rewrite <- Q3; apply filter_In; split; auto; unfold isSegment; rewrite D; auto).
    unfold cells in C. apply in_map_iff in C. destruct C as (ab & <- & H).
    destruct (cell_ends (dval f' g') (dub ueps nz f' g') ab GU H) as (E1 & E2 & _). rewrite E1, E2 in E.
    destruct ab as (a, b). cbn [fst snd] in E. apply pairs_up_In in H; [|apply GU]. destruct H as (H1 & H2 & _).
    eapply dub_fin; eauto. destruct E as [<-|<-]; eauto.
Qed.

(** C26: the whole of convdiv, denominator without atoms.  For independent X and Y the result is an ordered function
    without atoms; at every x that is not 0, 1, -1 or a quotient of ends (or of the points of the split at zero) of
    pieces the value is the density of X/Y; and every finite end of a piece is such a point.  Which of -0.0
    and 0.0 is a break point of the denominator makes no difference to this. *)
Lemma quot_exact_main :
  forall eps ueps nz f g, 0 <= eps ->
  ordered f -> ordered g -> Forall wf_seg f -> Forall wf_seg g -> dirac_sep eps f -> f <> [] -> g <> [] ->
  getDiracs g = [] -> quots_sep ueps f g ->
  exists q, convdiv eps ueps nz f g = Ok q /\ ordered (segs q) /\ Forall wf_seg (segs q) /\ getDiracs (segs q) = [] /\
    (forall x : R, x <> 0 -> x <> 1 -> x <> -1 -> ~ end_quot f g x -> quot_integrable f g x -> quot_density f g x (call_vec (segs q) x)) /\
    (forall y : R, is_end (segs q) y -> end_quot f g y \/ y = 0 \/ y = 1 \/ y = -1).
Proof.
  intros eps ueps nz f g He Of Og Wf Wg Sf Nf Ng Gd QS.
  assert (GA : forall y k, ~ In (DiracSeg y k) g). { intros y k H. apply atom_In in H. rewrite Gd in H. destruct H. }
  assert (NZ : dirac_pos g = []). { destruct (dirac_pos g) as [|y l] eqn:E; auto. exfalso. assert (K : In y (dirac_pos g)) by (rewrite E; simpl; auto). apply dirac_pos_In in K. destruct K as (k & K). eapply GA; eauto. }
  assert (NZ' : ~ In 0 (dirac_pos g)) by (rewrite NZ; auto).
  destruct (convdiv_struct eps ueps nz f g) as (f' & g' & q & Rf & Rg & GU & Q1 & G & Q3 & Q4 & Q5); auto.
  - apply dirac_sep_pos. rewrite NZ. constructor.
  - intros x m y k x' m' y' k' _ H. exfalso. eapply GA; eauto.
  - assert (DP : dirac_pos (segs q) = []). { destruct (dirac_pos (segs q)) as [|b l] eqn:E; auto. exfalso. destruct (proj1 (Q5 b) (or_introl eq_refl)) as (x & m & y & k & _ & H & _). eapply GA; eauto. }
    destruct G as (G1 & G2 & G3). exists q. splits; auto.
    + destruct (getDiracs (segs q)) as [|s l] eqn:E; auto. exfalso. assert (K : In s (getDiracs (segs q))) by (rewrite E; simpl; auto). unfold getDiracs in K. apply filter_In in K. destruct K as (K1 & K2).
      destruct s; try discriminate. assert (K : In a (dirac_pos (segs q))) by (apply dirac_pos_In; eauto). rewrite DP in K. destruct K.
    + intros x X X1 X2 N HI.
      destruct (asm_value (dval f' g') (dub ueps nz f' g') (segs q) x) as [(a & b & H & A & B & A' & B' & ->)|(S & ->)]; auto.
      * intros K. eapply dub_fin in K; eauto. tauto.
      * rewrite DP. auto.
      * eapply dval_density; eauto.
      * eapply outside_quot; eauto.
    + apply (quot_end_aux eps ueps nz f g f' g' q); auto; unfold good; splits; auto.
Qed.

(** C26: quotients of variables with atoms only.  When the denominator does not take the value zero, the atoms of the result
    carry exactly the probabilities of the quotients and all pieces between them are zero. *)
Lemma quot_discrete_exact_main :
  forall eps ueps nz f g, 0 <= eps ->
  discrete f -> discrete g -> ordered f -> ordered g -> dirac_sep eps f -> dirac_sep eps g -> f <> [] -> g <> [] ->
  ~ In 0 (dirac_pos g) -> quots_sep ueps f g -> values_sep eps Rdiv f g ->
  exists q, convdiv eps ueps nz f g = Ok q /\ ordered (segs q) /\ Forall wf_seg (segs q) /\
    (forall z, pm (segs q) z = pm_op Rdiv f g z) /\
    (forall s x, In s (segs q) -> isDirac s = false -> sf s x = 0).
Proof.
  intros eps ueps nz f g He Df Dg Of Og Sf Sg Nf Ng NZ QS VS.
  assert (W : forall l, discrete l -> Forall wf_seg l). { intros l D. eapply Forall_impl; [|exact D]. intros s K. destruct s; try discriminate. exact I. }
  destruct (convdiv_struct eps ueps nz f g) as (f' & g' & q & Rf & Rg & GU & Q1 & (G1 & G2 & G3) & Q3 & Q4 & Q5); auto.
  exists q. splits; auto. intros s x Hs D.
  assert (C : In s (cells (dval f' g') (dub ueps nz f' g'))) by (rewrite <- Q3; apply filter_In; split; auto; unfold isSegment; rewrite D; auto).
  assert (V : forall z y, dval f' g' z y = 0).
  { intros z y. assert (E : findSegListDiv f' g' z = []).
    { destruct (findSegListDiv f' g' z) as [|(si, sj) l] eqn:E; auto. exfalso. assert (Hp : In (si, sj) (findSegListDiv f' g' z)) by (rewrite E; simpl; auto).
      unfold findSegListDiv in Hp. apply filter_In in Hp. destruct Hp as (HS & R). apply seg_pairs_In in HS. cbn [fst snd] in HS, R. destruct HS as (Hi & Hj).
      assert (DD : forall l l' s, refines l l' -> discrete l -> In s l' -> isDirac s = true).
      { intros t t' s0 (_ & _ & _ & _ & _ & _ & P & _) Dt H0. destruct (P s0 H0) as (s1 & H1 & -> & _). unfold discrete in Dt. rewrite Forall_forall in Dt. auto. }
      pose proof (DD f f' si Rf Df Hi) as Di. pose proof (DD g g' sj Rg Dg Hj) as Dj. destruct si, sj; try discriminate.
      change (divrel z (DiracSeg a m) (DiracSeg a0 m0) = true) in R. rewrite divrel_both in R. discriminate. }
    unfold dval. rewrite E. unfold fun_div. destruct (rlt _ _); auto. }
  unfold cells in C. apply in_map_iff in C. destruct C as ((a, b) & <- & H). unfold cell_piece. destruct a, b; simpl; auto.
Qed.

(** C26: the atom of the numerator at zero is lost.  X is 0 or 1 with probability 1/2 each, Y is uniform on [1, 2]:
    X/Y is zero with probability 1/2, but the result has no atom at zero. *)
Lemma quot_zero_atom_refuted_main :
  exists eps ueps nz f g q, 0 <= eps /\ ordered f /\ ordered g /\ Forall wf_seg f /\ Forall wf_seg g /\ total_mass f = 1 /\ total_mass g = 1 /\
    pm f 0 = 1/2 /\ getDiracs g = [] /\ convdiv eps ueps nz f g = Ok q /\ pm (segs q) 0 = 0.
Proof.
  set (f := [DiracSeg 0 (1/2); DiracSeg 1 (1/2)]). set (g := [Seg 1 2 (fun _ => 1)]).
  assert (Of : ordered f) by (unfold f, ordered; repeat first [apply SSorted_cons | apply SSorted_nil | apply Forall_cons | apply Forall_nil]; unfold before; simpl; split; try lra; intros HH; injection HH; lra).
  assert (Og : ordered g) by (unfold g, ordered; repeat constructor).
  assert (Wf : Forall wf_seg f) by (unfold f; repeat constructor). assert (Wg : Forall wf_seg g) by (unfold g; repeat constructor; simpl; lra).
  assert (Cf : forall p : R, zero_cut f p -> p = 0 \/ p = 1).
  { intros p [(s & [<-|[<-|[]]] & E)|(_ & s & [<-|[<-|[]]] & A & B)]; simpl in *; try lra; destruct E as [E|E]; injection E; auto. }
  assert (Cg : forall p : R, zero_cut g p -> p = 1 \/ p = 2).
  { intros p [(s & [<-|[]] & E)|(K & s & [<-|[]] & A & B)]; simpl in *.
    - destruct E as [E|E]; injection E; auto.
    - exfalso. destruct K as [K|[K|[K|(e & (s & [<-|[]] & E) & K)]]]; injection K; intros K1; try lra. simpl in E. destruct E as [E|E]; injection E; intros E1; lra. }
  assert (EQ : forall u, end_quot f g u -> u = 0 \/ u = 1 \/ u = 1/2).
  { intros u (p & r & Hp & Hr & Z & ->). apply Cf in Hp. apply Cg in Hr. destruct Hp as [-> | ->], Hr as [-> | ->]; lra. }
  destruct (quot_exact_main (1/10) (1/10) false f g) as (q & Q1 & _ & _ & Q2 & _); auto; try lra; try discriminate.
  - unfold f, dirac_sep. repeat constructor. rewrite Rabs_left; lra.
  - assert (V : forall u, end_quot f g u \/ u = 0 -> u = 0 \/ u = 1 \/ u = 1/2). { intros u [K|K]; auto. }
    intros u v Hu Hv L. apply V in Hu, Hv. rewrite Rmax_left by (apply Rabs_le; lra). lra.
  - exists (1/10), (1/10), false, f, g, q. splits; auto; try lra.
    + unfold total_mass, f. simpl. lra.
    + unfold total_mass, g. cbn [map]. rewrite sumR_cons, CumintFacts.mass_Q by (simpl; auto; lra). cbn [sa sb]. change (sf (Seg 1 2 (fun _ => 1))) with (fun _ : R => 1). rewrite IntegralFacts.Q_const. simpl. lra.
    + unfold pm, f. simpl. repeat (destruct (Req_EM_T _ _); try lra).
    + apply pm_notin. intros K. apply dirac_pos_In in K. destruct K as (m & K). apply atom_In in K. rewrite Q2 in K. destruct K.
Qed.
