(** Main statements about whole products of independent variables. *)
From Coq Require Import Reals Lra Lia List Bool Sorted Permutation.
From Coquelicot Require Import Coquelicot.
From Verif Require Import Base Bisect Seg Piecewise PiecewiseSpec PiecewiseFacts PiecewiseFacts2 PiecewiseFacts3 PiecewiseFacts4 Integral SegInt SegIntSpec IntParts Wide WideMain Indep IndepSpec AtomFacts AtomFacts2 AtomFacts3 IndepAsm AsmFacts ExtrFacts2 ExtrFacts3 ProdAsm ProdAsmSpec ProdAsmFacts DensLaw ProdConstFacts.
From Verif Require TransformSpec.
Import List ListNotations.
Open Scope R_scope.

(** C27: the whole of convprod.  For independent X and Y of total mass one, neither concentrated at zero, the result
    is an ordered function; its atoms carry the probabilities of the values x*y <> 0 of pairs of atoms, and P(X = 0 or Y = 0) at zero; at every
    x <> 0 that is not a product of ends (or cut points -1, 0, 1) of pieces the value is the density of X*Y;
    and every finite end of a piece of the result is such a product. *)
Lemma prod_exact_main :
  forall eps ueps f g, 0 <= eps ->
  ordered f -> ordered g -> Forall wf_seg f -> Forall wf_seg g -> Forall integrable_piece f -> Forall integrable_piece g ->
  dirac_sep eps f -> dirac_sep eps g -> not_zero f -> not_zero g -> prods_sep ueps f g -> values_sep eps Rmult f g ->
  total_mass f = 1 -> total_mass g = 1 -> 0 <= cont_mass f -> 0 <= cont_mass g -> 0 <= pm f 0 -> 0 <= pm g 0 ->
  exists q, convprod eps ueps f g = Ok q /\ ordered (segs q) /\ Forall wf_seg (segs q) /\ dirac_sep eps (segs q) /\
    (forall z, z <> 0 -> pm (segs q) z = pm_op Rmult f g z) /\
    pm (segs q) 0 = pm f 0 + pm g 0 - pm f 0 * pm g 0 /\
    (forall x : R, x <> 0 -> ~ end_prod f g x -> prod_integrable f g x -> prod_density f g x (call_vec (segs q) x)) /\
    (forall y : R, is_end (segs q) y -> end_prod f g y).
Proof.
  intros eps ueps f g He Of Og Wf Wg If Ig Sf Sg Ef Eg PS VS Tf Tg Cf Cg Zf Zg.
  destruct (convprod_struct eps ueps f g) as (q & Q1 & (G1 & G2 & G3) & Q3 & Q4 & Q5 & Q6); auto.
  assert (PG : good_ub (pub ueps f g)) by (apply pub_good; auto).
  exists q. splits; auto.
  - rewrite Q5, pm_op_mul_zero. rewrite mass_split in Tf, Tg.
    replace (cont_mass g) with (1 - atom_mass g) by lra. replace (cont_mass f) with (1 - atom_mass f) by lra. ring.
  - intros x X N HI.
    destruct (asm_value (pval f g) (pub ueps f g) (segs q) x) as [(a & b & H & A & B & A' & B' & ->)|(S & ->)]; auto.
    + intros K. apply pub_fin in K; auto.
    + eapply pval_density; eauto.
    + eapply outside_density; eauto.
  - intros y (s & Hs & E). destruct (isDirac s) eqn:D.
    + apply Q6. destruct s; try discriminate. simpl in E. assert (K : Finite a = Finite y) by (destruct E; auto). injection K as ->.
      apply dirac_pos_In. eauto.
    + assert (C : In s (cells (pval f g) (pub ueps f g))) by (rewrite <- Q3; apply filter_In; split; auto; unfold isSegment; rewrite D; auto).
      unfold cells in C. apply in_map_iff in C. destruct C as (ab & <- & H).
      destruct (cell_ends (pval f g) (pub ueps f g) ab PG H) as (E1 & E2 & _). rewrite E1, E2 in E.
      destruct ab as (a, b). cbn [fst snd] in E. apply pairs_up_In in H; [|apply PG]. destruct H as (H1 & H2 & _).
      apply (pub_fin ueps f g); auto. destruct E as [<-|<-]; auto.
Qed.

(** C27: multiplying a variable without atoms by the constant zero raises IndexError: all products of break points coincide,
    no piece is made, and the segment at zero is looked up in an empty function. *)
Lemma prod_zero_raises_main :
  forall eps ueps f m, ordered f -> Forall wf_seg f -> getDiracs f = [] -> convprod eps ueps f [DiracSeg 0 m] = Err EIndex.
Proof.
  intros eps ueps f m Of Wf Df. unfold convprod.
  assert (DP : dirac_pos f = []). { clear - Df. unfold getDiracs in Df. induction f as [|s l IH]; auto. simpl in Df. destruct s; try discriminate; simpl; auto. }
  destruct (splitByPoints_ok eps f cut_points cut_sorted Of Wf) as (f' & -> & E1 & _). { apply dirac_sep_pos. rewrite DP. constructor. } cbn [rbind].
  destruct (splitByPoints_ok eps [DiracSeg 0 m] cut_points cut_sorted) as (g' & -> & E2 & _). { repeat constructor. } { repeat constructor. } { repeat constructor. } cbn [rbind]. rewrite E1, E2. clear f' g' E1 E2.
  assert (W0 : Forall wf_seg [DiracSeg 0 m]) by (repeat constructor).
  fold (cut f) (cut [DiracSeg 0 m]). set (ub := mul_ub _ _ _).
  assert (A : forall r, In r ub -> r = Finite 0).
  { intros r H. unfold ub, mul_ub in H. destruct (epsunique_separated_main ueps (all_prods (getBreaks (cut f)) (getBreaks (cut [DiracSeg 0 m])))) as (_ & S2 & _).
    apply S2 in H. apply all_prods_In in H. destruct H as (p & q & _ & Hq & E). apply getBreaks_end in Hq. apply cut_ends in Hq; auto.
    assert (q = Finite 0). { destruct Hq as [(s & [<-|[]] & K)|(_ & s & [<-|[]] & K1 & K2)]; simpl in *; [destruct K; auto|]. destruct q; simpl in *; try tauto; lra. }
    subst q. destruct p as [p| |]; unfold op_mul in E; [injection E as <-; simpl; f_equal; ring| |]; destruct (reqP 0 0); congruence. }
  assert (S : StronglySorted Rbar_lt ub) by apply epsunique_separated_main.
  assert (C : ub = [] \/ ub = [Finite 0]).
  { destruct ub as [|a [|b l]]; auto; [rewrite (A a) by (simpl; auto); auto|]. exfalso. inversion S as [|? ? _ F]; subst. inversion F; subst.
    rewrite (A a), (A b) in H1 by (simpl; auto). simpl in H1. lra. }
  assert (AE : forall F, assemble eps F ub = Ok empty_pwf). { intros F. unfold assemble. destruct C as [->| ->]; reflexivity. }
  rewrite AE. cbn [rbind]. unfold prod_diracs, convdiracs, convdiracs_dict, dirac_pairs.
  assert (DC : getDiracs (cut f) = []). { unfold cut. rewrite split_diracs; auto using cut_sorted. }
  rewrite DC. reflexivity.
Qed.

(** C27: product with a constant c <> 0 (of mass w): the result carries w times the law of c*X -- density, atoms, and the
    probability of every open interval -- and is again a function with integrable pieces. *)
Lemma prod_const_main :
  forall eps ueps f c w, 0 <= eps -> ordered f -> Forall wf_seg f -> Forall integrable_piece f -> dirac_sep eps f -> not_zero f -> c <> 0 ->
  prods_sep ueps f [DiracSeg c w] -> 0 <= cont_mass f -> 0 <= pm f 0 -> values_sep eps Rmult f [DiracSeg c w] ->
  exists q, convprod eps ueps f [DiracSeg c w] = Ok q /\ ordered (segs q) /\ Forall wf_seg (segs q) /\ dirac_sep eps (segs q) /\ Forall integrable_piece (segs q) /\
    (forall z, pm (segs q) z = w * pm f (z / c)) /\
    (forall x : R, x <> 0 -> ~ cut_end f (x / c) -> call_vec (segs q) x = w * (dens f (x / c) * / Rabs c)) /\
    (forall y : R, is_end (segs q) y -> cut_end f (y / c)) /\
    (forall u v, Rbar_lt u v -> (0 < c -> TransformSpec.pprob (segs q) (Rbar_mult u c) (Rbar_mult v c) = w * TransformSpec.pprob f u v) /\
                               (c < 0 -> TransformSpec.pprob (segs q) (Rbar_mult v c) (Rbar_mult u c) = w * TransformSpec.pprob f u v)).
Proof.
  intros eps ueps f c w He Of Wf If Sf Ef C0 PS Cf Zf VS.
  destruct (const_law eps ueps f c w) as (q & Q1 & (G1 & G2 & G3) & Q2 & Q3 & Q4 & Q5 & Q6); auto. exists q. splits; auto.
Qed.
