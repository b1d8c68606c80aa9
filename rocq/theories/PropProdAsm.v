(** Property theorems (ProdAsm). Proofs are in ProdAsmMain.v and the files it imports. *)
From Coq Require Import Reals Lra Lia List Bool Sorted Permutation.
From Coquelicot Require Import Coquelicot.
From Verif Require Import Base Bisect Seg Piecewise PiecewiseSpec PiecewiseFacts PiecewiseFacts2 PiecewiseFacts3 PiecewiseFacts4 Integral SegInt SegIntSpec IntParts Wide WideMain Indep IndepSpec AtomFacts AtomFacts2 AtomFacts3 IndepAsm AsmFacts ExtrFacts2 ExtrFacts3 ProdAsm ProdAsmSpec ProdAsmFacts DensLaw ProdConstFacts.
From Verif Require TransformSpec.
From Verif Require Import ProdAsmMain.
Import List ListNotations.
Open Scope R_scope.

(** C27: the whole of convprod.  For independent X and Y of total mass one, neither concentrated at zero, the result
    is an ordered function; its atoms carry the probabilities of the values x*y <> 0 of pairs of atoms, and P(X = 0 or Y = 0) at zero; at every
    x <> 0 that is not a product of ends (or cut points -1, 0, 1) of pieces the value is the density of X*Y;
    and every finite end of a piece of the result is such a product. *)
Theorem prod_exact :
  forall eps ueps f g, 0 <= eps ->
  ordered f -> ordered g -> Forall wf_seg f -> Forall wf_seg g -> Forall integrable_piece f -> Forall integrable_piece g ->
  dirac_sep eps f -> dirac_sep eps g -> not_zero f -> not_zero g -> prods_sep ueps f g -> values_sep eps Rmult f g ->
  total_mass f = 1 -> total_mass g = 1 -> 0 <= cont_mass f -> 0 <= cont_mass g -> 0 <= pm f 0 -> 0 <= pm g 0 ->
  exists q, convprod eps ueps f g = Ok q /\ ordered (segs q) /\ Forall wf_seg (segs q) /\ dirac_sep eps (segs q) /\
    (forall z, z <> 0 -> pm (segs q) z = pm_op Rmult f g z) /\
    pm (segs q) 0 = pm f 0 + pm g 0 - pm f 0 * pm g 0 /\
    (forall x : R, x <> 0 -> ~ end_prod f g x -> prod_integrable f g x -> prod_density f g x (call_vec (segs q) x)) /\
    (forall y : R, is_end (segs q) y -> end_prod f g y).
Proof. exact prod_exact_main. Qed.
Print Assumptions prod_exact.

(** C27: multiplying a variable without atoms by the constant zero raises IndexError: all products of break points coincide,
    no piece is made, and the segment at zero is looked up in an empty function. *)
Theorem prod_zero_raises :
  forall eps ueps f m, ordered f -> Forall wf_seg f -> getDiracs f = [] -> convprod eps ueps f [DiracSeg 0 m] = Err EIndex.
Proof. exact prod_zero_raises_main. Qed.
Print Assumptions prod_zero_raises.

(** C27: product with a constant c <> 0 (of mass w): the result carries w times the law of c*X -- density, atoms, and the
    probability of every open interval -- and is again a function with integrable pieces. *)
Theorem prod_const :
  forall eps ueps f c w, 0 <= eps -> ordered f -> Forall wf_seg f -> Forall integrable_piece f -> dirac_sep eps f -> not_zero f -> c <> 0 ->
  prods_sep ueps f [DiracSeg c w] -> 0 <= cont_mass f -> 0 <= pm f 0 -> values_sep eps Rmult f [DiracSeg c w] ->
  exists q, convprod eps ueps f [DiracSeg c w] = Ok q /\ ordered (segs q) /\ Forall wf_seg (segs q) /\ dirac_sep eps (segs q) /\ Forall integrable_piece (segs q) /\
    (forall z, pm (segs q) z = w * pm f (z / c)) /\
    (forall x : R, x <> 0 -> ~ cut_end f (x / c) -> call_vec (segs q) x = w * (dens f (x / c) * / Rabs c)) /\
    (forall y : R, is_end (segs q) y -> cut_end f (y / c)) /\
    (forall u v, Rbar_lt u v -> (0 < c -> TransformSpec.pprob (segs q) (Rbar_mult u c) (Rbar_mult v c) = w * TransformSpec.pprob f u v) /\
                               (c < 0 -> TransformSpec.pprob (segs q) (Rbar_mult v c) (Rbar_mult u c) = w * TransformSpec.pprob f u v)).
Proof. exact prod_const_main. Qed.
Print Assumptions prod_const.
