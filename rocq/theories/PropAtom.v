(** Property theorems (Atom). Proofs are in AtomMain.v and the files it imports. *)
From Coq Require Import Reals Lra List Bool Sorted Permutation.
From Coquelicot Require Import Coquelicot.
From Verif Require Import Base Bisect Seg Piecewise PiecewiseSpec PiecewiseFacts PiecewiseFacts2 PiecewiseFacts3 PiecewiseFacts4 Integral SegInt SegIntSpec SegIntFacts Indep IndepSpec AtomFacts AtomFacts2 AtomFacts3.
From Verif Require Import AtomMain.
Import List ListNotations.
Open Scope R_scope.

(** C21: the atoms of op(X,Y).  Whatever the operation, the result exists, consists of ordered atoms
    and has the product of the masses.  Positions may be moved, by the near-duplicate merging of
    addSegment, by at most the tolerance; if the values of the operation are equal or further apart than
    that, nothing is moved and P(op(X,Y) = z) is exactly the sum over the pairs. *)
Theorem discrete_arith :
  forall eps op f g, 0 <= eps ->
  exists q, convdiracs eps op f g = Ok q /\ ordered (segs q) /\ discrete (segs q) /\
    atom_mass (segs q) = atom_mass f * atom_mass g /\
    (exists h : R -> R, (forall k, Rabs (k - h k) <= eps) /\
       forall z, pm (segs q) z = pm_op (fun x y => h (op x y)) f g z) /\
    (values_sep eps op f g ->
      (forall z, pm (segs q) z = pm_op op f g z) /\
      (forall z, (exists m, In (DiracSeg z m) (segs q)) <->
                 exists x m y k, In (DiracSeg x m) f /\ In (DiracSeg y k) g /\ z = op x y)).
Proof. exact discrete_arith_main. Qed.
Print Assumptions discrete_arith.

(** C22: the atoms of min(X,Y). *)
Theorem min_atoms :
  forall eps f g, 0 <= eps ->
  Forall wf_seg f -> Forall integrable_piece f -> no_const f ->
  Forall wf_seg g -> Forall integrable_piece g -> no_const g ->
  dirac_sep eps f -> dirac_sep eps g -> cross_sep eps f g ->
  exists q, probDiracsInMin eps f g = Ok q /\ ordered (segs q) /\ discrete (segs q) /\
    forall z, pm (segs q) z = pm f z * prob_above g z + prob_above f z * pm g z + pm f z * pm g z.
Proof. exact min_atoms_main. Qed.
Print Assumptions min_atoms.

(** C22: the atoms of max(X,Y). *)
Theorem max_atoms :
  forall eps f g, 0 <= eps ->
  Forall wf_seg f -> Forall integrable_piece f -> no_const f ->
  Forall wf_seg g -> Forall integrable_piece g -> no_const g ->
  dirac_sep eps f -> dirac_sep eps g -> cross_sep eps f g ->
  exists q, probDiracsInMax eps f g = Ok q /\ ordered (segs q) /\ discrete (segs q) /\
    forall z, pm (segs q) z = pm f z * prob_below g z + prob_below f z * pm g z + pm f z * pm g z.
Proof. exact max_atoms_main. Qed.
Print Assumptions max_atoms.

(** C22: for purely discrete variables the atoms of the minimum and of the maximum carry the whole mass
    (one for probability distributions), and each value gets the sum over the pairs of atoms. *)
Theorem extrema_discrete :
  forall eps f g, 0 <= eps -> discrete f -> discrete g -> atoms_nodup f -> atoms_nodup g ->
  (exists q, probDiracsInMin eps f g = Ok q /\ discrete (segs q) /\
    atom_mass (segs q) = atom_mass f * atom_mass g /\
    (dirac_sep eps f -> dirac_sep eps g -> cross_sep eps f g -> forall z, pm (segs q) z = pm_op Rmin f g z)) /\
  (exists q, probDiracsInMax eps f g = Ok q /\ discrete (segs q) /\
    atom_mass (segs q) = atom_mass f * atom_mass g /\
    (dirac_sep eps f -> dirac_sep eps g -> cross_sep eps f g -> forall z, pm (segs q) z = pm_op Rmax f g z)).
Proof. exact extrema_discrete_main. Qed.
Print Assumptions extrema_discrete.

(** C23: the atoms of the product: away from zero the sum over the pairs of atoms; at zero exactly
    P(X=0) + P(Y=0) - P(X=0)P(Y=0).  [fg] is the continuous part the atoms are added to. *)
Theorem product_zero :
  forall eps fg f g, 0 <= eps ->
  ordered (segs fg) -> Forall wf_seg (segs fg) -> getDiracs (segs fg) = [] -> segs fg <> [] ->
  Forall wf_seg f -> Forall integrable_piece f -> Forall wf_seg g -> Forall integrable_piece g ->
  total_mass f = 1 -> total_mass g = 1 ->
  0 <= cont_mass f -> 0 <= cont_mass g -> 0 <= pm f 0 -> 0 <= pm g 0 ->
  values_sep eps Rmult f g ->
  (forall x m y k s, In (DiracSeg x m) f -> In (DiracSeg y k) g -> In s (segs fg) -> ~ inside s (x * y)) ->
  (0 < pm f 0 \/ 0 < pm g 0 -> (forall s, In s (segs fg) -> ~ inside s 0) /\
     forall x m y k, In (DiracSeg x m) f -> In (DiracSeg y k) g -> x * y = 0 \/ eps < Rabs (x * y)) ->
  exists q, prod_diracs eps fg f g = Ok q /\ ordered (segs q) /\ dirac_sep eps (segs q) /\
    getSegments (segs q) = segs fg /\
    (forall z, z <> 0 -> pm (segs q) z = pm_op Rmult f g z) /\
    pm (segs q) 0 = pm f 0 + pm g 0 - pm f 0 * pm g 0.
Proof. exact product_zero_main. Qed.
Print Assumptions product_zero.
