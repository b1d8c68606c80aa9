(** Property theorems (DivAsm). Proofs are in DivAsmMain.v and the files it imports. *)
From Coq Require Import Reals Lra Lia List Bool Sorted Permutation.
From Coquelicot Require Import Coquelicot.
From Verif Require Import Base Bisect Seg Piecewise PiecewiseSpec PiecewiseFacts PiecewiseFacts2 PiecewiseFacts3 PiecewiseFacts4 Integral SegInt SegIntSpec IntParts Wide WideMain Indep IndepSpec AtomFacts AtomFacts2 AtomFacts3 ConvolFacts IndepAsm AsmFacts ExtrFacts ExtrFacts2 ExtrFacts3 QuotFacts QuotFacts2 ProdFacts ProdFacts2 ProdAsmFacts DivAsm DivAsmSpec DivAsmFacts DivAsmFacts2 DivAsmFacts3.
From Verif Require Import DivAsmMain.
Import List ListNotations.
Open Scope R_scope.

(** C26: the whole of convdiv, denominator without atoms.  For independent X and Y the result is an ordered function
    without atoms; at every x that is not 0, 1, -1 or a quotient of ends (or of the points of the split at zero) of
    pieces the value is the density of X/Y; and every finite end of a piece is such a point.  Which of -0.0
    and 0.0 is a break point of the denominator makes no difference to this. *)
Theorem quot_exact :
  forall eps ueps nz f g, 0 <= eps ->
  ordered f -> ordered g -> Forall wf_seg f -> Forall wf_seg g -> dirac_sep eps f -> f <> [] -> g <> [] ->
  getDiracs g = [] -> quots_sep ueps f g ->
  exists q, convdiv eps ueps nz f g = Ok q /\ ordered (segs q) /\ Forall wf_seg (segs q) /\ getDiracs (segs q) = [] /\
    (forall x : R, x <> 0 -> x <> 1 -> x <> -1 -> ~ end_quot f g x -> quot_integrable f g x -> quot_density f g x (call_vec (segs q) x)) /\
    (forall y : R, is_end (segs q) y -> end_quot f g y \/ y = 0 \/ y = 1 \/ y = -1).
Proof. exact quot_exact_main. Qed.
Print Assumptions quot_exact.

(** C26: quotients of variables with atoms only.  When the denominator does not take the value zero, the atoms of the result
    carry exactly the probabilities of the quotients and all pieces between them are zero. *)
Theorem quot_discrete_exact :
  forall eps ueps nz f g, 0 <= eps ->
  discrete f -> discrete g -> ordered f -> ordered g -> dirac_sep eps f -> dirac_sep eps g -> f <> [] -> g <> [] ->
  ~ In 0 (dirac_pos g) -> quots_sep ueps f g -> values_sep eps Rdiv f g ->
  exists q, convdiv eps ueps nz f g = Ok q /\ ordered (segs q) /\ Forall wf_seg (segs q) /\
    (forall z, pm (segs q) z = pm_op Rdiv f g z) /\
    (forall s x, In s (segs q) -> isDirac s = false -> sf s x = 0).
Proof. exact quot_discrete_exact_main. Qed.
Print Assumptions quot_discrete_exact.

(** C26: the atom of the numerator at zero is lost.  X is 0 or 1 with probability 1/2 each, Y is uniform on [1, 2]:
    X/Y is zero with probability 1/2, but the result has no atom at zero. *)
Theorem quot_zero_atom_refuted :
  exists eps ueps nz f g q, 0 <= eps /\ ordered f /\ ordered g /\ Forall wf_seg f /\ Forall wf_seg g /\ total_mass f = 1 /\ total_mass g = 1 /\
    pm f 0 = 1/2 /\ getDiracs g = [] /\ convdiv eps ueps nz f g = Ok q /\ pm (segs q) 0 = 0.
Proof. exact quot_zero_atom_refuted_main. Qed.
Print Assumptions quot_zero_atom_refuted.
