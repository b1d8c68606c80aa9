(** Property theorems (Prod). Proofs are in ProdMain.v and the files it imports. *)
From Coq Require Import Reals Lra List Bool Sorted Permutation.
From Coquelicot Require Import Coquelicot.
From Verif Require Import Base Bisect Seg Piecewise PiecewiseSpec PiecewiseFacts Integral SegInt SegIntSpec IntParts IntPartsFacts Indep IndepSpec AtomFacts AtomFacts2 AtomFacts3 ConvolFacts PairFacts ExtrFacts QuotFacts QuotFacts2 ProdFacts ProdFacts2.
From Verif Require Import ProdMain.
Import List ListNotations.
Open Scope R_scope.

(** C27: the pairs of pieces selected for a product.  When no piece has zero inside, the selection
    succeeds, and a pair with at least one continuous piece is selected exactly if the two pieces take values
    x and y with x * y = z.  Pairs of atoms are never selected. *)
Theorem prod_pairs_exact :
  forall f g z, z <> 0 -> Forall wf_seg f -> Forall wf_seg g -> Forall one_sided f -> Forall one_sided g ->
  exists l, findSegList f g z op_mul = Ok l /\
    forall si sj, In si f -> In sj g ->
      (isDirac si = false \/ isDirac sj = false -> In (si, sj) l <-> exists x y : R, takes si x /\ takes sj y /\ z = x * y) /\
      (isDirac si = true -> isDirac sj = true -> ~ In (si, sj) l).
Proof. exact prod_pairs_exact_main. Qed.
Print Assumptions prod_pairs_exact.

(** C27: the pairs selected for a quotient: exactly those that take values x and y with x = z * y. *)
Theorem quot_pairs_exact :
  forall f g z, z <> 0 -> Forall wf_seg f -> Forall wf_seg g ->
    forall si sj, In si f -> In sj g ->
      (isDirac si = false \/ isDirac sj = false -> In (si, sj) (findSegListDiv f g z) <-> exists x y : R, takes si x /\ takes sj y /\ x = z * y) /\
      (isDirac si = true -> isDirac sj = true -> ~ In (si, sj) (findSegListDiv f g z)).
Proof. exact quot_pairs_exact_main. Qed.
Print Assumptions quot_pairs_exact.

(** C27: one value of the density of the product.  With the pairs selected for any z of the same sign that no
    product of ends separates from x, the number computed at x <> 0 is the density of X*Y: the integral of
    f(t) g(x/t) / |t| plus the contributions of the atoms. *)
Theorem prod_point_exact :
  forall f g z x, x <> 0 -> Forall wf_seg f -> Forall wf_seg g -> Forall one_sided f -> Forall one_sided g ->
  same_prod_cell f g z x -> kernel_integrable (fun t => t) (fun t => x / t) (fun t => / Rabs t) f g ->
  exists v, rbind (findSegList f g z op_mul) (fun l => convprod_at_point l x) = Ok v /\ prod_density f g x v.
Proof. exact prod_point_exact_main. Qed.
Print Assumptions prod_point_exact.

(** C27: one value of the density of the quotient, when the denominator has no atoms.  Both ways of computing
    it, over the denominator and over the numerator, give the density of X/Y. *)
Theorem quot_point_exact :
  forall f g z x, x <> 0 -> Forall wf_seg f -> Forall wf_seg g -> Forall one_sided g -> getDiracs g = [] ->
  same_quot_cell f g z x ->
  (kernel_integrable (fun t => x * t) (fun t => t) Rabs f g ->
   exists v, convdiv_at_point (findSegListDiv f g z) x = Ok v /\ quot_density f g x v) /\
  (kernel_integrable (fun t => t) (fun t => t / x) (fun t => Rabs t / x / x) f g ->
   exists v, convdiv2_at_point (findSegListDiv f g z) x = Ok v /\ quot_density f g x v).
Proof. exact quot_point_exact_main. Qed.
Print Assumptions quot_point_exact.

(** C26: an atom in the denominator.  Both ways of computing the quotient give m f(c) |c| instead of
    m f(x c) |c|, so the result is the density of X/Y only if f takes the same value at c and x c (or m is 0). *)
Theorem quot_atom_denominator :
  forall s c m x, wf_seg s -> isDirac s = false -> c <> 0 -> x <> 0 -> takes s (x * c) ->
  convdiv_at_point (findSegListDiv [s] [DiracSeg c m] x) x = Ok (m * sf s c * Rabs c) /\
  convdiv2_at_point (findSegListDiv [s] [DiracSeg c m] x) x = Ok (m * sf s c * Rabs c) /\
  (forall v, quot_density [s] [DiracSeg c m] x v <-> v = m * sf s (x * c) * Rabs c) /\
  (quot_density [s] [DiracSeg c m] x (m * sf s c * Rabs c) <-> m * sf s c = m * sf s (x * c)).
Proof. exact quot_atom_denominator_main. Qed.
Print Assumptions quot_atom_denominator.

(** C26: the case X triangular on [0,4] (density t/8), Y = 2: at 1/2 the code gives 1/2, the density of X/2 there is 1/4. *)
Theorem quot_atom_refuted :
  exists s c m x v, wf_seg s /\ takes s (x * c) /\ m = 1 /\
    convdiv_at_point (findSegListDiv [s] [DiracSeg c m] x) x = Ok v /\ ~ quot_density [s] [DiracSeg c m] x v.
Proof. exact quot_atom_refuted_main. Qed.
Print Assumptions quot_atom_refuted.
