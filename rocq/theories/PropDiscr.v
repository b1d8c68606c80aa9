(** Property theorems (Discr). Proofs are in DiscrMain.v and the files it imports. *)
From Coq Require Import Reals Lra List Bool Arith Sorted Permutation Lia.
From Coquelicot Require Import Coquelicot.
From Verif Require Import Base Bisect BisectFacts Seg Piecewise PiecewiseSpec PiecewiseFacts PiecewiseFacts2 PiecewiseFacts4 Integral IntegralFacts SegInt SegIntSpec SegIntFacts CumintFacts SegIntMain IntParts Indep IndepSpec AtomFacts AtomFacts2 AtomFacts3 Discr DiscrSpec DiscrFacts DiscrFacts2.
From Verif Require Import DiscrMain.
Import List ListNotations.
Open Scope R_scope.

(** C28: a discrete distribution keeps exactly the given pairs, with the values in increasing order; the order in
    which they were given does not matter. *)
Theorem discrete_stored :
  (forall xi pi, length xi = length pi -> NoDup xi ->
   exists d, disc_init xi pi = Ok d /\ StronglySorted Rlt (d_xi d) /\ length (d_pi d) = length (d_xi d) /\
     Permutation (combine (d_xi d) (d_pi d)) (combine xi pi)) /\
  (forall xi pi xi' pi', length xi = length pi -> length xi' = length pi' ->
   Permutation (combine xi pi) (combine xi' pi') -> disc_init xi pi = disc_init xi' pi') /\
  (forall xi pi, length xi <> length pi -> disc_init xi pi = Err EAssert).
Proof. exact discrete_stored_main. Qed.
Print Assumptions discrete_stored.

(** C28: its pdf is the given probability at each given value and 0 elsewhere; a value given more than once counts
    with all its probabilities. *)
Theorem discrete_pdf :
  forall xi pi d, disc_init xi pi = Ok d ->
  (forall x, disc_pdf d x = p_eq (combine xi pi) x) /\
  (forall x, ~ In x xi -> disc_pdf d x = 0) /\
  (NoDup xi -> forall x p, In (x, p) (combine xi pi) -> disc_pdf d x = p).
Proof. exact discrete_pdf_main. Qed.
Print Assumptions discrete_pdf.

(** C28: its piecewise density has exactly the given atoms, in increasing order, separated by zero pieces; the
    distribution function computed from it is the given P(X <= x). *)
Theorem discrete_density :
  forall eps xi pi d, 0 <= eps -> values_apart eps xi -> disc_init xi pi = Ok d ->
  exists q, disc_pw eps d = Ok q /\ ordered (segs q) /\ chained (segs q) /\
    getDiracs (segs q) = map (fun p => DiracSeg (fst p) (snd p)) (combine (d_xi d) (d_pi d)) /\
    (forall s, In s (getSegments (segs q)) -> forall x, sf s x = 0) /\
    (forall x, pm (segs q) x = p_eq (combine xi pi) x) /\ total_mass (segs q) = p_all (combine xi pi) /\
    (xi <> [] -> density (segs q) /\ exists c, cumint eps (segs q) = Ok c /\ forall x, call_scalar (segs c) x = Ok (p_le (combine xi pi) x)).
Proof. exact discrete_density_main. Qed.
Print Assumptions discrete_density.

(** C28: for a value given twice building the piecewise density fails (the zero piece between the two copies is
    empty), although pdf works. *)
Theorem discrete_repeated_refuted :
  forall eps x p k, 0 <= eps -> exists d, disc_init [x; x] [p; k] = Ok d /\ disc_pdf d x = p + k /\ disc_pw eps d = Err EAssert.
Proof. exact discrete_repeated_refuted_main. Qed.
Print Assumptions discrete_repeated_refuted.

(** C28: sampling.  For non-negative probabilities the number u of (0,1] gives the value x exactly if u lies
    between P(X < x) and P(X <= x), an interval of length P(X = x); a number above the sum of all probabilities (they
    need not add up to one exactly) raises IndexError, the correction of the index never acts. *)
Theorem discrete_sampling :
  forall xi pi d u, disc_init xi pi = Ok d -> NoDup xi -> Forall (fun p => 0 <= p) pi -> 0 < u ->
  (forall x, disc_rand d u = Ok x <-> In x xi /\ p_lt (combine xi pi) x < u <= p_le (combine xi pi) x) /\
  (forall x, p_le (combine xi pi) x - p_lt (combine xi pi) x = p_eq (combine xi pi) x) /\
  (u <= p_all (combine xi pi) -> exists x, disc_rand d u = Ok x) /\
  (p_all (combine xi pi) < u -> disc_rand d u = Err EIndex).
Proof. exact discrete_sampling_main. Qed.
Print Assumptions discrete_sampling.

(** C28: complementary distribution function: ccdf_value(x) is P(X > x). *)
Theorem ccdf_value_exact :
  forall eps l x, density l -> total_mass l = 1 -> ccdf_value eps l x = Ok (prob_above l x).
Proof. exact ccdf_value_exact_main. Qed.
Print Assumptions ccdf_value_exact.

(** C28: sign(X) takes the values -1, 0, 1 with the probabilities of X < 0, X = 0, X > 0. *)
Theorem sign_exact :
  forall eps l, 0 <= eps -> density l -> Forall nonneg_piece l -> dirac_sep eps l -> total_mass l = 1 ->
  exists d, sign_init eps l = Ok d /\
    disc_pdf d (-1) = prob_below l 0 /\ disc_pdf d 0 = pm l 0 /\ disc_pdf d 1 = prob_above l 0 /\
    (forall x, x <> -1 -> x <> 0 -> x <> 1 -> disc_pdf d x = 0) /\
    (pm l 0 = 0 <-> length (d_xi d) = 2%nat) /\ StronglySorted Rlt (d_xi d).
Proof. exact sign_exact_main. Qed.
Print Assumptions sign_exact.
