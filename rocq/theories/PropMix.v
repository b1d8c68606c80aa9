(** Property theorems (Mix). Proofs are in MixMain.v and the files it imports. *)
From Coq Require Import Reals Lra Lia List Bool Arith.
From Coquelicot Require Import Coquelicot.
From Verif Require Import Base Seg Piecewise PiecewiseSpec PiecewiseFacts4 Integral IntegralFacts SegInt SegIntSpec SegIntFacts
  Transform TransformSpec TransformFacts TransformFacts2 AtomFacts MixSpec Mix MixFacts.
From Verif Require Import MixMain.
Import List ListNotations.
Open Scope R_scope.

(** The density built by MixDistr gives every interval the weighted sum of the probabilities of the components. *)
Theorem mix_exact : forall eps ps cs, 0 <= eps -> length ps = length cs -> cs <> [] -> Forall (component eps) cs ->
  (forall c d, In c cs -> In d cs -> cross_sep eps c d) ->
  exists q, mix_pdf eps ps cs = Ok q /\ component eps (segs q) /\
    forall u v, Rbar_le u v -> pprob (segs q) u v = mixture_prob ps cs u v.
Proof. exact mix_exact_main. Qed.
Print Assumptions mix_exact.

(** Weights adding to one and components of mass one give a mixture of mass one. *)
Theorem mix_total : forall eps ps cs q, 0 <= eps -> length ps = length cs -> Forall (component eps) cs ->
  (forall c d, In c cs -> In d cs -> cross_sep eps c d) -> (forall c, In c cs -> pprob c m_infty p_infty = 1) -> sumR ps = 1 ->
  mix_pdf eps ps cs = Ok q -> pprob (segs q) m_infty p_infty = 1.
Proof. exact mix_total_main. Qed.
Print Assumptions mix_total.

(** Lists of different lengths and empty lists are refused. *)
Theorem mix_refused : forall eps ps cs, (length ps <> length cs -> mix_pdf eps ps cs = Err EAssert) /\ (cs = [] -> exists e, mix_pdf eps ps cs = Err e).
Proof. exact mix_refused_main. Qed.
Print Assumptions mix_refused.

(** Position j of a sample holds the next unused value drawn from the component chosen at position j. *)
Theorem mix_sample_values : forall nmix idx draw, (forall k m, length (draw k m) = m) -> Forall (fun i => (i < nmix)%nat) idx ->
  length (mix_rand nmix idx draw) = length idx /\
  forall j, (j < length idx)%nat ->
    nth j (mix_rand nmix idx draw) 0 = nth (rank idx j) (draw (nth j idx O) (length (filter (Nat.eqb (nth j idx O)) idx))) 0 /\
    (rank idx j < length (filter (Nat.eqb (nth j idx O)) idx))%nat.
Proof. exact mix_sample_values_main. Qed.
Print Assumptions mix_sample_values.

(** No value is used twice: two positions filled from the same component take different draws. *)
Theorem mix_sample_distinct : forall idx i j, (i < j < length idx)%nat -> nth i idx O = nth j idx O -> rank idx i <> rank idx j.
Proof. exact mix_sample_distinct_main. Qed.
Print Assumptions mix_sample_distinct.

(** The component indices being uniform, every position follows the mixture with equal weights. *)
Theorem mix_sample_law : forall cs n j u v, cs <> [] -> (j < n)%nat ->
  uniform_mean (length cs) n (fun idx => pprob (nth (nth j idx O) cs []) u v) = mixture_prob (repeat (/ INR (length cs)) (length cs)) cs u v.
Proof. exact mix_sample_law_main. Qed.
Print Assumptions mix_sample_law.

(** With equal weights sampling follows the declared density. *)
Theorem mix_uniform_agrees : forall eps cs q n j u v, 0 <= eps -> Forall (component eps) cs ->
  (forall c d, In c cs -> In d cs -> cross_sep eps c d) -> (j < n)%nat -> Rbar_le u v ->
  mix_pdf eps (repeat (/ INR (length cs)) (length cs)) cs = Ok q ->
  uniform_mean (length cs) n (fun idx => pprob (nth (nth j idx O) cs []) u v) = pprob (segs q) u v.
Proof. exact mix_uniform_agrees_main. Qed.
Print Assumptions mix_uniform_agrees.

(** With other weights the two disagree exactly when the weighted sums of the component probabilities do. *)
Theorem mix_agreement : forall eps ps cs q n j u v, 0 <= eps -> length ps = length cs -> Forall (component eps) cs ->
  (forall c d, In c cs -> In d cs -> cross_sep eps c d) -> (j < n)%nat -> Rbar_le u v -> mix_pdf eps ps cs = Ok q ->
  (uniform_mean (length cs) n (fun idx => pprob (nth (nth j idx O) cs []) u v) = pprob (segs q) u v <->
   sumR (map (fun pc => (fst pc - / INR (length cs)) * pprob (snd pc) u v) (combine ps cs)) = 0).
Proof. exact mix_agreement_main. Qed.
Print Assumptions mix_agreement.

(** Weights 1/4, 3/4 on the atoms 0 and 1: the density puts 1/4 below 1/2, the sampler 1/2. *)
Theorem mix_sample_refuted : exists eps ps cs q u v, 0 <= eps /\ length ps = length cs /\ Forall (component eps) cs /\
  (forall c d, In c cs -> In d cs -> cross_sep eps c d) /\ sumR ps = 1 /\ (forall c, In c cs -> pprob c m_infty p_infty = 1) /\
  mix_pdf eps ps cs = Ok q /\ Rbar_le u v /\ uniform_mean (length cs) 1 (fun idx => pprob (nth (nth 0 idx O) cs []) u v) <> pprob (segs q) u v.
Proof. exact mix_sample_refuted_main. Qed.
Print Assumptions mix_sample_refuted.

(** The reported range is the least one containing the ranges of the components. *)
Theorem mix_range_least : forall rs a b, mix_range rs = Ok (a, b) ->
  (forall r, In r rs -> Rbar_le a (fst r) /\ Rbar_le (snd r) b) /\ (exists r, In r rs /\ fst r = a) /\ (exists r, In r rs /\ snd r = b).
Proof. exact mix_range_least_main. Qed.
Print Assumptions mix_range_least.
