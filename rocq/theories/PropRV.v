(** Property theorems (RV). Proofs are in RVMain.v and the files it imports. *)
From Coq Require Import Reals Lra Lia List Bool Arith.
From Coquelicot Require Import Coquelicot.
From Verif Require Import Base ND NDSpec Models ModelsSpec RV RVSpec RVFacts RVFacts2 RVFacts3 RVFacts4 RVFacts5.
From Verif Require Import RVMain.
Import List ListNotations.
Open Scope R_scope.

(** C30: an operator between a variable and a number returns an object (or a number) whose value is the result of
    the arithmetic, for every value of the variable at which the arithmetic is defined. *)
Theorem number_operators :
  forall nonneg o left h X r h' v, wf_heap h -> num_op nonneg o left h X r = Ok (h', v) ->
  extends h h' /\ wf_heap h' /\ forall w x z, value h w X x -> arith o left x r z -> pvalue h' w v z.
Proof. exact number_operators_main. Qed.
Print Assumptions number_operators.

(** C30: ... and it raises exactly on division by zero, on a non-special power of a variable that may be negative
    (or cannot tell), and on a power with a negative base. *)
Theorem number_operators_fail :
  forall nonneg o left h X r e, wf_heap h -> (X < length h)%nat -> num_op nonneg o left h X r = Err e <->
  (o = NDiv /\ left = true /\ r = 0 /\ e = EZeroDiv) \/
  (o = NPow /\ left = true /\ ~ (r = 0 \/ r = 1 \/ r = -1 \/ r = 2) /\ (is_nonneg nonneg h X = Err e \/ is_nonneg nonneg h X = Ok false /\ e = EValue)) \/
  (o = NPow /\ left = false /\ r < 0 /\ e = EValue).
Proof. exact number_operators_fail_main. Qed.
Print Assumptions number_operators_fail.

(** C30: the same for two variables, for powers with a variable exponent, for min and max (also with numbers), for
    negation and for abs. *)
Theorem variable_operators :
  forall nonneg h h' v, wf_heap h ->
  (forall o X Y, bin_rv o h X Y = Ok (h', v) -> extends h h' /\ wf_heap h' /\ forall w x y z, value h w X x -> value h w Y y -> bin_is o x y z -> pvalue h' w v z) /\
  (forall X Y, pow_rv nonneg h X Y = Ok (h', v) -> extends h h' /\ wf_heap h' /\ forall w x y, value h w X x -> value h w Y y -> 0 < x -> pvalue h' w v (Rpower x y)) /\
  (forall o a b, minmax o h a b = Ok (h', v) -> extends h h' /\ wf_heap h' /\ forall w x y z, pvalue h w a x -> pvalue h w b y -> bin_is o x y z -> pvalue h' w v z) /\
  (forall X, neg_ h X = Ok (h', v) -> extends h h' /\ wf_heap h' /\ forall w x, value h w X x -> pvalue h' w v (- x)) /\
  (forall X, abs_ h X = Ok (h', v) -> extends h h' /\ wf_heap h' /\ forall w x, value h w X x -> pvalue h' w v (Rabs x)).
Proof. exact variable_operators_main. Qed.
Print Assumptions variable_operators.

(** C31: objects sampled one after another with one cache, nothing below them treated as independent: the results
    are the values of the objects on one joint sample of the base variables, each base variable that occurs being
    drawn exactly once. *)
Theorem shared_cache :
  forall draw h l k xs oc k', wf_heap h -> (forall i, In i l -> tracked h i) -> samples draw h l (Some []) k = Ok (xs, oc, k') ->
  exists w bs, Forall2 (value h w) l xs /\ NoDup bs /\ (forall j, In j bs <-> exists i, In i l /\ uses h i j) /\
  k' = (k + length bs)%nat /\ (forall n j, nth_error bs n = Some j -> w j = draw (k + n)%nat j).
Proof. exact shared_cache_main. Qed.
Print Assumptions shared_cache.

(** C31: a tracked object sampled without a cache makes one for itself. *)
Theorem own_cache :
  forall draw h i k x oc k', wf_heap h -> tracked h i -> sample draw h i None k = Ok (x, oc, k') ->
  oc = None /\ exists w bs, value h w i x /\ NoDup bs /\ (forall j, In j bs <-> uses h i j) /\
  k' = (k + length bs)%nat /\ (forall n j, nth_error bs n = Some j -> w j = draw (k + n)%nat j).
Proof. exact own_cache_main. Qed.
Print Assumptions own_cache.

(** C31: sampling succeeds when no logarithm, inverse or quotient is involved. *)
Theorem sampling_succeeds :
  forall draw h l ca k, wf_heap h -> (forall i, In i l -> (i < length h)%nat /\ no_partial h i) -> exists t, samples draw h l ca k = Ok t.
Proof. exact sampling_succeeds_main. Qed.
Print Assumptions sampling_succeeds.

(** C31: when everything below an object is treated as independent, every occurrence of a base variable is a draw
    of its own, and the cache is left alone. *)
Theorem independent_sample :
  forall draw h i ca k x oc k', (forall j c, under h i j -> nth_error h j = Some c -> c_indep c = true) -> sample draw h i ca k = Ok (x, oc, k') ->
  oc = ca /\ fresh draw h i k x k'.
Proof. exact independent_sample_main. Qed.
Print Assumptions independent_sample.

(** C31: this is what the operators give: X - X, whatever the cache and however X itself is set, is the difference
    of two separate draws. *)
Theorem minus_self_draws :
  forall draw (h : heap) X c h' v ca k, nth_error h X = Some c -> c_kind c = KBase -> bin_rv OSub h X X = Ok (h', v) ->
  exists i, v = VRV i /\ sample draw h' i ca k = Ok (draw k X - draw (S k) X, ca, S (S k)).
Proof. exact minus_self_draws_main. Qed.
Print Assumptions minus_self_draws.

(** C31: so X - X as the operators make it can be sampled as 1. *)
Theorem minus_self_refuted :
  exists draw h i x oc k', bin_rv OSub [Cell KBase [] true true (Some (Finite 0)) (Some (Finite 1)) None (EVar 0) 0] 0 0 = Ok (h, VRV i) /\
  sample draw h i None 0 = Ok (x, oc, k') /\ x <> 0 /\ forall w y, value h w i y -> y = 0.
Proof. exact minus_self_refuted_main. Qed.
Print Assumptions minus_self_refuted.

(** C32: the reported ancestors are exactly the objects reachable through parents, each once. *)
Theorem ancestors :
  forall h i, wf_heap h -> (i < length h)%nat -> exists s, getAncestorIDs h i = Ok s /\ NoDup s /\ forall j, In j s <-> reach h i j.
Proof. exact ancestors_main. Qed.
Print Assumptions ancestors.

(** C32: the dependence warning is given exactly when two of the parents (at different places) have a common
    ancestor. *)
Theorem dependence_warning :
  forall h ps, wf_heap h -> (forall p, In p ps -> (p < length h)%nat) ->
  exists b, warns h [] ps = Ok b /\ (b = true <-> exists l1 p l2 q l3 j, ps = l1 ++ p :: l2 ++ q :: l3 /\ reach h p j /\ reach h q j).
Proof. exact dependence_warning_main. Qed.
Print Assumptions dependence_warning.

(** C32: free and dependent ancestors are those without and with parents; getParentsAll leaves out the free ones. *)
Theorem parents :
  forall (h : heap) i c, wf_heap h -> nth_error h i = Some c ->
  (exists s, getParentsFree h i = Ok s /\ forall j, In j s <-> reach h i j /\ exists c, nth_error h j = Some c /\ c_par c = []) /\
  (exists s, getParentsDep h i = Ok s /\ forall j, In j s <-> reach h i j /\ exists c, nth_error h j = Some c /\ c_par c <> []) /\
  (exists s, getParentsAll h i = Ok s /\ forall j, In j s <-> j = i \/ reach h i j /\ exists c, nth_error h j = Some c /\ c_par c <> []).
Proof. exact parents_main. Qed.
Print Assumptions parents.

(** C33: in a heap made with the constructors, an expression of sums, products, shifts of variables with plain
    ranges and quotients by variables of one sign takes values inside its reported range only, whenever the base
    variables are inside theirs. *)
Theorem ranges_contain :
  forall h w, built h -> (forall j c, nth_error h j = Some c -> c_kind c = KBase -> in_range (range_of c) (w j)) ->
  forall i c x, ranged h i -> nth_error h i = Some c -> value h w i x -> in_range (range_of c) x.
Proof. exact ranges_contain_main. Qed.
Print Assumptions ranges_contain.

(** C33: the range of a difference subtracts low from low and high from high: X - Y for X, Y on [0, 1] is reported
    on [0, 0]. *)
Theorem sub_range_refuted :
  exists h w i c x, built h /\ (forall j c, nth_error h j = Some c -> c_kind c = KBase -> in_range (range_of c) (w j)) /\
  nth_error h i = Some c /\ c_kind c = KBin OSub 0 1 /\ value h w i x /\ ~ in_range (range_of c) x.
Proof. exact sub_range_refuted_main. Qed.
Print Assumptions sub_range_refuted.

(** C33: the range of a shifted variable is computed from the attributes a and b, which stay 0 and 1 for classes
    that only override range(). *)
Theorem shift_range_refuted :
  exists h w i c x, built h /\ (forall j c, nth_error h j = Some c -> c_kind c = KBase -> in_range (range_of c) (w j)) /\
  nth_error h i = Some c /\ c_kind c = KShift 1 1 0 /\ value h w i x /\ ~ in_range (range_of c) x.
Proof. exact shift_range_refuted_main. Qed.
Print Assumptions shift_range_refuted.

(** C33: functions of variables (here exp), like minima and maxima, keep the default range [0, 1]. *)
Theorem function_range_refuted :
  exists h w i c x, built h /\ (forall j c, nth_error h j = Some c -> c_kind c = KBase -> in_range (range_of c) (w j)) /\
  nth_error h i = Some c /\ c_kind c = KUn UExp 0 /\ value h w i x /\ ~ in_range (range_of c) x.
Proof. exact function_range_refuted_main. Qed.
Print Assumptions function_range_refuted.

(** C33: the range of a quotient by a variable that takes both signs leaves out large negative values: 1..2 divided by -1..1. *)
Theorem div_range_refuted :
  exists h w i c x, built h /\ (forall j c, nth_error h j = Some c -> c_kind c = KBase -> in_range (range_of c) (w j)) /\
  nth_error h i = Some c /\ c_kind c = KBin ODiv 0 1 /\ value h w i x /\ ~ in_range (range_of c) x.
Proof. exact div_range_refuted_main. Qed.
Print Assumptions div_range_refuted.

(** C48: a model built from variables that have parents, out of objects with names and equations of their own, when
    the density is over their free ancestors: it is in order, its equations are those of the given variables and
    all their dependent ancestors ... *)
Theorem model_from_variables :
  forall lo hi (h : heap) fac rvs, wf_heap h -> named h -> (forall i, In i rvs -> exists c, nth_error h i = Some c /\ c_par c <> []) -> Forall (wf_f lo hi) fac ->
  (forall j c, involved h rvs j c -> (occurs (c_name c) fac <-> c_par c = [])) ->
  exists M, model_init h fac rvs = Ok M /\ wf_model lo hi M /\ m_dens M = fac /\ (forall v, In v (m_free M) <-> occurs v fac) /\
  (forall v, In v (m_dep M) <-> exists j c, involved h rvs j c /\ c_par c <> [] /\ v = c_name c) /\
  (forall w env, (forall i, In i rvs -> exists x, value h w i x) -> (forall j c, involved h rvs j c -> c_par c = [] -> value h w j (env (c_name c))) ->
     (sol (m_eqs M) env <-> forall j c, involved h rvs j c -> value h w j (env (c_name c)))).
Proof. exact model_from_variables_main. Qed.
Print Assumptions model_from_variables.

(** C48: ... which holds for everything made with the constructors from parentless base variables with default names. *)
Theorem built_objects :
  forall h, built h -> (forall i c, nth_error h i = Some c -> c_kind c = KBase -> c_par c = [] /\ c_name c = i) -> wf_heap h /\ named h.
Proof. exact built_objects_main. Qed.
Print Assumptions built_objects.

(** C48: a free variable among the given ones becomes both free and dependent. *)
Theorem model_free_given_refuted :
  exists h lo hi F M v, built h /\ wf_f lo hi (FDens F) /\ model_init h [FDens F] [0%nat] = Ok M /\ In v (m_free M) /\ In v (m_dep M).
Proof. exact model_free_given_refuted_main. Qed.
Print Assumptions model_free_given_refuted.
