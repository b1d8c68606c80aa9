(** Property theorems (ND). Proofs are in NDMain.v and the files it imports. *)
From Coq Require Import Reals Lra Lia List Bool Arith Sorted Permutation.
From Verif Require Import Base ND NDSpec NDFacts NDFacts2 NDFacts3.
From Verif Require Import NDMain.
Import List ListNotations.
Open Scope R_scope.

(** C46: calling with arrays evaluates every point separately, as the function inside the box and zero outside. *)
Theorem nd_array_pointwise :
  forall F cols n, cols <> [] -> length (nd_a F) = length cols -> length (nd_b F) = length cols -> Forall (fun c => length c = n) cols ->
  length (nd_vector F cols) = n /\
  forall k, (k < n)%nat -> let X := map (fun c => nth k c 0) cols in
    (all_in X (nd_a F) (nd_b F) -> nth k (nd_vector F cols) 0 = if nd_abs F then Rabs (nd_f F X) else nd_f F X) /\
    (~ all_in X (nd_a F) (nd_b F) -> nth k (nd_vector F cols) 0 = 0).
Proof. exact nd_array_pointwise_main. Qed.
Print Assumptions nd_array_pointwise.

(** C46: the value for scalar arguments agrees with the array value at the same point exactly when all or none
    of the coordinates are inside the box, or the function vanishes there. *)
Theorem nd_scalar_array :
  forall F X, X <> [] -> length (nd_a F) = length X -> length (nd_b F) = length X ->
  nd_vector F (map (fun x => [x]) X) = [nd_scalar F X] <-> all_in X (nd_a F) (nd_b F) \/ none_in X (nd_a F) (nd_b F) \/ nd_f F X = 0.
Proof. exact nd_scalar_array_main. Qed.
Print Assumptions nd_scalar_array.

(** C46 refuted as agreement: for the uniform density on the unit square the point (1/2, 7) has density 1 when
    given as scalars and 0 when given as arrays. *)
Theorem nd_scalar_array_refuted :
  exists F X, length X = 2%nat /\ length (nd_a F) = 2%nat /\ length (nd_b F) = 2%nat /\ nd_scalar F X = 1 /\ nd_vector F (map (fun x => [x]) X) = [0].
Proof. exact nd_scalar_array_refuted_main. Qed.
Print Assumptions nd_scalar_array_refuted.

(** C47: collapsing constants leaves the density unchanged, keeps the other factors in order and leaves at most
    one constant, different from one. *)
Theorem optimize_same :
  forall fs, (forall env, density (optimize fs) env = density fs env) /\
  exists k, optimize fs = filter (fun g => match g with FDens _ => true | _ => false end) fs ++ k /\ (k = [] \/ exists c, c <> 1 /\ k = [FConst c]).
Proof. exact optimize_same_main. Qed.
Print Assumptions optimize_same.

(** C47: eliminating one variable that occurs in a product succeeds, and the result is the integral of the whole
    product over the range of that variable; no other variable disappears and the eliminated one does. *)
Theorem eliminate_one :
  forall integ lo hi fs v, homogeneous integ -> Forall (wf_f lo hi) fs -> occurs v fs ->
  exists fs', prod_elim integ lo hi fs [v] = Ok fs' /\ Forall (wf_f lo hi) fs' /\
    (forall env, density fs' env = integ (fun x => density fs (upd env v x)) (lo v) (hi v)) /\
    (forall w, occurs w fs' <-> occurs w fs /\ w <> v).
Proof. exact eliminate_one_main. Qed.
Print Assumptions eliminate_one.

(** C47: the same for any set of variables given in the order of their names, when the variables of every factor
    are in that order too: the result is the iterated integral in some order, and in any order when integrals
    may be exchanged. *)
Theorem eliminate_many :
  forall integ lo hi fs vs, homogeneous integ -> Forall (wf_f lo hi) fs -> Forall srt fs -> StronglySorted lt vs -> (forall v, In v vs -> occurs v fs) ->
  exists fs' l, prod_elim integ lo hi fs vs = Ok fs' /\ Permutation l vs /\ Forall (wf_f lo hi) fs' /\ Forall srt fs' /\
    (forall env, density fs' env = integ_all integ lo hi l (density fs) env) /\
    (fubini integ -> forall l', Permutation l' vs -> forall env, density fs' env = integ_all integ lo hi l' (density fs) env) /\
    (forall w, occurs w fs' <-> occurs w fs /\ ~ In w vs).
Proof. exact eliminate_many_main. Qed.
Print Assumptions eliminate_many.

(** C47 fails for variables given in another order: from a density of four variables, eliminating the first, the
    third and the second eliminates the fourth instead of the third. *)
Theorem eliminate_order_refuted :
  forall integ, exists lo hi fs vs fs', Forall (wf_f lo hi) fs /\ Forall srt fs /\ NoDup vs /\ (forall v, In v vs -> occurs v fs) /\
    prod_elim integ lo hi fs vs = Ok fs' /\ exists v w, In v vs /\ occurs v fs' /\ ~ In w vs /\ occurs w fs /\ ~ occurs w fs'.
Proof. exact eliminate_order_refuted_main. Qed.
Print Assumptions eliminate_order_refuted.

(** C47: conditioning a product on a value of one variable within its range divides the product at that value by
    its integral over the remaining variables, whenever that integral is not zero; the result integrates to one. *)
Theorem condition_one :
  forall integ lo hi fs v x, homogeneous integ -> Forall (wf_f lo hi) fs -> Forall srt fs -> occurs v fs -> lo v <= x <= hi v ->
  exists fs' l Z, prod_cond integ lo hi fs [v] [x] = Ok fs' /\
    (forall w, In w l <-> occurs w fs /\ w <> v) /\ NoDup l /\
    (forall env, integ_all integ lo hi l (fun e => density fs (upd e v x)) env = Z) /\
    (Z <> 0 -> forall env, density fs' env = density fs (upd env v x) / Z /\ integ_all integ lo hi l (density fs') env = 1) /\
    (forall w, occurs w fs' <-> occurs w fs /\ w <> v).
Proof. exact condition_one_main. Qed.
Print Assumptions condition_one.

(** C47 fails for conditioning on two variables of the same factor, which always raises. *)
Theorem condition_two_refuted :
  forall integ lo hi F v w x y, nd_vars F = [v; w] -> v <> w -> prod_cond integ lo hi [FDens F] [v; w] [x; y] = Err EValue.
Proof. exact condition_two_refuted_main. Qed.
Print Assumptions condition_two_refuted.
