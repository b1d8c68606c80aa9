(** Property theorems (CondND). Proofs are in CondNDMain.v and the files it imports. *)
From Coq Require Import Reals Lra Lia List Bool Arith Sorted Permutation.
From Verif Require Import Base ND NDSpec NDFacts NDFacts2 NDFacts3 CondND CondNDSpec CondNDFacts CondNDFacts2 CondNDFacts3 CondNDFacts4.
From Verif Require Import CondNDMain.
Import List ListNotations.
Open Scope R_scope.

(** C68: the conditional density given variables listed in the order of the joint density is the joint density divided
    by its integral over the other variables: inside the box wherever that integral is not zero, an error where it is,
    zero outside the box.  It integrates to one over the other variables.  The integral is taken in one order [l] of the
    other variables, and in every order when integrals may be exchanged. *)
Theorem cond_density :
  forall integ lo hi F cv, homogeneous integ -> wf_nd lo hi F -> sublist cv (nd_vars F) ->
  exists C l, cd_make integ lo hi F cv None = Ok C /\ nd_vars (cd_nd C) = nd_vars F /\ rest_of (nd_vars F) cv l /\
    (fubini integ -> forall l', rest_of (nd_vars F) cv l' -> forall env, integ_all integ lo hi l' (joint lo hi F) env = integ_all integ lo hi l (joint lo hi F) env) /\
    forall env, let Z := integ_all integ lo hi l (joint lo hi F) env in
      (within lo hi (nd_vars F) env -> Z <> 0 -> cd_point lo hi C (map env (nd_vars F)) = Ok (joint lo hi F env / Z)) /\
      (within lo hi (nd_vars F) env -> Z = 0 -> cd_point lo hi C (map env (nd_vars F)) = Err EZeroDiv) /\
      (~ within lo hi (nd_vars F) env -> cd_point lo hi C (map env (nd_vars F)) = Ok 0) /\
      (Z <> 0 -> integ_all integ lo hi l (fun e => num (cd_point lo hi C (map e (nd_vars F)))) env = 1).
Proof. exact cond_density_main. Qed.
Print Assumptions cond_density.

(** C68: eliminating some of the other variables gives the conditional density integrated over them; eliminating all
    of them gives one; eliminating a condition variable raises. *)
Theorem cond_eliminate :
  forall integ lo hi F cv C vs, homogeneous integ -> wf_nd lo hi F -> sublist cv (nd_vars F) -> cd_make integ lo hi F cv None = Ok C -> sublist vs (nd_vars F) ->
  ((exists v, In v vs /\ In v cv) -> cd_elim integ lo hi C vs = Err ERuntime) /\
  (rest_of (nd_vars F) cv vs -> cd_elim integ lo hi C vs = Ok (inl FOne)) /\
  ((forall v, In v vs -> ~ In v cv) -> (exists v, In v (nd_vars F) /\ ~ In v vs /\ ~ In v cv) -> fubini integ ->
     exists C', cd_elim integ lo hi C vs = Ok (inr C') /\ rest_of (nd_vars F) vs (nd_vars (cd_nd C')) /\
       forall env, (exists l, rest_of (nd_vars F) cv l /\ integ_all integ lo hi l (joint lo hi F) env <> 0) ->
         cd_point lo hi C' (map env (nd_vars (cd_nd C'))) = Ok (integ_all integ lo hi vs (fun e => num (cd_point lo hi C (map e (nd_vars F)))) env)).
Proof. exact cond_eliminate_main. Qed.
Print Assumptions cond_eliminate.

(** C68: fixing the values of any variables of a joint density divides it by its integral over the remaining ones when
    that is not zero, and raises otherwise; the result integrates to one. *)
Theorem nd_condition_exact :
  forall integ lo hi F vs X, homogeneous integ -> wf_nd lo hi F -> NoDup vs -> incl vs (nd_vars F) -> length X = length vs ->
  (forall v x, In (v, x) (combine vs X) -> lo v <= x <= hi v) -> (exists v, In v (nd_vars F) /\ ~ In v vs) ->
  exists Z l, rest_of (nd_vars F) vs l /\ (forall env, integ_all integ lo hi l (fun e => joint lo hi F (set_all e vs X)) env = Z) /\
    (Z = 0 -> nd_cond integ lo hi F vs X = Err EZeroDiv) /\
    (Z <> 0 -> exists G, nd_cond integ lo hi F vs X = Ok (FDens G) /\ wf_nd lo hi G /\ rest_of (nd_vars F) vs (nd_vars G) /\
       forall env, joint lo hi G env = joint lo hi F (set_all env vs X) / Z /\ integ_all integ lo hi l (joint lo hi G) env = 1).
Proof. exact nd_condition_exact_main. Qed.
Print Assumptions nd_condition_exact.

(** C68: fixing a value out of the range of its variable raises. *)
Theorem nd_condition_range :
  forall integ lo hi F vs X, wf_nd lo hi F -> incl vs (nd_vars F) -> length X = length vs -> (exists v x, In (v, x) (combine vs X) /\ ~ lo v <= x <= hi v) -> nd_cond integ lo hi F vs X = Err EAssert.
Proof. exact nd_condition_range_main. Qed.
Print Assumptions nd_condition_range.

(** C68: fixing the values of all condition variables, in any order, gives the conditional density at these values. *)
Theorem cond_fix :
  forall integ lo hi F cv C vs X, homogeneous integ -> wf_nd lo hi F -> sublist cv (nd_vars F) -> cd_make integ lo hi F cv None = Ok C -> NoDup vs -> (forall v, In v vs <-> In v cv) -> length X = length vs ->
  (forall v x, In (v, x) (combine vs X) -> lo v <= x <= hi v) -> (exists v, In v (nd_vars F) /\ ~ In v cv) ->
  fubini integ -> (exists env l, rest_of (nd_vars F) cv l /\ integ_all integ lo hi l (joint lo hi F) (set_all env vs X) <> 0) ->
  exists G, cd_condition integ lo hi C vs X = Ok (inl (FDens G)) /\ rest_of (nd_vars F) cv (nd_vars G) /\
    forall env, joint lo hi G env = num (cd_point lo hi C (map (set_all env vs X) (nd_vars F))).
Proof. exact cond_fix_main. Qed.
Print Assumptions cond_fix.

(** C68 fails when only a part of the condition variables is fixed: the old marginal density is kept, it has too many
    variables, and every evaluation inside the box raises. *)
Theorem cond_part_refuted :
  forall integ lo hi F cv C vs X, homogeneous integ -> wf_nd lo hi F -> sublist cv (nd_vars F) -> cd_make integ lo hi F cv None = Ok C -> NoDup vs -> incl vs (nd_vars F) -> length X = length vs ->
  (forall v x, In (v, x) (combine vs X) -> lo v <= x <= hi v) -> (exists v, In v cv /\ ~ In v vs) -> (exists v, In v cv /\ In v vs) ->
  (exists env l, rest_of (nd_vars F) vs l /\ integ_all integ lo hi l (fun e => joint lo hi F (set_all e vs X)) env <> 0) -> fubini integ ->
  exists C', cd_condition integ lo hi C vs X = Ok (inr C') /\
    forall env, within lo hi (nd_vars (cd_nd C')) env -> cd_point lo hi C' (map env (nd_vars (cd_nd C'))) = Err EIndex.
Proof. exact cond_part_refuted_main. Qed.
Print Assumptions cond_part_refuted.

(** C68 fails when another variable is fixed instead: with the joint density x + z of (x, y, z) on the unit cube and
    z as the condition, fixing x = 1 should leave y uniform given z; the code gives the density 4/3 at z = 0. *)
Theorem cond_free_refuted :
  forall integ, homogeneous integ -> linear_exact integ ->
  exists lo hi F C C' env, wf_nd lo hi F /\ cd_make integ lo hi F [2%nat] None = Ok C /\ cd_condition integ lo hi C [0%nat] [1] = Ok (inr C') /\ nd_vars (cd_nd C') = [1; 2]%nat /\ lo O <= 1 <= hi O /\ within lo hi [1; 2]%nat env /\
    integ_all integ lo hi [0; 1; 2]%nat (joint lo hi F) env = 1 /\
    integ_all integ lo hi [1%nat] (joint lo hi F) (upd env 0 1) <> 0 /\ joint lo hi F (upd env 0 1) / integ_all integ lo hi [1%nat] (joint lo hi F) (upd env 0 1) = 1 /\
    cd_point lo hi C' (map env [1; 2]%nat) = Ok (4 / 3).
Proof. exact cond_free_refuted_main. Qed.
Print Assumptions cond_free_refuted.

(** C68 fails for condition variables listed in another order than in the joint density: with the joint density
    2/3 (x + 2 y) of (x, y, z) on the unit cube, the conditional density of z given (y, x) should be one; the code gives
    1/2 at x = 1, y = 0, because the marginal density is called with its arguments exchanged. *)
Theorem cond_order_refuted :
  forall integ, homogeneous integ -> linear_exact integ ->
  exists lo hi F C env, wf_nd lo hi F /\ cd_make integ lo hi F [1; 0]%nat None = Ok C /\ within lo hi (nd_vars F) env /\
    integ_all integ lo hi [0; 1; 2]%nat (joint lo hi F) env = 1 /\
    integ_all integ lo hi [2%nat] (joint lo hi F) env <> 0 /\ joint lo hi F env / integ_all integ lo hi [2%nat] (joint lo hi F) env = 1 /\
    cd_point lo hi C (map env (nd_vars F)) = Ok (1 / 2).
Proof. exact cond_order_refuted_main. Qed.
Print Assumptions cond_order_refuted.
