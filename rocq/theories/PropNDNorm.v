(** Property theorems (NDNorm). Proofs are in NDNormMain.v and the files it imports. *)
From Coq Require Import Reals List Arith Bool Lra Lia.
From Coquelicot Require Import Coquelicot.
From Verif Require Import Base Interp ND NDSpec QuadFacts RMx RMxFacts Std NDNorm NDNormSpec NDNormFacts NDNormFacts2 NDNormFacts3 NDNormFacts4.
From Verif Require Import NDNormMain.
Import List ListNotations.
Open Scope R_scope.

(** A symmetric positive definite covariance matrix of any size is accepted, and the density is that of the textbooks. *)
Theorem nd_textbook : forall vars mu Sigma, normal_params vars mu Sigma ->
  exists g, normal_nd vars mu Sigma = Ok g /\
  forall L, inverse_of (length mu) (entry Sigma) L -> forall X, length X = length mu ->
    ndn_pdf g X = gauss_density (length mu) (fun i => nth i mu 0) (entry Sigma) L (fun i => nth i X 0).
Proof. exact nd_textbook_main. Qed.
Print Assumptions nd_textbook.

(** Calls with arrays agree with calls with scalars. *)
Theorem nd_scalar_array : forall vars mu Sigma g columns, normal_nd vars mu Sigma = Ok g -> length columns = length mu ->
  ndn_pdf_array g columns = map (ndn_pdf g) (points (length (nth 0 columns [])) columns).
Proof. exact nd_scalar_array_main. Qed.
Print Assumptions nd_scalar_array.

(** eliminate gives the marginal: the density of the other variables is the iterated integral over the whole line. *)
Theorem nd_marginal : forall vars mu Sigma g vs, normal_params vars mu Sigma -> normal_nd vars mu Sigma = Ok g -> NoDup vs -> incl vs vars ->
  exists r, ndn_elim g vs = Ok r /\ vars_of r = filter (fun v => negb (existsb (Nat.eqb v) vs)) vars /\
    integrated vs (at_env (NDist g)) (at_env r).
Proof. exact nd_marginal_main. Qed.
Print Assumptions nd_marginal.

(** The density integrates to one. *)
Theorem nd_mass : forall vars mu Sigma g, normal_params vars mu Sigma -> normal_nd vars mu Sigma = Ok g ->
  integrated vars (at_env (NDist g)) (fun _ => 1).
Proof. exact nd_mass_main. Qed.
Print Assumptions nd_mass.

(** The marginal of one variable is the normal density with that mean and variance. *)
Theorem nd_marginal_one : forall vars mu Sigma g i vs, normal_params vars mu Sigma -> normal_nd vars mu Sigma = Ok g -> (i < length mu)%nat ->
  NoDup vs -> (forall v, In v vs <-> In v vars /\ v <> nth i vars O) ->
  exists h, ndn_elim g vs = Ok (NDist h) /\ integrated vs (at_env (NDist g)) (at_env (NDist h)) /\
    forall env, at_env (NDist h) env = normal_pdf (nth i mu 0) (sqrt (entry Sigma i i)) (env (nth i vars O)).
Proof. exact nd_marginal_one_main. Qed.
Print Assumptions nd_marginal_one.

(** Eliminating in two steps is eliminating in one. *)
Theorem nd_elim_twice : forall vars mu Sigma g g1 vs1 vs2, normal_params vars mu Sigma -> normal_nd vars mu Sigma = Ok g ->
  NoDup (vs1 ++ vs2) -> incl (vs1 ++ vs2) vars -> ndn_elim g vs1 = Ok (NDist g1) ->
  exists r1 r2, ndn_elim g1 vs2 = Ok r1 /\ ndn_elim g (vs1 ++ vs2) = Ok r2 /\ vars_of r1 = vars_of r2 /\ forall env, at_env r1 env = at_env r2 env.
Proof. exact nd_elim_twice_main. Qed.
Print Assumptions nd_elim_twice.

(** Without correlations the density is the product of the densities of the coordinates. *)
Theorem nd_diagonal : forall vars mu Sigma g X, normal_nd vars mu Sigma = Ok g -> length X = length mu ->
  (forall i j, (i < length mu)%nat -> (j < length mu)%nat -> i <> j -> entry Sigma i j = 0) -> (forall i, (i < length mu)%nat -> 0 < entry Sigma i i) ->
  ndn_pdf g X = fold_right Rmult 1 (map (fun i => normal_pdf (nth i mu 0) (sqrt (entry Sigma i i)) (nth i X 0)) (seq 0 (length mu))).
Proof. exact nd_diagonal_main. Qed.
Print Assumptions nd_diagonal.

(** With two variables condition gives the conditional density: it integrates to one, and times the marginal it is the joint density. *)
Theorem nd_cond_two : forall vars mu Sigma g v w x, normal_params vars mu Sigma -> normal_nd vars mu Sigma = Ok g -> length mu = 2%nat ->
  In v vars -> In w vars -> v <> w ->
  exists h, ndn_cond g [v] [x] = Ok (NDist h) /\ g_vars h = [w] /\ integrated [w] (at_env (NDist h)) (fun _ => 1) /\
    forall marg, integrated [w] (at_env (NDist g)) marg ->
      forall env, env v = x -> at_env (NDist h) env * marg env = at_env (NDist g) env.
Proof. exact nd_cond_two_main. Qed.
Print Assumptions nd_cond_two.

(** With three or more variables condition always fails, whatever is given, unless nothing is left. *)
Theorem nd_cond_more_refuted : forall vars mu Sigma g vs X, normal_params vars mu Sigma -> normal_nd vars mu Sigma = Ok g -> (3 <= length mu)%nat ->
  (exists v, In v vars /\ ~ In v vs) -> exists e, ndn_cond g vs X = Err e.
Proof. exact nd_cond_more_refuted_main. Qed.
Print Assumptions nd_cond_more_refuted.

(** The variables made by default are not the marginals unless the variance is one. *)
Theorem nd_default_refuted : forall vars mu Sigma i, normal_params vars mu Sigma -> (i < length mu)%nat ->
  ((forall x, default_pdf mu Sigma i x = normal_pdf (nth i mu 0) (sqrt (entry Sigma i i)) x) <-> entry Sigma i i = 1).
Proof. exact nd_default_refuted_main. Qed.
Print Assumptions nd_default_refuted.

(** The object as a function is the density inside the box of five units around the mean and zero outside, where the density is
    positive. *)
Theorem nd_box_refuted : forall vars mu Sigma g X, normal_params vars mu Sigma -> normal_nd vars mu Sigma = Ok g -> length X = length mu ->
  0 < ndn_pdf g X /\
  ((forall i, (i < length mu)%nat -> Rabs (nth i X 0 - nth i mu 0) <= 5) -> nd_point (ndn_fun g) X = ndn_pdf g X) /\
  ((exists i, (i < length mu)%nat /\ 5 < Rabs (nth i X 0 - nth i mu 0)) -> nd_point (ndn_fun g) X = 0).
Proof. exact nd_box_refuted_main. Qed.
Print Assumptions nd_box_refuted.
