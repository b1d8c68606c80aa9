(** Property theorems (Ccond). Proofs are in CcondMain.v and the files it imports. *)
From Coq Require Import Reals Lra Lia List Bool Arith.
From Coquelicot Require Import Coquelicot.
From Verif Require Import Base Integral IntegralFacts Copula CopulaSpec CopulaFacts Ccond CcondSpec CcondFacts.
From Verif Require Import CcondMain.
Import List ListNotations.
Open Scope R_scope.

(** C75: differentiating an Archimedean copula of any number of variables with respect to the conditioning variables, one after
    another, gives the derivative of the inverse generator of that order, times the derivatives of the generator. *)
Theorem ccond_formula :
  forall psi fi fi' var X, generator psi fi fi' -> (forall x, In x X -> 0 < x <= 1) ->
  (forall i, (i < length X)%nat -> In i var -> nth i X 0 < 1) ->
  ccond (arch_C psi fi) (length X) var X =
  psi (marked (flags (length X) var)) (sumR (map fi X)) * marked_prod fi' (flags (length X) var) X.
Proof. exact ccond_formula_main. Qed.
Print Assumptions ccond_formula.

(** C75: the conditional distribution of one variable of a copula, given the other one, is a distribution function: it rises from 0 to
    1 and stays between, whichever variable is given and whatever the copula. *)
Theorem ccond_cdf :
  forall C, is_copula2 C ->
  (forall u v, 0 < u < 1 -> in01 v -> ex_derive (fun x => C x v) u -> 0 <= ccond (pair_fun C) 2 [0%nat] [u; v] <= 1) /\
  (forall u v v', 0 < u < 1 -> in01 v -> in01 v' -> v <= v' -> ex_derive (fun x => C x v) u -> ex_derive (fun x => C x v') u ->
     ccond (pair_fun C) 2 [0%nat] [u; v] <= ccond (pair_fun C) 2 [0%nat] [u; v']) /\
  (forall u, 0 < u < 1 -> ccond (pair_fun C) 2 [0%nat] [u; 0] = 0 /\ ccond (pair_fun C) 2 [0%nat] [u; 1] = 1) /\
  (forall u v, 0 < v < 1 -> in01 u -> ex_derive (fun y => C u y) v -> 0 <= ccond (pair_fun C) 2 [1%nat] [u; v] <= 1) /\
  (forall u u' v, 0 < v < 1 -> in01 u -> in01 u' -> u <= u' -> ex_derive (fun y => C u y) v -> ex_derive (fun y => C u' y) v ->
     ccond (pair_fun C) 2 [1%nat] [u; v] <= ccond (pair_fun C) 2 [1%nat] [u'; v]) /\
  (forall v, 0 < v < 1 -> ccond (pair_fun C) 2 [1%nat] [0; v] = 0 /\ ccond (pair_fun C) 2 [1%nat] [1; v] = 1).
Proof. exact ccond_cdf_main. Qed.
Print Assumptions ccond_cdf.

(** C75: integrating conditionCDF([0], x)(y) against the density of the first variable over [a,b] gives the probability of
    {a < X <= b, Y <= y}: sampling the first variable and then the second by inversion has the joint law. *)
Theorem cond_law :
  forall (C : R -> R -> R) m0 m1 (a b y : R), a < b -> covers01 m0 ->
  (forall x, a <= x <= b -> 0 < k_cdf m0 x < 1 /\ is_derive (k_cdf m0) x (k_pdf m0 x) /\ continuous (k_pdf m0) x) ->
  (forall u, 0 < u < 1 -> ex_derive (fun t => C t (k_cdf m1 y)) u /\ continuous (Derive (fun t => C t (k_cdf m1 y))) u) ->
  exists V, (forall x, a <= x <= b -> cond_cdf_fun (pair_fun C) [m0; m1] [0%nat] [x] [y] = Ok (V x)) /\
    integrable (fun x => k_pdf m0 x * V x) a b /\
    Q (fun x => k_pdf m0 x * V x) a b = C (k_cdf m0 b) (k_cdf m1 y) - C (k_cdf m0 a) (k_cdf m1 y).
Proof. exact cond_law_main. Qed.
Print Assumptions cond_law.

(** C75: for a pair with an Archimedean copula, condition([0], x) is the density of conditionCDF([0], x). *)
Theorem cond_density :
  forall psi fi fi' m0 m1 (x y : R), generator psi fi fi' -> covers01 m0 -> 0 < k_cdf m0 x < 1 -> 0 < k_cdf m1 y < 1 -> k_pdf m0 x <> 0 ->
  is_derive (k_cdf m1) y (k_pdf m1 y) ->
  exists V w, locally y (fun t => cond_cdf_fun (arch_C psi fi) [m0; m1] [0%nat] [x] [t] = Ok (V t)) /\
    cond_pdf_fun psi fi fi' [m0; m1] [0%nat] [x] [y] = Ok w /\ is_derive V y w.
Proof. exact cond_density_main. Qed.
Print Assumptions cond_density.

(** C75: for a pair with an Archimedean copula, the same holds when the second variable is given: condition([1], x) is the density of conditionCDF([1], x). *)
Theorem cond_density_second :
  forall psi fi fi' m0 m1 (x y : R), generator psi fi fi' -> covers01 m1 -> 0 < k_cdf m0 x < 1 -> 0 < k_cdf m1 y < 1 -> k_pdf m0 x <> 0 ->
  is_derive (k_cdf m1) y (k_pdf m1 y) ->
  exists V w, locally y (fun t => cond_cdf_fun (arch_C psi fi) [m1; m0] [1%nat] [x] [t] = Ok (V t)) /\
    cond_pdf_fun psi fi fi' [m1; m0] [1%nat] [x] [y] = Ok w /\ is_derive V y w.
Proof. exact cond_density_second_main. Qed.
Print Assumptions cond_density_second.

(** C75: conditionCDF passes probabilities to a function that first compares them with the ranges of the marginals: if all ranges
    lie outside [0,1], it is 0 everywhere; and beyond the range of the free variable it is 0, not 1. *)
Theorem cond_cdf_range_refuted :
  (forall C ms var X Y v, (forall m x, In m ms -> in01 (k_cdf m x)) -> (forall m, In m ms -> Rbar_lt (Finite 1) (k_lo m) \/ Rbar_lt (k_hi m) (Finite 0)) ->
   cond_cdf_fun C ms var X Y = Ok v -> v = 0) /\
  (forall C ms var m X y, Rbar_lt (k_hi m) (Finite y) -> cond_cdf1 C ms var m X y = Ok 0).
Proof. exact cond_cdf_range_refuted_main. Qed.
Print Assumptions cond_cdf_range_refuted.

(** C75: given two variables, the result is not a distribution function: at the top of the third variable it has the density of the
    copula of the two, not 1. For the Clayton copula with theta = 1 and uniform variables at their medians it is 32/27. *)
Theorem cond_two_refuted :
  (forall psi fi fi' m0 m1 m2 x0 x1 y, generator psi fi fi' -> covers01 m0 -> 0 < k_cdf m0 x0 < 1 -> 0 < k_cdf m1 x1 < 1 -> k_cdf m2 y = 1 ->
   cond_cdf_fun (arch_C psi fi) [m0; m1; m2] [0; 1]%nat [x0; x1] [y] = Ok (arch_c psi fi fi' [k_cdf m0 x0; k_cdf m1 x1])) /\
  exists psi fi fi' m, generator psi fi fi' /\ covers01 m /\
    cond_cdf_fun (arch_C psi fi) [m; m; m] [0; 1]%nat [1 / 2; 1 / 2] [1] = Ok (32 / 27).
Proof. exact cond_two_refuted_main. Qed.
Print Assumptions cond_two_refuted.

(** C75: the values of the conditions are taken in the order of the variables, not in the order in which the variables were named:
    naming them in another order changes nothing, so condition([1, 0], x1, x0) takes x1 for variable 0. *)
Theorem cond_var_order :
  forall var var', (forall i, In i var <-> In i var') ->
  (forall C ms X Y, cond_cdf_fun C ms var X Y = cond_cdf_fun C ms var' X Y) /\
  (forall psi fi fi' ms X Y, cond_pdf_fun psi fi fi' ms var X Y = cond_pdf_fun psi fi fi' ms var' X Y).
Proof. exact cond_var_order_main. Qed.
Print Assumptions cond_var_order.

(** C75: condfun at a point is conditionCDF with the point divided into conditions and arguments, if some coordinate of the point lies
    in its range; otherwise it is 0. *)
Theorem condfun_agrees :
  forall C ms var X Y Z, weave (flags (length ms) var) X Y = Ok Z ->
  ((exists m z, In (m, z) (combine ms Z) /\ Rbar_le (k_lo m) (Finite z) /\ Rbar_le (Finite z) (k_hi m)) ->
   cond_cdf_fun C ms var X Y = Ok (condfun C ms var Z)) /\
  ((forall m z, In (m, z) (combine ms Z) -> Rbar_lt (Finite z) (k_lo m) \/ Rbar_lt (k_hi m) (Finite z)) -> condfun C ms var Z = 0).
Proof. exact condfun_agrees_main. Qed.
Print Assumptions condfun_agrees.
