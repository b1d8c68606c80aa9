(** Property theorems (Copula). Proofs are in CopulaMain.v and the files it imports. *)
From Coq Require Import Reals Lra Lia List Bool Arith Permutation.
From Coquelicot Require Import Coquelicot.
From Verif Require Import Base AtomFacts Copula CopulaSpec CopulaFacts CopulaFacts2 CopulaFacts3.
From Verif Require Import CopulaMain.
Import List ListNotations.
Open Scope R_scope.

(** Any two-dimensional copula lies between the Frechet bounds, so Blomqvist's beta is between -1 and 1. *)
Theorem frechet_bounds :
  forall (C : R -> R -> R) u v, is_copula2 C -> in01 u -> in01 v ->
  Rmax (u + v - 1) 0 <= C u v <= Rmin u v /\ -1 <= blomqvist (fun X => C (nth 0 X 0) (nth 1 X 0)) <= 1.
Proof. exact frechet_bounds_main. Qed.
Print Assumptions frechet_bounds.

(** The independence copula multiplies its arguments point by point, and the product is a copula. *)
Theorem pi_copula :
  is_copula2 (fun u v => u * v) /\
  forall X n, X <> [] -> Forall (fun x => length x = n) X ->
  exists r, pi_ccdf X = Ok r /\ length r = n /\ forall i, (i < n)%nat -> nth i r 0 = prodR (map (fun x => nth i x 0) X).
Proof. exact pi_copula_main. Qed.
Print Assumptions pi_copula.

(** The upper bound copula takes the minimum point by point when there are several points (or none). *)
Theorem m_copula :
  is_copula2 Rmin /\
  forall X n, X <> [] -> n <> 1%nat -> Forall (fun x => length x = n) X ->
  exists r, m_ccdf X = Ok r /\ length r = n /\ forall i, (i < n)%nat -> nth i r 0 = minR (map (fun x => nth i x 0) X).
Proof. exact m_copula_main. Qed.
Print Assumptions m_copula.

(** At a single point it returns its last argument: M(u,v) = v, above min(u,v) when u < v. *)
Theorem m_scalar_refuted :
  (forall u v, m_ccdf [[u]; [v]] = Ok [v]) /\
  exists u v c, in01 u /\ in01 v /\ m_ccdf [[u]; [v]] = Ok [c] /\ Rmin u v < c.
Proof. exact m_scalar_refuted_main. Qed.
Print Assumptions m_scalar_refuted.

(** The lower bound copula of two arguments, point by point: max(u+v-1, 0). *)
Theorem w_copula :
  is_copula2 (fun u v => Rmax (u + v - 1) 0) /\
  forall x y, length x = length y ->
  exists r, w_ccdf [x; y] = Ok r /\ length r = length x /\
    forall i, (i < length x)%nat -> nth i r 0 = Rmax (nth i x 0 + nth i y 0 - 1) 0.
Proof. exact w_copula_main. Qed.
Print Assumptions w_copula.

(** In three dimensions the same code subtracts 1 instead of 2, so its margins are not uniform: W(1,1,u) = 1+u. *)
Theorem w_dimension_refuted :
  exists u r, in01 u /\ w_ccdf [[1]; [1]; [u]] = Ok [r] /\ 1 < r.
Proof. exact w_dimension_refuted_main. Qed.
Print Assumptions w_dimension_refuted.

(** Gumbel copula, theta >= 1, any number of arguments. *)
Theorem gumbel_copula :
  forall th d, 1 <= th ->
  exists C : list R -> R,
    (forall X, length X = d -> Forall in01 X -> gumbel th d X = Ok (Some (Finite (C X)))) /\
    (forall X, length X <> d -> gumbel th d X = Err EAssert) /\
    copula_bounds d C /\ is_copula2 (fun u v => C [u; v]) /\
    (forall X, X <> [] -> Forall (fun u => 0 < u < 1) X -> C X = gumbel_formula th X).
Proof. exact gumbel_copula_main. Qed.
Print Assumptions gumbel_copula.

(** Clayton copula, theta > 0. *)
Theorem clayton_copula :
  forall th d, 0 < th ->
  exists C : list R -> R,
    (forall X, length X = d -> Forall in01 X -> clayton th d X = Ok (Some (Finite (C X)))) /\
    (forall X, length X <> d -> clayton th d X = Err EAssert) /\
    copula_bounds d C /\ is_copula2 (fun u v => C [u; v]) /\
    (forall X, Forall (fun u => 0 < u < 1) X -> C X = clayton_formula th X).
Proof. exact clayton_copula_main. Qed.
Print Assumptions clayton_copula.

(** The documentation of the Clayton copula promises the lower bound W at theta = -1.  The negative part is not cut
    off: C(1/5, 3/10) = -1/2. *)
Theorem clayton_negative_refuted :
  exists u v, in01 u /\ in01 v /\ clayton (Ropp 1) 2 [u; v] = Ok (Some (Finite (Ropp (1/2)))).
Proof. exact clayton_negative_refuted_main. Qed.
Print Assumptions clayton_negative_refuted.

(** Frank copula, any theta except 0. *)
Theorem frank_copula :
  forall th d, th <> 0 ->
  exists C : list R -> R,
    (forall X, length X = d -> Forall in01 X -> frank th d X = Ok (Some (Finite (C X)))) /\
    (forall X, length X <> d -> frank th d X = Err EAssert) /\
    copula_bounds d C /\ is_copula2 (fun u v => C [u; v]) /\
    (forall X, Forall (fun u => 0 < u < 1) X -> C X = frank_formula th X).
Proof. exact frank_copula_main. Qed.
Print Assumptions frank_copula.

(** The generators and their inverses undo each other. *)
Theorem generators_inverse :
  forall th t s, 0 < th -> 0 < t <= 1 -> 0 <= s ->
  obind (gumbel_fi th t) (gumbel_fi_inv th) = Some (Finite t) /\
  obind (clayton_fi th t) (clayton_fi_inv th) = Some (Finite t) /\
  obind (frank_fi th t) (frank_fi_inv th) = Some (Finite t) /\
  obind (gumbel_fi_inv th (Finite s)) (fun t => gumbel_fi th (real t)) = Some (Finite s) /\
  obind (clayton_fi_inv th (Finite s)) (fun t => clayton_fi th (real t)) = Some (Finite s) /\
  obind (frank_fi_inv th (Finite s)) (fun t => frank_fi th (real t)) = Some (Finite s).
Proof. exact generators_inverse_main. Qed.
Print Assumptions generators_inverse.

(** Eliminating variables of an Archimedean copula gives the copula of the others: the same value as the full
    copula with the eliminated arguments at 1. *)
Theorem copula_eliminate :
  forall th keep X, 1 <= th -> length keep = length X -> Forall in01 X ->
  (forall k x, In (k, x) (combine keep X) -> k = false -> x = 1) ->
  archim_eliminate (gumbel_fi th) (gumbel_fi_inv th) keep (select keep X) = gumbel th (length X) X /\
  archim_eliminate (clayton_fi th) (clayton_fi_inv th) keep (select keep X) = clayton th (length X) X /\
  archim_eliminate (frank_fi th) (frank_fi_inv th) keep (select keep X) = frank th (length X) X.
Proof. exact copula_eliminate_main. Qed.
Print Assumptions copula_eliminate.

(** The density of an Archimedean copula in two dimensions is the mixed derivative of the copula, whenever the
    derivatives handed to it are the derivatives of the generator and of its inverse. *)
Theorem archim_density :
  forall (f f' g g' g'' : R -> R) u v, 0 < u < 1 -> 0 < v < 1 ->
  (forall t, 0 < t < 1 -> 0 < f t /\ is_derive f t (f' t)) ->
  (forall s, 0 < s -> is_derive g s (g' s) /\ is_derive g' s (g'' s)) ->
  exists c, archim_cpdf f f' g'' 2 [u; v] = Ok c /\
  exists Cu : R -> R, locally v (fun v' => is_derive (fun u' => g (f u' + f v')) u (Cu v')) /\ is_derive Cu v c.
Proof. exact archim_density_main. Qed.
Print Assumptions archim_density.

(** The explicit two-dimensional density of the Gumbel copula is the mixed derivative of its distribution
    function, which agrees with the general class. *)
Theorem gumbel2d_density :
  forall th u v, 1 <= th -> 0 < u < 1 -> 0 < v < 1 ->
  gumbel th 2 [u; v] = Ok (Some (Finite (g2_ccdf th [u; v]))) /\
  exists Cu : R -> R, locally v (fun v' => is_derive (fun u' => g2_ccdf th [u'; v']) u (Cu v')) /\ is_derive Cu v (g2_cpdf th [u; v]).
Proof. exact gumbel2d_density_main. Qed.
Print Assumptions gumbel2d_density.

(** The same for the Frank copula. *)
Theorem frank2d_density :
  forall th u v, th <> 0 -> 0 < u < 1 -> 0 < v < 1 ->
  frank th 2 [u; v] = Ok (Some (Finite (f2_ccdf th [u; v]))) /\
  exists Cu : R -> R, locally v (fun v' => is_derive (fun u' => f2_ccdf th [u'; v']) u (Cu v')) /\ is_derive Cu v (f2_cpdf th [u; v]).
Proof. exact frank2d_density_main. Qed.
Print Assumptions frank2d_density.

(** With marginals: the joint density is the mixed derivative of the joint distribution function. *)
Theorem joint_density :
  forall (C : R -> R -> R) (c : list R -> R) (F f G g : R -> R) x y,
  (forall u v, 0 < u < 1 -> 0 < v < 1 ->
     exists Cu : R -> R, locally v (fun v' => is_derive (fun u' => C u' v') u (Cu v')) /\ is_derive Cu v (c [u; v])) ->
  is_derive F x (f x) -> is_derive G y (g y) -> 0 < F x < 1 -> 0 < G y < 1 ->
  exists H1 : R -> R,
    locally y (fun y' => is_derive (fun x' => joint_cdf (fun X => C (nth 0 X 0) (nth 1 X 0)) [(F, f); (G, g)] [x'; y']) x (H1 y')) /\
    is_derive H1 y (joint_pdf c [(F, f); (G, g)] [x; y]).
Proof. exact joint_density_main. Qed.
Print Assumptions joint_density.

(** Where the other marginals have reached 1, the joint distribution function is the marginal one. *)
Theorem joint_margins :
  forall d (C : list R -> R) (ms1 ms2 : list marginal) m X1 X2 x, copula_bounds d C -> length (ms1 ++ m :: ms2) = d ->
  length X1 = length ms1 -> length X2 = length ms2 -> in01 (fst m x) ->
  (forall k z, In (k, z) (combine ms1 X1) \/ In (k, z) (combine ms2 X2) -> fst k z = 1) ->
  joint_cdf C (ms1 ++ m :: ms2) (X1 ++ x :: X2) = fst m x.
Proof. exact joint_margins_main. Qed.
Print Assumptions joint_margins.

(** The dual function F(x) + G(y) - H(x,y) passes the raw arguments instead of their probabilities to the copula. *)
Theorem dual_cdf_refuted :
  (forall (C : list R -> R) F f G g x y, F x = x -> G y = y ->
     dual_cdf C [(F, f); (G, g)] [x; y] = F x + G y - joint_cdf C [(F, f); (G, g)] [x; y]) /\
  exists F f x, in01 (F x) /\
    dual_cdf (fun X => prodR X) [(F, f); (F, f)] [x; x] < F x + F x - joint_cdf (fun X => prodR X) [(F, f); (F, f)] [x; x].
Proof. exact dual_cdf_refuted_main. Qed.
Print Assumptions dual_cdf_refuted.
