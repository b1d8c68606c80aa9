(** Main statements about conditional distributions of copulas (C75). *)
From Coq Require Import Reals Lra Lia List Bool Arith.
From Coquelicot Require Import Coquelicot.
From Verif Require Import Base Integral IntegralFacts Copula CopulaSpec CopulaFacts Ccond CcondSpec CcondFacts.
Import List ListNotations.
Open Scope R_scope.

(** C75: differentiating an Archimedean copula of any number of variables with respect to the conditioning variables, one after
    another, gives the derivative of the inverse generator of that order, times the derivatives of the generator. *)
Lemma ccond_formula_main :
  forall psi fi fi' var X, generator psi fi fi' -> (forall x, In x X -> 0 < x <= 1) ->
  (forall i, (i < length X)%nat -> In i var -> nth i X 0 < 1) ->
  ccond (arch_C psi fi) (length X) var X =
  psi (marked (flags (length X) var)) (sumR (map fi X)) * marked_prod fi' (flags (length X) var) X.
Proof.
  intros psi fi fi' var X G A B. unfold ccond. apply (ccond_prefix psi fi fi' var G); auto. split; auto.
Qed.

(** C75: the conditional distribution of one variable of a copula, given the other one, is a distribution function: it rises from 0 to
    1 and stays between, whichever variable is given and whatever the copula. *)
Lemma ccond_cdf_main :
  forall C, is_copula2 C ->
  (forall u v, 0 < u < 1 -> in01 v -> ex_derive (fun x => C x v) u -> 0 <= ccond (pair_fun C) 2 [0%nat] [u; v] <= 1) /\
  (forall u v v', 0 < u < 1 -> in01 v -> in01 v' -> v <= v' -> ex_derive (fun x => C x v) u -> ex_derive (fun x => C x v') u ->
     ccond (pair_fun C) 2 [0%nat] [u; v] <= ccond (pair_fun C) 2 [0%nat] [u; v']) /\
  (forall u, 0 < u < 1 -> ccond (pair_fun C) 2 [0%nat] [u; 0] = 0 /\ ccond (pair_fun C) 2 [0%nat] [u; 1] = 1) /\
  (forall u v, 0 < v < 1 -> in01 u -> ex_derive (fun y => C u y) v -> 0 <= ccond (pair_fun C) 2 [1%nat] [u; v] <= 1) /\
  (forall u u' v, 0 < v < 1 -> in01 u -> in01 u' -> u <= u' -> ex_derive (fun y => C u y) v -> ex_derive (fun y => C u' y) v ->
     ccond (pair_fun C) 2 [1%nat] [u; v] <= ccond (pair_fun C) 2 [1%nat] [u'; v]) /\
  (forall v, 0 < v < 1 -> ccond (pair_fun C) 2 [1%nat] [0; v] = 0 /\ ccond (pair_fun C) 2 [1%nat] [1; v] = 1).
Proof.
  intros C HC. destruct HC as (G & M & R).
  assert (Z0 : in01 0) by (unfold in01; lra). assert (Z1 : in01 1) by (unfold in01; lra).
  splits.
  - intros u v U V E. rewrite ccond0. apply (der_bounds (fun x => C x v) u); auto; [|apply Derive_correct; auto].
    intros x x' X X' L. pose proof (R x x' 0 v X X' Z0 V L ltac:(apply V)) as R1. pose proof (R x x' v 1 X X' V Z1 L ltac:(apply V)) as R2.
    rewrite (proj1 (G x X)), (proj1 (G x' X')) in R1. rewrite (proj1 (M x X)), (proj1 (M x' X')) in R2. lra.
  - intros u v v' U V V' L E E'. rewrite !ccond0. apply (der_le (fun x => C x v) (fun x => C x v') u); auto; try (apply Derive_correct; auto).
    intros x x' X X' LX. pose proof (R x x' v v' X X' V V' LX L). lra.
  - intros u U. rewrite !ccond0. split.
    + rewrite (Derive_ext_loc _ (fun _ => 0)); [apply Derive_const|]. eapply filter_imp; [|apply (inner01 u U)]. intros y Y. apply G. unfold in01; lra.
    + rewrite (Derive_ext_loc _ (fun y => y)); [apply Derive_id|]. eapply filter_imp; [|apply (inner01 u U)]. intros y Y. apply M. unfold in01; lra.
  - intros u v V U E. rewrite ccond1. apply (der_bounds (fun y => C u y) v); auto; [|apply Derive_correct; auto].
    intros x x' X X' L. pose proof (R 0 u x x' Z0 U X X' ltac:(apply U) L) as R1. pose proof (R u 1 x x' U Z1 X X' ltac:(apply U) L) as R2.
    rewrite (proj2 (G x X)), (proj2 (G x' X')) in R1. rewrite (proj2 (M x X)), (proj2 (M x' X')) in R2. lra.
  - intros u u' v V U U' L E E'. rewrite !ccond1. apply (der_le (fun y => C u y) (fun y => C u' y) v); auto; try (apply Derive_correct; auto).
    intros x x' X X' LX. pose proof (R u u' x x' U U' X X' L LX). lra.
  - intros v V. rewrite !ccond1. split.
    + rewrite (Derive_ext_loc _ (fun _ => 0)); [apply Derive_const|]. eapply filter_imp; [|apply (inner01 v V)]. intros y Y. apply G. unfold in01; lra.
    + rewrite (Derive_ext_loc _ (fun y => y)); [apply Derive_id|]. eapply filter_imp; [|apply (inner01 v V)]. intros y Y. apply M. unfold in01; lra.
Qed.

(** C75: integrating conditionCDF([0], x)(y) against the density of the first variable over [a,b] gives the probability of
    {a < X <= b, Y <= y}: sampling the first variable and then the second by inversion has the joint law. *)
Lemma cond_law_main :
  forall (C : R -> R -> R) m0 m1 (a b y : R), a < b -> covers01 m0 ->
  (forall x, a <= x <= b -> 0 < k_cdf m0 x < 1 /\ is_derive (k_cdf m0) x (k_pdf m0 x) /\ continuous (k_pdf m0) x) ->
  (forall u, 0 < u < 1 -> ex_derive (fun t => C t (k_cdf m1 y)) u /\ continuous (Derive (fun t => C t (k_cdf m1 y))) u) ->
  exists V, (forall x, a <= x <= b -> cond_cdf_fun (pair_fun C) [m0; m1] [0%nat] [x] [y] = Ok (V x)) /\
    integrable (fun x => k_pdf m0 x * V x) a b /\
    Q (fun x => k_pdf m0 x * V x) a b = C (k_cdf m0 b) (k_cdf m1 y) - C (k_cdf m0 a) (k_cdf m1 y).
Proof.
  intros C m0 m1 a b y L CV HF HC. exists (fun x => Derive (fun t => C t (k_cdf m1 y)) (k_cdf m0 x)). split.
  - intros x X. destruct (HF x X) as (B & _). unfold cond_cdf_fun, ndfun_call. cbn [length flags seq map existsb Nat.eqb orb weave rmap cdfs combine fst snd].
    rewrite (covers_in m0) by (auto; lra). reflexivity.
  - assert (I : is_RInt (fun x => k_pdf m0 x * Derive (fun t => C t (k_cdf m1 y)) (k_cdf m0 x)) a b (C (k_cdf m0 b) (k_cdf m1 y) - C (k_cdf m0 a) (k_cdf m1 y))).
    { apply (is_RInt_derive (V := R_CompleteNormedModule) (fun x => C (k_cdf m0 x) (k_cdf m1 y))).
      - intros x X. rewrite Rmin_left, Rmax_right in X by lra. destruct (HF x X) as (B & D & _). destruct (HC _ B) as (E & _).
        apply (is_derive_comp (fun t => C t (k_cdf m1 y)) (k_cdf m0)); auto. apply Derive_correct; auto.
      - intros x X. rewrite Rmin_left, Rmax_right in X by lra. destruct (HF x X) as (B & D & E). destruct (HC _ B) as (_ & K).
        apply (continuous_mult (k_pdf m0)); auto. apply (continuous_comp (k_cdf m0)); auto. apply (ex_derive_continuous (V := R_NormedModule)). eexists; eauto. }
    destruct (proper_int (fun x => k_pdf m0 x * Derive (fun t => C t (k_cdf m1 y)) (k_cdf m0 x)) a b L ltac:(eexists; exact I)) as (J & K).
    split; auto. rewrite K. apply is_RInt_unique. auto.
Qed.

(** C75: for a pair with an Archimedean copula, condition([0], x) is the density of conditionCDF([0], x). *)
Lemma cond_density_main :
  forall psi fi fi' m0 m1 (x y : R), generator psi fi fi' -> covers01 m0 -> 0 < k_cdf m0 x < 1 -> 0 < k_cdf m1 y < 1 -> k_pdf m0 x <> 0 ->
  is_derive (k_cdf m1) y (k_pdf m1 y) ->
  exists V w, locally y (fun t => cond_cdf_fun (arch_C psi fi) [m0; m1] [0%nat] [x] [t] = Ok (V t)) /\
    cond_pdf_fun psi fi fi' [m0; m1] [0%nat] [x] [y] = Ok w /\ is_derive V y w.
Proof.
  intros psi fi fi' m0 m1 x y G CV X Y PX D. pose proof G as (G1 & G0 & G2). destruct (G1 _ X) as (FX & DX & IX). destruct (G1 _ Y) as (FY & DY & IY).
  assert (CY : continuous (k_cdf m1) y) by (apply (ex_derive_continuous (V := R_NormedModule)); eexists; eauto).
  assert (NY : locally y (fun t => 0 < k_cdf m1 t < 1)) by exact (CY (fun u => 0 < u < 1) (inner01 _ Y)).
  exists (fun t => psi 1%nat (fi (k_cdf m0 x) + fi (k_cdf m1 t)) * fi' (k_cdf m0 x)).
  exists (psi 2%nat (fi (k_cdf m0 x) + fi (k_cdf m1 y)) * fi' (k_cdf m0 x) * fi' (k_cdf m1 y) * k_pdf m1 y). split; [|split].
  - eapply filter_imp; [|exact NY]. intros t T. unfold cond_cdf_fun, ndfun_call.
    cbn [length flags seq map existsb Nat.eqb orb weave rmap cdfs combine fst snd]. rewrite (covers_in m0) by (auto; lra). cbn [orb]. f_equal.
    pose proof (ccond_formula_main psi fi fi' [0%nat] [k_cdf m0 x; k_cdf m1 t] G) as K. cbn [length] in K. rewrite K; clear K.
    + cbn [flags seq map existsb Nat.eqb orb marked marked_prod sumR]. simpl. rewrite Rplus_0_r. ring.
    + intros z [<-|[<-|[]]]; lra.
    + intros i I [<-|[]]. simpl. lra.
  - unfold cond_pdf_fun. cbn [length flags seq map existsb Nat.eqb orb weave rmap select cpairs]. f_equal. unfold joint_pdf, arch_c, cpairs.
    cbn [map combine fold_left fst snd length fold_right sumR]. simpl. rewrite !Rplus_0_r.
    assert (ONE : psi 1%nat (fi (k_cdf m0 x)) * fi' (k_cdf m0 x) = 1).
    { assert (D1 : is_derive (fun t => psi 0%nat (fi t)) (k_cdf m0 x) (fi' (k_cdf m0 x) * psi 1%nat (fi (k_cdf m0 x)))).
      { apply (is_derive_comp (psi 0%nat) fi); auto. }
      assert (D2 : is_derive (fun t => psi 0%nat (fi t)) (k_cdf m0 x) 1).
      { apply (is_derive_ext_loc (fun t => t)); [|apply (is_derive_id (K := R_AbsRing))]. eapply filter_imp; [|apply (inner01 _ X)]. intros t T. symmetry. apply G1; auto. }
      apply is_derive_unique in D1. apply is_derive_unique in D2. lra. }
    assert (PP : psi 1%nat (fi (k_cdf m0 x)) * (fi' (k_cdf m0 x) * 1) * (1 * k_pdf m0 x) = k_pdf m0 x) by (rewrite Rmult_1_r, ONE; ring).
    rewrite PP. field. auto.
  - evar_last.
    { apply (is_derive_scal_l (V := R_NormedModule)). apply (is_derive_comp (psi 1%nat) (fun t => fi (k_cdf m0 x) + fi (k_cdf m1 t))).
      - apply G2. lra.
      - apply (is_derive_plus (V := R_NormedModule)); [apply is_derive_const|]. apply (is_derive_comp fi (k_cdf m1)); [exact DY|exact D]. }
    unfold scal, plus, zero; simpl; unfold mult; simpl. ring.
Qed.

(** C75: for a pair with an Archimedean copula, the same holds when the second variable is given: condition([1], x) is the density of conditionCDF([1], x). *)
Lemma cond_density_second_main :
  forall psi fi fi' m0 m1 (x y : R), generator psi fi fi' -> covers01 m1 -> 0 < k_cdf m0 x < 1 -> 0 < k_cdf m1 y < 1 -> k_pdf m0 x <> 0 ->
  is_derive (k_cdf m1) y (k_pdf m1 y) ->
  exists V w, locally y (fun t => cond_cdf_fun (arch_C psi fi) [m1; m0] [1%nat] [x] [t] = Ok (V t)) /\
    cond_pdf_fun psi fi fi' [m1; m0] [1%nat] [x] [y] = Ok w /\ is_derive V y w.
Proof.
  intros psi fi fi' m0 m1 x y G CV X Y PX D. pose proof G as (G1 & G0 & G2). destruct (G1 _ X) as (FX & DX & IX). destruct (G1 _ Y) as (FY & DY & IY).
  assert (CY : continuous (k_cdf m1) y) by (apply (ex_derive_continuous (V := R_NormedModule)); eexists; eauto).
  assert (NY : locally y (fun t => 0 < k_cdf m1 t < 1)) by exact (CY (fun u => 0 < u < 1) (inner01 _ Y)).
  exists (fun t => psi 1%nat (fi (k_cdf m1 t) + fi (k_cdf m0 x)) * fi' (k_cdf m0 x)).
  exists (psi 2%nat (fi (k_cdf m1 y) + fi (k_cdf m0 x)) * fi' (k_cdf m0 x) * fi' (k_cdf m1 y) * k_pdf m1 y). split; [|split].
  - eapply filter_imp; [|exact NY]. intros t T. unfold cond_cdf_fun, ndfun_call.
    cbn [length flags seq map existsb Nat.eqb orb weave rmap cdfs combine fst snd]. rewrite (covers_in m1) by (auto; lra). cbn [orb]. f_equal.
    pose proof (ccond_formula_main psi fi fi' [1%nat] [k_cdf m1 t; k_cdf m0 x] G) as K. cbn [length] in K. rewrite K; clear K.
    + cbn [flags seq map existsb Nat.eqb orb marked marked_prod sumR]. simpl. rewrite Rplus_0_r. ring.
    + intros z [<-|[<-|[]]]; lra.
    + intros i I [<-|[]]. simpl. lra.
  - unfold cond_pdf_fun. cbn [length flags seq map existsb Nat.eqb orb weave rmap select cpairs]. f_equal. unfold joint_pdf, arch_c, cpairs.
    cbn [map combine fold_left fst snd length fold_right sumR]. simpl. rewrite !Rplus_0_r.
    assert (ONE : psi 1%nat (fi (k_cdf m0 x)) * fi' (k_cdf m0 x) = 1).
    { assert (D1 : is_derive (fun t => psi 0%nat (fi t)) (k_cdf m0 x) (fi' (k_cdf m0 x) * psi 1%nat (fi (k_cdf m0 x)))).
      { apply (is_derive_comp (psi 0%nat) fi); auto. }
      assert (D2 : is_derive (fun t => psi 0%nat (fi t)) (k_cdf m0 x) 1).
      { apply (is_derive_ext_loc (fun t => t)); [|apply (is_derive_id (K := R_AbsRing))]. eapply filter_imp; [|apply (inner01 _ X)]. intros t T. symmetry. apply G1; auto. }
      apply is_derive_unique in D1. apply is_derive_unique in D2. lra. }
    assert (PP : psi 1%nat (fi (k_cdf m0 x)) * (fi' (k_cdf m0 x) * 1) * (1 * k_pdf m0 x) = k_pdf m0 x) by (rewrite Rmult_1_r, ONE; ring).
    rewrite PP. field. auto.
  - evar_last.
    { apply (is_derive_scal_l (V := R_NormedModule)). apply (is_derive_comp (psi 1%nat) (fun t => fi (k_cdf m1 t) + fi (k_cdf m0 x))).
      - apply G2. lra.
      - apply (is_derive_plus (V := R_NormedModule)); [|apply is_derive_const]. apply (is_derive_comp fi (k_cdf m1)); [exact DY|exact D]. }
    unfold scal, plus, zero; simpl; unfold mult; simpl. ring.
Qed.

(** C75: conditionCDF passes probabilities to a function that first compares them with the ranges of the marginals: if all ranges
    lie outside [0,1], it is 0 everywhere; and beyond the range of the free variable it is 0, not 1. *)
Lemma cond_cdf_range_refuted_main :
  (forall C ms var X Y v, (forall m x, In m ms -> in01 (k_cdf m x)) -> (forall m, In m ms -> Rbar_lt (Finite 1) (k_lo m) \/ Rbar_lt (k_hi m) (Finite 0)) ->
   cond_cdf_fun C ms var X Y = Ok v -> v = 0) /\
  (forall C ms var m X y, Rbar_lt (k_hi m) (Finite y) -> cond_cdf1 C ms var m X y = Ok 0).
Proof.
  split.
  - intros C ms var X Y v HC HR E. unfold cond_cdf_fun in E. destruct (weave _ X Y) as [Z|]; [|discriminate]. cbn [rmap] in E. injection E as <-.
    unfold ndfun_call. destruct (existsb _ _) eqn:EX; auto. exfalso. apply existsb_exists in EX. destruct EX as ((m & z) & I & J). cbn [fst snd] in J.
    assert (A : In m ms /\ in01 z).
    { unfold cdfs in I. clear -I HC. revert Z I. induction ms as [|m0 ms IH]; intros [|z0 Z] I; cbn in I; try tauto.
      destruct I as [I|I]; [injection I as <- <-; split; [left; auto|apply HC; left; auto]|].
      destruct (IH (fun m x H => HC m x (or_intror H)) Z I). split; auto. right; auto. }
    destruct A as (A & B). unfold in_rng in J. apply andb_true_iff in J. destruct J as (J1 & J2). destruct (bleP (k_lo m) (Finite z)) as [K1|]; [|discriminate].
    destruct (bleP (Finite z) (k_hi m)) as [K2|]; [|discriminate]. destruct B as (B0 & B1). destruct (HR m A) as [H|H].
    + pose proof (Rbar_lt_le_trans _ _ _ H K1) as T. simpl in T. lra.
    + pose proof (Rbar_le_lt_trans _ _ _ K2 H) as T. simpl in T. lra.
  - intros C ms var m X y H. unfold cond_cdf1, in_rng. destruct (bleP (Finite y) (k_hi m)) as [K|K]; [|rewrite andb_false_r; auto].
    exfalso. eapply Rbar_lt_not_le; eauto.
Qed.

(** C75: given two variables, the result is not a distribution function: at the top of the third variable it has the density of the
    copula of the two, not 1. For the Clayton copula with theta = 1 and uniform variables at their medians it is 32/27. *)
Lemma cond_two_refuted_main :
  (forall psi fi fi' m0 m1 m2 x0 x1 y, generator psi fi fi' -> covers01 m0 -> 0 < k_cdf m0 x0 < 1 -> 0 < k_cdf m1 x1 < 1 -> k_cdf m2 y = 1 ->
   cond_cdf_fun (arch_C psi fi) [m0; m1; m2] [0; 1]%nat [x0; x1] [y] = Ok (arch_c psi fi fi' [k_cdf m0 x0; k_cdf m1 x1])) /\
  exists psi fi fi' m, generator psi fi fi' /\ covers01 m /\
    cond_cdf_fun (arch_C psi fi) [m; m; m] [0; 1]%nat [1 / 2; 1 / 2] [1] = Ok (32 / 27).
Proof.
  assert (K : forall psi fi fi' m0 m1 m2 x0 x1 y, generator psi fi fi' -> covers01 m0 -> 0 < k_cdf m0 x0 < 1 -> 0 < k_cdf m1 x1 < 1 -> k_cdf m2 y = 1 ->
   cond_cdf_fun (arch_C psi fi) [m0; m1; m2] [0; 1]%nat [x0; x1] [y] = Ok (arch_c psi fi fi' [k_cdf m0 x0; k_cdf m1 x1])).
  { intros psi fi fi' m0 m1 m2 x0 x1 y G CV X0 X1 Y. unfold cond_cdf_fun, ndfun_call.
    cbn [length flags seq map existsb Nat.eqb orb weave rmap cdfs combine fst snd]. rewrite (covers_in m0) by (auto; lra). cbn [orb]. f_equal.
    pose proof (ccond_formula_main psi fi fi' [0; 1]%nat [k_cdf m0 x0; k_cdf m1 x1; k_cdf m2 y] G) as K. cbn [length] in K. rewrite K; clear K.
    - unfold arch_c. cbn [flags seq map existsb Nat.eqb orb marked marked_prod sumR length fold_right]. simpl. rewrite Y, (proj1 (proj2 G)). rewrite !Rplus_0_r. ring.
    - intros z [<-|[<-|[<-|[]]]]; lra.
    - intros i I [<-|[<-|[]]]; simpl; lra. }
  split; auto.
  exists psi1, (fun t => / t - 1), (fun t => - / t ^ 2), (CM (fun x => x) (fun _ => 1) (Finite 0) (Finite 1)). pose proof psi1_gen as G.
  split; auto. split; [split; simpl; lra|]. rewrite (K _ _ _ _ _ _ _ _ _ G); cbn [k_cdf]; try lra; [|split; simpl; lra].
  f_equal. unfold arch_c, psi1. simpl. field.
Qed.

(** C75: the values of the conditions are taken in the order of the variables, not in the order in which the variables were named:
    naming them in another order changes nothing, so condition([1, 0], x1, x0) takes x1 for variable 0. *)
Lemma cond_var_order_main :
  forall var var', (forall i, In i var <-> In i var') ->
  (forall C ms X Y, cond_cdf_fun C ms var X Y = cond_cdf_fun C ms var' X Y) /\
  (forall psi fi fi' ms X Y, cond_pdf_fun psi fi fi' ms var X Y = cond_pdf_fun psi fi fi' ms var' X Y).
Proof.
  intros var var' H.
  assert (M : forall i, existsb (Nat.eqb i) var = existsb (Nat.eqb i) var').
  { intros i. apply eq_true_iff_eq. rewrite !mem_In. apply H. }
  assert (F : forall d, flags d var = flags d var') by (intros d; unfold flags; apply map_ext; auto).
  assert (K : forall C d, ccond C d var = ccond C d var').
  { intros C d. unfold ccond. revert C. induction (seq 0 d) as [|i l IH]; intros C; cbn [fold_left]; auto. rewrite M. apply IH. }
  split; intros.
  - unfold cond_cdf_fun. rewrite F, K. auto.
  - unfold cond_pdf_fun. rewrite F. auto.
Qed.

(** C75: condfun at a point is conditionCDF with the point divided into conditions and arguments, if some coordinate of the point lies
    in its range; otherwise it is 0. *)
Lemma condfun_agrees_main :
  forall C ms var X Y Z, weave (flags (length ms) var) X Y = Ok Z ->
  ((exists m z, In (m, z) (combine ms Z) /\ Rbar_le (k_lo m) (Finite z) /\ Rbar_le (Finite z) (k_hi m)) ->
   cond_cdf_fun C ms var X Y = Ok (condfun C ms var Z)) /\
  ((forall m z, In (m, z) (combine ms Z) -> Rbar_lt (Finite z) (k_lo m) \/ Rbar_lt (k_hi m) (Finite z)) -> condfun C ms var Z = 0).
Proof.
  intros C ms var X Y Z W. split.
  - intros (m & z & I & A & B). unfold cond_cdf_fun, condfun. rewrite W. cbn [rmap]. f_equal. unfold ndfun_call at 2.
    replace (existsb (fun p => in_rng (fst p) (snd p)) (combine ms Z)) with true; auto. symmetry. apply existsb_exists. exists (m, z). split; auto.
    cbn [fst snd]. unfold in_rng. destruct (bleP (k_lo m) (Finite z)); [|tauto]. destruct (bleP (Finite z) (k_hi m)); [auto|tauto].
  - intros H. unfold condfun, ndfun_call at 1. destruct (existsb _ (combine ms Z)) eqn:E; auto. exfalso. apply existsb_exists in E.
    destruct E as ((m & z) & I & J). cbn [fst snd] in J. unfold in_rng in J. apply andb_true_iff in J. destruct J as (J1 & J2).
    destruct (bleP (k_lo m) (Finite z)) as [K1|]; [|discriminate]. destruct (bleP (Finite z) (k_hi m)) as [K2|]; [|discriminate].
    destruct (H m z I) as [L|L]; eapply Rbar_lt_not_le; eauto.
Qed.
