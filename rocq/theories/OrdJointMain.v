(** Main statements about the joint distribution of two order statistics. *)
From Coq Require Import Reals ZArith Lra Lia List Bool.
From Coquelicot Require Import Coquelicot.
From Verif Require Import Base Comb CombSpec CombFacts CombMain Integral IntegralFacts IntParts IntPartsFacts OrdJoint OrdJointSpec OrdJointFacts OrdJointFacts2.
Import List ListNotations.
Open Scope R_scope.

(** C67: there is a value exactly when 1 <= i < j <= n; otherwise the constructor's assertion fails. *)
Lemma ij_defined_main :
  forall (n i j : Z) f F x y,
  ((1 <= i < j /\ j <= n)%Z -> exists v, ij_call n i j f F x y = Ok v) /\
  (~ (1 <= i < j /\ j <= n)%Z -> ij_call n i j f F x y = Err EAssert).
Proof.
  intros n i j f F x y. split.
  - intros H. pose proof (ij_value (Z.to_nat n) (Z.to_nat i) (Z.to_nat j) f F x y ltac:(lia) ltac:(lia) ltac:(lia)) as E.
    rewrite !Z2Nat.id in E by lia. eauto.
  - intros H. unfold ij_call, ij_check. destruct (Z.leb_spec 1 i), (Z.ltb_spec i j), (Z.leb_spec j n); try reflexivity. lia.
Qed.

(** C67: for x < y the value is the mixed derivative of the joint distribution function: the probability that at least i of n
    observations are at most x and at least j are at most y. *)
Lemma ij_density_main :
  forall n i j (F f : R -> R) x y, (1 <= i)%nat -> (i < j)%nat -> (j <= n)%nat -> x < y -> is_derive F x (f x) -> is_derive F y (f y) ->
  exists G v, (forall u, is_derive (fun y => both_at_least n i j (F u) (F y)) y (G u)) /\
    ij_call (Z.of_nat n) (Z.of_nat i) (Z.of_nat j) f F x y = Ok v /\ is_derive G x v.
Proof. intros. apply mixed_ok; auto. Qed.

(** C67: the value is 0 where the i-th observation would not be below the j-th, and nowhere negative. *)
Lemma ij_support_main :
  forall n i j (F f : R -> R) x y, (1 <= i)%nat -> (i < j)%nat -> (j <= n)%nat ->
  (y <= x -> ij_call (Z.of_nat n) (Z.of_nat i) (Z.of_nat j) f F x y = Ok 0) /\
  (smooth_cdf F f -> 0 <= f x -> 0 <= f y -> exists v, ij_call (Z.of_nat n) (Z.of_nat i) (Z.of_nat j) f F x y = Ok v /\ 0 <= v).
Proof.
  intros n i j F f x y H1 H2 H3. rewrite ij_value by auto. split.
  - intros L. destruct (rltP x y); [lra|]. f_equal. ring.
  - intros S P1 P2. eexists. split; [reflexivity|]. destruct (rltP x y) as [L|L]; [|apply Req_le; ring].
    pose proof (cdf_ge0 F f x S). pose proof (cdf_le1 F f y S). assert (F x <= F y) by (apply S; lra).
    assert (0 <= coef n i j).
    { unfold coef. apply Rmult_le_pos; [apply pos_INR|]. left. apply Rinv_0_lt_compat. repeat apply Rmult_lt_0_compat; apply lt_0_INR, Factorial.lt_O_fact. }
    revert H5. generalize (coef n i j). intros k PK. repeat apply Rmult_le_pos; auto; try lra; apply pow_le; lra.
Qed.

(** C67: integrating out either variable leaves the density of the other order statistic. *)
Lemma ij_marginals_main :
  forall n i j F f, (1 <= i)%nat -> (i < j)%nat -> (j <= n)%nat -> smooth_cdf F f ->
  (forall x, exists g, (forall y, ij_call (Z.of_nat n) (Z.of_nat i) (Z.of_nat j) f F x y = Ok (g y)) /\
     has_int g m_infty p_infty (order_stat_fun n i (f x) (F x))) /\
  (forall y, exists g, (forall x, ij_call (Z.of_nat n) (Z.of_nat i) (Z.of_nat j) f F x y = Ok (g x)) /\
     has_int g m_infty p_infty (order_stat_fun n j (f y) (F y))).
Proof. intros. split; intros; [apply marg_first|apply marg_second]; auto. Qed.

(** C67: the total mass is one. *)
Lemma ij_mass_main :
  forall n i j F f, (1 <= i)%nat -> (i < j)%nat -> (j <= n)%nat -> smooth_cdf F f ->
  exists p m, (forall x y, ij_call (Z.of_nat n) (Z.of_nat i) (Z.of_nat j) f F x y = Ok (p x y)) /\
    (forall x, has_int (p x) m_infty p_infty (m x)) /\ is_RInt_gen m (Rbar_locally m_infty) (Rbar_locally p_infty) 1.
Proof.
  intros n i j F f H1 H2 H3 S. eexists. exists (fun x => order_stat_fun n i (f x) (F x)). splits.
  - intros x y. apply ij_value; auto.
  - intros x. destruct (marg_first n i j F f x H1 H2 H3 S) as (g & E & I). eapply has_int_ext; [exact I|]. intros y.
    specialize (E y). rewrite ij_value in E by auto. injection E; auto.
  - apply order_stat_total_main; [lia|apply S..].
Qed.
