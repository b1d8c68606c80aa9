(** Joint distribution of two order statistics: proofs. *)
From Coq Require Import Reals ZArith Lra Lia List Bool Factorial Arith.
From Coquelicot Require Import Coquelicot.
From Verif Require Import Base Comb CombSpec CombFacts CombMain Integral IntegralFacts IntParts IntPartsFacts OrdJoint OrdJointSpec.
Import List ListNotations.
Open Scope R_scope.

(** ** expectation over three outcomes *)
Lemma trin_ext n p q : forall phi psi, (forall r s, phi r s = psi r s) -> trin n p q phi = trin n p q psi.
Proof. induction n as [|n IH]; intros phi psi E; simpl; auto. rewrite (IH (fun r s => phi (S r) (S s)) (fun r s => psi (S r) (S s))), (IH (fun r s => phi r (S s)) (fun r s => psi r (S s))), (IH phi psi); auto. Qed.
Lemma trin_minus n p q : forall phi psi, trin n p q (fun r s => phi r s - psi r s) = trin n p q phi - trin n p q psi.
Proof.
  induction n as [|n IH]; intros phi psi; simpl; auto.
  rewrite (IH (fun r s => phi (S r) (S s)) (fun r s => psi (S r) (S s))), (IH (fun r s => phi r (S s)) (fun r s => psi r (S s))), IH. ring.
Qed.
Lemma trin_zero n p q : trin n p q (fun _ _ => 0) = 0.
Proof. induction n as [|n IH]; simpl; auto. rewrite IH. ring. Qed.
Lemma der3 (u v w A B C : R -> R) (x du dv dw dA dB dC : R) : is_derive u x du -> is_derive v x dv -> is_derive w x dw ->
  is_derive A x dA -> is_derive B x dB -> is_derive C x dC ->
  is_derive (fun x => u x * A x + v x * B x + w x * C x) x (du * A x + u x * dA + (dv * B x + v x * dB) + (dw * C x + w x * dC)).
Proof.
  intros. auto_derive.
  - repeat split; eexists; eauto.
  - assert (U : forall (g : R -> R) d, is_derive g x d -> Derive (fun x0 : R => g x0) x = d) by (intros g d K; apply is_derive_unique; exact K).
    rewrite (U _ _ H), (U _ _ H0), (U _ _ H1), (U _ _ H2), (U _ _ H3), (U _ _ H4). ring.
Qed.
Lemma trin_dq n p : forall phi (q : R), is_derive (fun q => trin n p q phi) q (INR n * trin (n - 1) p q (fun r s => phi r (S s) - phi r s)).
Proof.
  induction n as [|n IH]; intros phi q.
  - simpl. rewrite Rmult_0_l. auto_derive; auto.
  - cbn [trin]. set (A := fun q => trin n p q (fun r s => phi (S r) (S s))). set (B := fun q => trin n p q (fun r s => phi r (S s))). set (C := fun q => trin n p q phi).
    pose proof (IH (fun r s => phi (S r) (S s)) q) as DA. pose proof (IH (fun r s => phi r (S s)) q) as DB. pose proof (IH phi q) as DC.
    evar_last.
    + apply (der3 (fun _ => p) (fun q => q - p) (fun q => 1 - q) A B C q 0 1 (-1)); try eassumption; auto_derive; auto; ring.
    + cbv beta. replace (S n - 1)%nat with n by lia. rewrite (trin_minus n p q (fun r s => phi r (S s)) phi).
      destruct n as [|m].
      * simpl. unfold A, B, C. simpl. ring.
      * replace (S m - 1)%nat with m by lia. rewrite <- (trin_minus (S m) p q (fun r s => phi r (S s)) phi).
        unfold B, C. replace (trin (S m) p q (fun r s => phi r (S s))) with (trin (S m) p q (fun r s => phi r (S s) - phi r s) + trin (S m) p q phi) by (rewrite trin_minus; ring).
        cbn [trin]. rewrite !S_INR. ring.
Qed.
Lemma trin_dp n q : forall phi (p : R), is_derive (fun p => trin n p q phi) p (INR n * trin (n - 1) p q (fun r s => phi (S r) (S s) - phi r (S s))).
Proof.
  induction n as [|n IH]; intros phi p.
  - simpl. rewrite Rmult_0_l. auto_derive; auto.
  - cbn [trin]. set (A := fun p => trin n p q (fun r s => phi (S r) (S s))). set (B := fun p => trin n p q (fun r s => phi r (S s))). set (C := fun p => trin n p q phi).
    pose proof (IH (fun r s => phi (S r) (S s)) p) as DA. pose proof (IH (fun r s => phi r (S s)) p) as DB. pose proof (IH phi p) as DC.
    evar_last.
    + apply (der3 (fun p => p) (fun p => q - p) (fun _ => 1 - q) A B C p 1 (-1) 0); try eassumption; auto_derive; auto; ring.
    + cbv beta. replace (S n - 1)%nat with n by lia. rewrite (trin_minus n p q (fun r s => phi (S r) (S s)) (fun r s => phi r (S s))).
      destruct n as [|m].
      * simpl. unfold A, B, C. simpl. ring.
      * replace (S m - 1)%nat with m by lia. 
        unfold A, B, C. replace (trin (S m) p q (fun r s => phi (S r) (S s))) with (trin (S m) p q (fun r s => phi (S r) (S s) - phi r (S s)) + trin (S m) p q (fun r s => phi r (S s))) by (rewrite (trin_minus (S m) p q (fun r s => phi (S r) (S s)) (fun r s => phi r (S s))); ring).
        cbn [trin]. rewrite !S_INR. ring.
Qed.

(** the probability of exact counts *)
Definition exactly (a b : nat) (r s : nat) : R := if Nat.eqb r a then (if Nat.eqb s b then 1 else 0) else 0.
Lemma trin_exact n p q : forall a b, (a <= b <= n)%nat ->
  trin n p q (exactly a b) * (INR (fact a) * INR (fact (b - a)) * INR (fact (n - b))) = INR (fact n) * (p ^ a * (q - p) ^ (b - a) * (1 - q) ^ (n - b)).
Proof.
  assert (Z : forall n a b, (b < a \/ n < b)%nat -> trin n p q (exactly a b) = 0).
  { clear n. induction n as [|n IH]; intros a b H.
    - simpl. unfold exactly. destruct (Nat.eqb_spec 0 a), (Nat.eqb_spec 0 b); auto. lia.
    - cbn [trin].
      assert (E1 : trin n p q (fun r s => exactly a b (S r) (S s)) = 0).
      { destruct a as [|a]; [rewrite <- (trin_zero n p q); apply trin_ext; reflexivity|]. destruct b as [|b]; [rewrite <- (trin_zero n p q); apply trin_ext; intros; unfold exactly; destruct (Nat.eqb (S r) (S a)); auto|].
        rewrite <- (IH a b) by lia. apply trin_ext. intros. reflexivity. }
      assert (E2 : trin n p q (fun r s => exactly a b r (S s)) = 0).
      { destruct b as [|b]; [rewrite <- (trin_zero n p q); apply trin_ext; intros; unfold exactly; destruct (Nat.eqb r a); auto|].
        rewrite <- (IH a b) by lia. apply trin_ext. intros. reflexivity. }
      rewrite E1, E2, (IH a b) by lia. ring. }
  induction n as [|n IH]; intros a b H.
  - assert (a = 0%nat) by lia. assert (b = 0%nat) by lia. subst. unfold exactly. simpl. ring.
  - cbn [trin].
    assert (E1 : trin n p q (fun r s => exactly a b (S r) (S s)) * (INR (fact a) * INR (fact (b - a)) * INR (fact (S n - b))) * p =
                 INR a * INR (fact n) * (p ^ a * (q - p) ^ (b - a) * (1 - q) ^ (S n - b))).
    { destruct a as [|a]. { replace (trin n p q _) with 0 by (rewrite <- (trin_zero n p q); apply trin_ext; reflexivity). simpl. ring. }
      destruct b as [|b]; [lia|]. replace (trin n p q _) with (trin n p q (exactly a b)) by (apply trin_ext; reflexivity).
      replace (S b - S a)%nat with (b - a)%nat by lia. replace (S n - S b)%nat with (n - b)%nat by lia. specialize (IH a b ltac:(lia)).
      rewrite fact_simpl, mult_INR. cbn [pow].
      transitivity (INR (S a) * p * (trin n p q (exactly a b) * (INR (fact a) * INR (fact (b - a)) * INR (fact (n - b))))); [ring|]. rewrite IH. ring. }
    assert (E2 : trin n p q (fun r s => exactly a b r (S s)) * (INR (fact a) * INR (fact (b - a)) * INR (fact (S n - b))) * (q - p) =
                 INR (b - a) * INR (fact n) * (p ^ a * (q - p) ^ (b - a) * (1 - q) ^ (S n - b))).
    { destruct b as [|b]. { replace (trin n p q _) with 0 by (rewrite <- (trin_zero n p q); apply trin_ext; intros; unfold exactly; destruct (Nat.eqb r a); auto). simpl. ring. }
      replace (trin n p q _) with (trin n p q (exactly a b)) by (apply trin_ext; reflexivity). destruct (Nat.eq_dec a (S b)) as [->|NE].
      { rewrite (Z n (S b) b) by lia. rewrite Nat.sub_diag. simpl. ring. }
      replace (S b - a)%nat with (S (b - a)) by lia. replace (S n - S b)%nat with (n - b)%nat by lia. specialize (IH a b ltac:(lia)).
      rewrite (fact_simpl (b - a)), mult_INR. cbn [pow].
      transitivity (INR (S (b - a)) * (q - p) * (trin n p q (exactly a b) * (INR (fact a) * INR (fact (b - a)) * INR (fact (n - b))))); [ring|]. rewrite IH. ring. }
    assert (E3 : trin n p q (exactly a b) * (INR (fact a) * INR (fact (b - a)) * INR (fact (S n - b))) * (1 - q) =
                 INR (S n - b) * INR (fact n) * (p ^ a * (q - p) ^ (b - a) * (1 - q) ^ (S n - b))).
    { destruct (Nat.eq_dec b (S n)) as [->|NE].
      { rewrite (Z n a (S n)) by lia. rewrite Nat.sub_diag. simpl. ring. }
      replace (S n - b)%nat with (S (n - b)) by lia. specialize (IH a b ltac:(lia)).
      rewrite (fact_simpl (n - b)), mult_INR. cbn [pow].
      transitivity (INR (S (n - b)) * (1 - q) * (trin n p q (exactly a b) * (INR (fact a) * INR (fact (b - a)) * INR (fact (n - b))))); [ring|]. rewrite IH. ring. }
    set (w := INR (fact a) * INR (fact (b - a)) * INR (fact (S n - b))) in *.
    transitivity ((INR a + INR (b - a) + INR (S n - b)) * INR (fact n) * (p ^ a * (q - p) ^ (b - a) * (1 - q) ^ (S n - b))).
    + rewrite !Rmult_plus_distr_r. rewrite <- E1, <- E2, <- E3. ring.
    + replace (INR a + INR (b - a) + INR (S n - b)) with (INR (S n)) by (rewrite <- !plus_INR; f_equal; lia).
      rewrite (fact_simpl n), mult_INR. ring.
Qed.

(** ** the coefficient *)
Definition coef (n i j : nat) : R := INR (fact n) / (INR (fact (i - 1)) * INR (fact (j - i - 1)) * INR (fact (n - j))).
Lemma fact_ne n : INR (fact n) <> 0.
Proof. apply not_0_INR, fact_neq_0. Qed.
Lemma ij_value n i j f F x y : (1 <= i)%nat -> (i < j)%nat -> (j <= n)%nat ->
  ij_call (Z.of_nat n) (Z.of_nat i) (Z.of_nat j) f F x y =
  Ok ((if rlt x y then 1 else 0) * coef n i j * F x ^ (i - 1) * (F y - F x) ^ (j - i - 1) * (1 - F y) ^ (n - j) * f x * f y).
Proof.
  intros H1 H2 H3. unfold ij_call, ij_check.
  destruct (Z.leb_spec 1 (Z.of_nat i)); [|lia]. destruct (Z.ltb_spec (Z.of_nat i) (Z.of_nat j)); [|lia]. destruct (Z.leb_spec (Z.of_nat j) (Z.of_nat n)); [|lia].
  cbn [andb rbind]. unfold ij_pdf.
  replace [Z.of_nat i - 1; 1; Z.of_nat j - Z.of_nat i - 1; 1; Z.of_nat n - Z.of_nat j]%Z with (map Z.of_nat [i - 1; 1; j - i - 1; 1; n - j]%nat)
    by (cbn [map]; repeat (f_equal; try lia)).
  destruct (multinomial_coeff_exact_main n [i - 1; 1; j - i - 1; 1; n - j]%nat) as (c & E & C); [cbn [fold_right]; lia|].
  rewrite E. cbn [rbind]. replace (Z.to_nat (Z.of_nat i - 1)) with (i - 1)%nat by lia. replace (Z.to_nat (Z.of_nat j - Z.of_nat i - 1)) with (j - i - 1)%nat by lia.
  replace (Z.to_nat (Z.of_nat n - Z.of_nat j)) with (n - j)%nat by lia.
  replace c with (coef n i j); auto. unfold coef. rewrite <- C. cbn [map fold_right]. change (fact 1) with 1%nat. simpl INR at 2 4.
  field. repeat split; apply fact_ne.
Qed.
