(** Facts: Chebyshev polynomials, their integrals and their span. *)
From Coq Require Import Reals Lra Lia List Bool Arith.
From Coquelicot Require Import Coquelicot.
From Verif Require Import Base InterpSpec QuadFacts.
Import List ListNotations.
Open Scope R_scope.

Fixpoint T2 (k : nat) (x : R) : R * R := match k with O => (1, x) | S k' => let p := T2 k' x in (snd p, 2 * x * snd p - fst p) end.
Definition T (k : nat) (x : R) : R := fst (T2 k x).
Lemma T_0 x : T 0 x = 1.
Proof. reflexivity. Qed.
Lemma T_1 x : T 1 x = x.
Proof. reflexivity. Qed.
Lemma T_SS k x : T (S (S k)) x = 2 * x * T (S k) x - T k x.
Proof. reflexivity. Qed.
Lemma T_pair (Q : nat -> Prop) : Q 0%nat -> Q 1%nat -> (forall k, Q k -> Q (S k) -> Q (S (S k))) -> forall k, Q k.
Proof. intros Q0 Q1 Q2 k. assert (Q k /\ Q (S k)) by (induction k as [|k [A B]]; auto). tauto. Qed.
Lemma T_cos k t : T k (cos t) = cos (INR k * t).
Proof.
  revert k. apply T_pair.
  - simpl. rewrite Rmult_0_l, cos_0. reflexivity.
  - simpl. rewrite Rmult_1_l. reflexivity.
  - intros k A B. rewrite T_SS, A, B. rewrite !S_INR. replace ((INR k + 1 + 1) * t) with ((INR k + 1) * t + t) by ring. replace (INR k * t) with ((INR k + 1) * t - t) by ring.
    rewrite cos_plus, cos_minus. ring.
Qed.
Lemma T_cont k x : continuous (T k) x.
Proof.
  revert k. apply T_pair.
  - apply continuous_const.
  - apply continuous_id.
  - intros k A B. apply (continuous_ext (fun y => 2 * y * T (S k) y - T k y)); [intros; reflexivity|].
    apply (continuous_minus (V := R_NormedModule)); auto. apply (continuous_mult (K := R_AbsRing)); auto.
    apply (continuous_scal_r (V := R_NormedModule)). apply continuous_id.
Qed.
Lemma T_ex k a b : ex_RInt (T k) a b.
Proof. apply (ex_RInt_continuous (V := R_CompleteNormedModule)). intros z _. apply T_cont. Qed.

(** integral over [-1,1] *)
Definition tint (k : nat) : R := if Nat.even k then 2 / (1 - INR k ^ 2) else 0.
Lemma T_subst k : is_RInt (fun y => - sin y * cos (INR k * y)) PI 0 (RInt (T k) (-1) 1).
Proof.
  apply (is_RInt_ext (fun y => scal (- sin y) (T k (cos y)))).
  - intros x _. rewrite T_cos. reflexivity.
  - rewrite <- cos_PI, <- cos_0 at 1. replace (RInt (T k) (cos PI) 1) with (RInt (T k) (cos PI) (cos 0)) by (rewrite cos_0; reflexivity).
    apply (is_RInt_comp (V := R_CompleteNormedModule) (T k) cos).
    + intros. apply T_cont.
    + intros x _. split.
      * apply is_derive_Reals. apply derivable_pt_lim_cos.
      * apply (continuous_opp (V := R_NormedModule)). apply continuous_sin.
Qed.
Lemma cos_nat_pi k : cos (INR k * PI) = if Nat.even k then 1 else -1.
Proof.
  destruct (Nat.even k) eqn:E.
  - apply Nat.even_spec in E. destruct E as [q ->]. rewrite mult_INR. change (INR 2) with 2. replace (2 * INR q * PI) with (0 + 2 * INR q * PI) by ring.
    rewrite cos_period. apply cos_0.
  - assert (O : Nat.Odd k) by (apply Nat.odd_spec; unfold Nat.odd; rewrite E; reflexivity). destruct O as [q ->]. rewrite plus_INR, mult_INR. change (INR 2) with 2. change (INR 1) with 1.
    replace ((2 * INR q + 1) * PI) with (PI + 2 * INR q * PI) by ring. rewrite cos_period. apply cos_PI.
Qed.
Lemma T_int k : RInt (T k) (-1) 1 = tint k.
Proof.
  pose proof (T_subst k) as H. destruct (Nat.eq_dec k 1) as [->|D].
  - assert (H2 : is_RInt (fun y => - sin y * cos (INR 1 * y)) PI 0 (minus (cos 0 ^ 2 / 2) (cos PI ^ 2 / 2))).
    { apply (is_RInt_ext (fun y => - sin y * cos y)); [intros x _; simpl; rewrite Rmult_1_l; reflexivity|].
      apply (is_RInt_derive (V := R_CompleteNormedModule) (fun y => cos y ^ 2 / 2)).
      - intros x _. auto_derive; auto. simpl. field.
      - intros x _. apply (continuous_mult (K := R_AbsRing)); [apply (continuous_opp (V := R_NormedModule)); apply continuous_sin|apply continuous_cos]. }
    pose proof (is_RInt_unique _ _ _ _ H) as U. rewrite <- U. rewrite (is_RInt_unique _ _ _ _ H2). rewrite cos_0, cos_PI. unfold minus, plus, opp, tint. simpl. lra.
  - assert (K1 : INR k - 1 <> 0).
    { intros E. apply D. apply INR_eq. change (INR 1) with 1. lra. }
    assert (K2 : INR k + 1 <> 0) by (pose proof (pos_INR k); lra).
    set (F := fun y => cos ((INR k + 1) * y) / (2 * (INR k + 1)) - cos ((INR k - 1) * y) / (2 * (INR k - 1))).
    assert (H2 : is_RInt (fun y => - sin y * cos (INR k * y)) PI 0 (minus (F 0) (F PI))).
    { apply (is_RInt_derive (V := R_CompleteNormedModule) F).
      - intros x _. unfold F. evar_last; [auto_derive; auto; splits; auto; lra|].
        replace ((INR k + 1) * x) with (INR k * x + x) by ring. replace ((INR k - 1) * x) with (INR k * x - x) by ring.
        rewrite sin_plus, sin_minus. field. split; auto.
      - intros x _. apply (continuous_mult (K := R_AbsRing)); [apply (continuous_opp (V := R_NormedModule)); apply continuous_sin|].
        apply (continuous_comp (fun y => INR k * y) cos); [apply (continuous_scal_r (V := R_NormedModule)); apply continuous_id|apply continuous_cos]. }
    rewrite <- (is_RInt_unique _ _ _ _ H), (is_RInt_unique _ _ _ _ H2). unfold F, minus, plus, opp. simpl. rewrite !Rmult_0_r, cos_0.
    replace ((INR k + 1) * PI) with (INR k * PI + PI) by ring. replace ((INR k - 1) * PI) with (INR k * PI - PI) by ring.
    rewrite cos_plus, cos_minus, cos_PI, sin_PI, cos_nat_pi, !Rmult_0_r. unfold tint. destruct (Nat.even k).
    + assert (1 - INR k ^ 2 <> 0). { replace (1 - INR k ^ 2) with (- ((INR k - 1) * (INR k + 1))) by ring. apply Ropp_neq_0_compat. apply Rmult_integral_contrapositive. auto. }
      simpl. field. simpl in *. splits; auto. { intros E0. apply H0. lra. }
    + field. auto.
Qed.

(** combinations of the first d+1 polynomials *)
Inductive spanT (d : nat) : (R -> R) -> Prop :=
| span_nil f : (forall x, f x = 0) -> spanT d f
| span_cons f c k g : (k <= d)%nat -> spanT d g -> (forall x, f x = c * T k x + g x) -> spanT d f.
Lemma span_ext d f g : spanT d f -> (forall x, g x = f x) -> spanT d g.
Proof.
  intros [f0 H|f0 c k h K S0 H] E; [apply span_nil; intros; rewrite E; auto|]. apply (span_cons d g c k h); auto. intros. rewrite E. auto.
Qed.
Lemma span_mono d e f : (d <= e)%nat -> spanT d f -> spanT e f.
Proof. intros L S0. induction S0 as [f H|f c k h K S0 IH H]; [apply span_nil; auto|]. apply (span_cons e f c k h); auto. lia. Qed.
Lemma span_add d f g : spanT d f -> spanT d g -> spanT d (fun x => f x + g x).
Proof.
  intros S0 S1. induction S0 as [f H|f c k h K S0 IH H].
  - apply (span_ext d g); auto. intros. rewrite H. ring.
  - apply (span_cons d _ c k (fun x => h x + g x)); auto. intros. rewrite H. ring.
Qed.
Lemma span_scal d c f : spanT d f -> spanT d (fun x => c * f x).
Proof.
  intros S0. induction S0 as [f H|f e k h K S0 IH H].
  - apply span_nil. intros. rewrite H. ring.
  - apply (span_cons d _ (c * e) k (fun x => c * h x)); auto. intros. rewrite H. ring.
Qed.
Lemma span_T d k : (k <= d)%nat -> spanT d (T k).
Proof. intros K. apply (span_cons d _ 1 k (fun _ => 0)); auto; [apply span_nil; auto|intros; ring]. Qed.
Lemma span_x d f : spanT d f -> spanT (S d) (fun x => x * f x).
Proof.
  intros S0. induction S0 as [f H|f c k h K S0 IH H].
  - apply span_nil. intros. rewrite H. ring.
  - apply (span_ext (S d) (fun x => c * (x * T k x) + x * h x)); [|intros; rewrite H; ring]. apply span_add; auto. apply span_scal.
    destruct k as [|k].
    + apply (span_ext (S d) (T 1)); [apply span_T; lia|]. intros. rewrite T_0, T_1. ring.
    + apply (span_ext (S d) (fun x => (1 / 2) * T (S (S k)) x + (1 / 2) * T k x)).
      * apply span_add; apply span_scal; apply span_T; lia.
      * intros. rewrite T_SS. field.
Qed.
Lemma span_poly cs m h : forall d, (length cs <= S d)%nat -> spanT d (fun t => poly cs (m + h * t)).
Proof.
  induction cs as [|c cs IH]; intros d L; [apply span_nil; reflexivity|]. simpl in L. simpl.
  apply (span_cons d _ c 0 (fun t => (m + h * t) * poly cs (m + h * t))); [lia| |intros; rewrite T_0; ring].
  destruct d as [|d].
  - destruct cs; [|simpl in L; lia]. apply span_nil. intros. simpl. ring.
  - pose proof (IH d ltac:(lia)) as S0.
    apply (span_ext (S d) (fun t => m * poly cs (m + h * t) + h * (t * poly cs (m + h * t)))); [|intros; ring].
    apply span_add; apply span_scal; [apply (span_mono d); auto|apply span_x; auto].
Qed.
Lemma span_cont d f x : spanT d f -> continuous f x.
Proof.
  intros S0. induction S0 as [f H|f c k h K S0 IH H].
  - apply (continuous_ext (fun _ => 0)); [intros; rewrite H; reflexivity|apply continuous_const].
  - apply (continuous_ext (fun x => c * T k x + h x)); [intros; rewrite H; reflexivity|]. apply (continuous_plus (V := R_NormedModule)); auto.
    apply (continuous_scal_r (V := R_NormedModule)). apply T_cont.
Qed.
(** a rule that is right for the first Chebyshev polynomials is right for their combinations *)
Lemma span_exact n (w x : nat -> R) d f : (forall k, (k <= d)%nat -> bsum n (fun j => w j * T k (x j)) = tint k) ->
  spanT d f -> bsum n (fun j => w j * f (x j)) = RInt f (-1) 1.
Proof.
  intros HT S0. induction S0 as [f H|f c k h K S0 IH H].
  - rewrite bsum_zero by (intros; rewrite H; ring). rewrite (RInt_ext f (fun _ => 0)) by (intros; apply H). rewrite RInt_const. unfold scal. simpl. unfold mult. simpl. ring.
  - rewrite (RInt_ext f (fun x => plus (scal c (T k x)) (h x))) by (intros; apply H).
    rewrite (RInt_plus (V := R_CompleteNormedModule)), (RInt_scal (V := R_CompleteNormedModule)).
    + rewrite T_int, <- IH, <- HT by auto. unfold plus, scal. simpl. unfold mult. simpl. rewrite <- bsum_scal, <- bsum_plus. apply bsum_ext. intros j _. rewrite H. ring.
    + apply T_ex.
    + apply (ex_RInt_scal (V := R_NormedModule)). apply T_ex.
    + apply (ex_RInt_continuous (V := R_CompleteNormedModule)). intros z _. apply (span_cont d). auto.
Qed.
