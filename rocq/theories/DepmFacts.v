(** Proofs about measures of dependence. *)
From Coq Require Import Reals Lra Lia List Bool Arith.
From Coquelicot Require Import Coquelicot.
From Verif Require Import Base Integral IntegralFacts SegIntFacts Copula CopulaSpec CopulaFacts CopulaFacts2 CopulaFacts3 CopulaMain Depm DepmSpec.
Import List ListNotations.
Open Scope R_scope.

(** ** Integrals over [0,1] of functions that do not vary faster than their argument *)
Definition cl (x : R) : R := Rmax 0 (Rmin x 1).
Lemma cl_in x : 0 <= cl x <= 1.
Proof. unfold cl, Rmax, Rmin. destruct (Rle_dec x 1), (Rle_dec 0 _); lra. Qed.
Lemma cl_id x : 0 <= x <= 1 -> cl x = x.
Proof. intros H. unfold cl. rewrite Rmin_left, Rmax_right; lra. Qed.
Lemma cl_lip x y : Rabs (cl x - cl y) <= Rabs (x - y).
Proof. unfold cl, Rmax, Rmin. repeat (destruct (Rle_dec _ _)); unfold Rabs; repeat (destruct (Rcase_abs _)); lra. Qed.
Lemma lip_ex (f : R -> R) : (forall x y, 0 <= x <= 1 -> 0 <= y <= 1 -> Rabs (f x - f y) <= Rabs (x - y)) -> ex_RInt f 0 1.
Proof.
  intros L. apply (ex_RInt_ext (fun x => f (cl x))).
  - intros x H. rewrite Rmin_left, Rmax_right in H by lra. rewrite cl_id; auto; lra.
  - apply (ex_RInt_continuous (V := R_CompleteNormedModule)). intros z _. apply continuity_pt_filterlim.
    intros e He. exists e. split; auto. intros x (_ & D). simpl in *. unfold R_dist in *.
    eapply Rle_lt_trans; [|exact D]. eapply Rle_trans; [apply L; apply cl_in|apply cl_lip].
Qed.
Lemma unit_Q (f : R -> R) : ex_RInt f 0 1 -> Q f 0 1 = RInt f 0 1.
Proof. intros H. apply (proper_int f 0 1); auto. lra. Qed.

(** a function of two variables that rises with both, not faster than them *)
Definition slow (C : R -> R -> R) : Prop :=
  (forall x x' y, in01 x -> in01 x' -> in01 y -> x <= x' -> 0 <= C x' y - C x y <= x' - x) /\
  (forall x y y', in01 x -> in01 y -> in01 y' -> y <= y' -> 0 <= C x y' - C x y <= y' - y).
Lemma slow_lip (f : R -> R) : (forall x x', in01 x -> in01 x' -> x <= x' -> 0 <= f x' - f x <= x' - x) ->
  forall x y, 0 <= x <= 1 -> 0 <= y <= 1 -> Rabs (f x - f y) <= Rabs (x - y).
Proof.
  intros H x y X Y. destruct (Rle_dec x y) as [L|L].
  - specialize (H x y X Y L). rewrite (Rabs_minus_sym (f x)), (Rabs_minus_sym x), !Rabs_pos_eq; lra.
  - specialize (H y x Y X ltac:(lra)). rewrite !Rabs_pos_eq; lra.
Qed.
Lemma slow_inner C : slow C -> forall y, in01 y -> ex_RInt (fun x => C x y) 0 1.
Proof. intros (H & _) y Y. apply lip_ex, slow_lip. intros; apply H; auto. Qed.
Lemma slow_outer C : slow C -> ex_RInt (fun y => RInt (fun x => C x y) 0 1) 0 1.
Proof.
  intros H. apply lip_ex, slow_lip. intros y y' Y Y' L. destruct H as (H1 & H2).
  assert (E : forall y, in01 y -> ex_RInt (fun x => C x y) 0 1) by (intros; apply slow_inner; auto; split; auto).
  assert (D : RInt (fun x => C x y') 0 1 - RInt (fun x => C x y) 0 1 = RInt (fun x => C x y' - C x y) 0 1).
  { symmetry. apply is_RInt_unique. apply (is_RInt_minus (V := R_NormedModule)); apply (RInt_correct (V := R_CompleteNormedModule)); auto. }
  rewrite D. assert (ED : ex_RInt (fun x => C x y' - C x y) 0 1) by (apply (ex_RInt_minus (V := R_NormedModule)); auto).
  split.
  - apply RInt_ge_0; auto; [lra|]. intros x X. apply H2; auto; unfold in01; lra.
  - replace (y' - y) with (RInt (fun _ => y' - y) 0 1) by (rewrite RInt_const; unfold scal; simpl; unfold mult; simpl; ring).
    apply RInt_le; auto; [lra|apply ex_RInt_const|]. intros x X. apply H2; auto; unfold in01; lra.
Qed.
Lemma slow_iter C : slow C -> integrate_iter C 0 1 0 1 = RInt (fun y => RInt (fun x => C x y) 0 1) 0 1.
Proof.
  intros H. unfold integrate_iter. rewrite <- unit_Q by (apply slow_outer; auto). apply Q_ext; [simpl; lra|].
  intros y (Y1 & Y2). simpl in Y1, Y2. apply unit_Q, slow_inner; auto. unfold in01; lra.
Qed.
Lemma slow_le C D : slow C -> slow D -> (forall x y, in01 x -> in01 y -> C x y <= D x y) -> integrate_iter C 0 1 0 1 <= integrate_iter D 0 1 0 1.
Proof.
  intros HC HD L. rewrite !slow_iter by auto. apply RInt_le; [lra|apply slow_outer; auto..|]. intros y Y.
  apply RInt_le; [lra|apply slow_inner; auto; unfold in01; lra..|]. intros x X. apply L; unfold in01; lra.
Qed.
Lemma copula_slow C : is_copula2 C -> slow C.
Proof.
  intros (G & M & R). split.
  - intros x x' y X X' Y L. pose proof (R x x' 0 y X X' ltac:(unfold in01; lra) Y L ltac:(apply Y)) as R1.
    pose proof (R x x' y 1 X X' Y ltac:(unfold in01; lra) L ltac:(apply Y)) as R2.
    rewrite (proj1 (G x X)), (proj1 (G x' X')) in R1. rewrite (proj1 (M x X)), (proj1 (M x' X')) in R2. lra.
  - intros x y y' X Y Y' L. pose proof (R 0 x y y' ltac:(unfold in01; lra) X Y Y' ltac:(apply X) L) as R1.
    pose proof (R x 1 y y' X ltac:(unfold in01; lra) Y Y' ltac:(apply X) L) as R2.
    rewrite (proj2 (G y Y)), (proj2 (G y' Y')) in R1. rewrite (proj2 (M y Y)), (proj2 (M y' Y')) in R2. lra.
Qed.

(** ** The integrals of the extreme copulas and of the independent one *)
Lemma int_line (a b p q : R) : is_RInt (fun x => p + q * x) a b (p * (b - a) + q * (b ^ 2 - a ^ 2) / 2).
Proof.
  evar_last; [apply (is_RInt_derive (V := R_CompleteNormedModule) (fun x => p * x + q * x ^ 2 / 2) (fun x => p + q * x) a b)|].
  - intros x _. auto_derive; auto. field.
  - intros x _. apply continuity_pt_filterlim. reg.
  - unfold minus, plus, opp; simpl. field.
Qed.
Lemma int_quad (a b p q r : R) : is_RInt (fun x => p + q * x + r * x ^ 2) a b (p * (b - a) + q * (b ^ 2 - a ^ 2) / 2 + r * (b ^ 3 - a ^ 3) / 3).
Proof.
  evar_last; [apply (is_RInt_derive (V := R_CompleteNormedModule) (fun x => p * x + q * x ^ 2 / 2 + r * x ^ 3 / 3) (fun x => p + q * x + r * x ^ 2) a b)|].
  - intros x _. auto_derive; auto. field.
  - intros x _. apply continuity_pt_filterlim. reg.
  - unfold minus, plus, opp; simpl. field.
Qed.
Lemma upper_copula : is_copula2 upper2.
Proof. exact (proj1 m_copula_main). Qed.
Lemma lower_copula : is_copula2 lower2.
Proof. exact (proj1 w_copula_main). Qed.
Lemma upper_inner y : 0 <= y <= 1 -> RInt (fun x => upper2 x y) 0 1 = 0 + 1 * y + (- / 2) * y ^ 2.
Proof.
  intros Y. apply is_RInt_unique. evar_last; [apply (is_RInt_Chasles (V := R_NormedModule) (fun x => upper2 x y) 0 y 1)|].
  - apply (is_RInt_ext (fun x => 0 + 1 * x)); [|apply int_line]. intros x X. rewrite Rmin_left, Rmax_right in X by lra. unfold upper2. rewrite Rmin_left; lra.
  - apply (is_RInt_ext (fun x => y + 0 * x)); [|apply int_line]. intros x X. rewrite Rmin_left, Rmax_right in X by lra. unfold upper2. rewrite Rmin_right; lra.
  - unfold plus; simpl. field.
Qed.
Lemma upper_iter : integrate_iter upper2 0 1 0 1 = 1 / 3.
Proof.
  rewrite slow_iter by apply copula_slow, upper_copula. apply is_RInt_unique. 
  apply (is_RInt_ext (fun y => 0 + 1 * y + (- / 2) * y ^ 2)).
  - intros y Y. rewrite Rmin_left, Rmax_right in Y by lra. symmetry. apply upper_inner. lra.
  - evar_last; [apply int_quad|]. field.
Qed.
Lemma lower_inner y : 0 <= y <= 1 -> RInt (fun x => lower2 x y) 0 1 = 0 + 0 * y + / 2 * y ^ 2.
Proof.
  intros Y. apply is_RInt_unique. evar_last; [apply (is_RInt_Chasles (V := R_NormedModule) (fun x => lower2 x y) 0 (1 - y) 1)|].
  - apply (is_RInt_ext (fun x => 0 + 0 * x)); [|apply int_line]. intros x X. rewrite Rmin_left, Rmax_right in X by lra. unfold lower2. rewrite Rmax_right; lra.
  - apply (is_RInt_ext (fun x => (y - 1) + 1 * x)); [|apply int_line]. intros x X. rewrite Rmin_left, Rmax_right in X by lra. unfold lower2. rewrite Rmax_left; lra.
  - unfold plus; simpl. field.
Qed.
Lemma lower_iter : integrate_iter lower2 0 1 0 1 = 1 / 6.
Proof.
  rewrite slow_iter by apply copula_slow, lower_copula. apply is_RInt_unique. 
  apply (is_RInt_ext (fun y => 0 + 0 * y + / 2 * y ^ 2)).
  - intros y Y. rewrite Rmin_left, Rmax_right in Y by lra. symmetry. apply lower_inner. lra.
  - evar_last; [apply int_quad|]. field.
Qed.
Lemma pi_iter : integrate_iter (fun u v => u * v) 0 1 0 1 = 1 / 4.
Proof.
  rewrite slow_iter by apply copula_slow, pi_copula_main. apply is_RInt_unique. 
  apply (is_RInt_ext (fun y => 0 + / 2 * y)).
  - intros y _. symmetry. apply is_RInt_unique. apply (is_RInt_ext (fun x => 0 + y * x)); [intros x _; change (0 + y * x = x * y); ring|]. evar_last; [apply int_line|]. field.
  - evar_last; [apply int_line|]. field.
Qed.

(** ** two marginals *)
Lemma two_vars c f g i j : c_margs c = [f; g] -> (i, j) = (0, 1)%nat \/ (i, j) = (1, 0)%nat ->
  cop_eliminate c (other_vars (length (c_margs c)) i j) = Ok c /\ dep_vars c i j = Ok (c, f, g) /\ Nat.eqb i j = false.
Proof. intros M [[= -> ->]|[= -> ->]]; unfold dep_vars; rewrite M; simpl; rewrite M; auto. Qed.
