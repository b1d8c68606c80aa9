(** Concrete instances for the theorems in PropComb.v. *)
From Coq Require Import Reals ZArith Lra Lia List Bool.
From Coquelicot Require Import Coquelicot.
From Verif Require Import Base Comb CombSpec PropComb.
Import List ListNotations.
Open Scope R_scope.

Example ex_choose : choose 5 2 = 10%nat.
Proof. reflexivity. Qed.
Example ex_binomial : binomial_coeff 5 2 = 10.
Proof. change (binomial_coeff (Z.of_nat 5) (Z.of_nat 2) = 10). rewrite binomial_coeff_counts by lia. rewrite ex_choose. simpl. lra. Qed.
Example ex_multinomial : exists c, multinomial_coeff 4 [2; 1; 1]%Z = Ok c /\ c = 12.
Proof.
  destruct (multinomial_coeff_exact 4 [2; 1; 1]%nat eq_refl) as (c & E & H). exists c. split; [exact E|]. simpl in H. lra.
Qed.
Example ex_multinomial_bad : multinomial_coeff 4 [2; 1]%Z = Err EAssert.
Proof. apply multinomial_coeff_assert. simpl. discriminate. Qed.
Example ex_binomial_law : exists l, binomial_pairs 2 (1/3) = Ok l /\ nth_error l 1 = Some (1, 4/9).
Proof.
  destruct (binomial_distr_law 2 (1/3) ltac:(lra)) as (E & _). eexists. split; [exact E|]. simpl. unfold binomial_law.
  change (choose 2 1) with 2%nat. simpl. do 2 f_equal. lra.
Qed.
(** a Poisson law with a loose tolerance: 1 - exp(-1) - exp(-1) < 1/2 *)
Example ex_poisson : exists l, poisson_pairs 5 1 (1/2) = Some l /\ 1 - 1/2 < rsum (map snd l) <= 1.
Proof.
  assert (E1 : 2 < exp 1) by (pose proof (exp_ineq1 1); lra).
  assert (E2 : exp (- (1)) * exp 1 = 1) by (rewrite <- exp_plus; replace (- (1) + 1) with 0 by lra; apply exp_0).
  assert (E3 : exp 1 <= 3) by apply exp_le_3.
  assert (E4 : 1/3 <= exp (- (1))) by nra. assert (E5 : exp (- (1)) < 1/2) by nra.
  assert (X : exists l, poisson_pairs 5 1 (1/2) = Some l).
  { unfold poisson_pairs. cbn [poisson_loop]. destruct (rleP (1/2) (1 - exp (- (1)))); [|lra].
    destruct (rleP (1/2) (1 - (exp (- (1)) + exp (- (1)) * 1 / (0 + 1)))); [exfalso; lra|]. eexists. reflexivity. }
  destruct X as (l & E). exists l. split; auto. destruct (poisson_distr_law 5 1 (1/2) l ltac:(lra) E) as (m & _ & H & _). exact H.
Qed.
(** the geometric law (1/2)^(k+1) cut at tolerance 1/3: two values, renormalised to 2/3 and 1/3 *)
Example ex_trunc : exists l, trunc_pairs 5 (fun k => Rpower (1/2) (k + 1)) (1/3) = Some l /\ rsum (map snd l) = 1.
Proof.
  assert (P1 : Rpower (1/2) (0 + 1) = 1/2) by (rewrite Rplus_0_l; apply Rpower_1; lra).
  assert (P2 : Rpower (1/2) (0 + 1 + 1) = 1/4).
  { replace (0 + 1 + 1) with (1 + 1) by lra. rewrite Rpower_plus, Rpower_1; lra. }
  assert (X : exists l, trunc_pairs 5 (fun k => Rpower (1/2) (k + 1)) (1/3) = Some l).
  { unfold trunc_pairs. cbn [trunc_loop]. rewrite P1, P2.
    destruct (rleP (1/3) (Rabs (0 - 1))) as [_|N]; [|exfalso; apply N; rewrite Rabs_left; lra].
    destruct (rleP (1/3) (Rabs (0 + 1/2 - 1))) as [_|N]; [|exfalso; apply N; rewrite Rabs_left; lra].
    destruct (rleP (1/3) (Rabs (0 + 1/2 + 1/4 - 1))) as [N|_]; [exfalso; rewrite Rabs_left in N; lra|]. eexists. reflexivity. }
  destruct X as (l & E). exists l. split; auto. apply (trunc_distr_law 5 _ (1/3) l ltac:(lra) E).
Qed.

(** the logistic law *)
Definition lF (x : R) : R := exp x / (1 + exp x).
Definition lf (x : R) : R := exp x / (1 + exp x) ^ 2.
Lemma lF_derive x : is_derive lF x (lf x).
Proof. unfold lF, lf. pose proof (exp_pos x). auto_derive; [lra|]. field. lra. Qed.
Lemma lf_cont x : continuous lf x.
Proof.
  apply (ex_derive_continuous (K := R_AbsRing) (V := R_NormedModule)). unfold lf. pose proof (exp_pos x). auto_derive. nra.
Qed.
Lemma lF_m : is_lim lF m_infty 0.
Proof.
  evar_last. apply (is_lim_div exp (fun x => 1 + exp x) m_infty 0 1).
  - apply is_lim_exp_m.
  - evar_last. apply (is_lim_plus (fun _ => 1) exp m_infty 1 0); [apply is_lim_const|apply is_lim_exp_m|]. reflexivity. simpl. f_equal. lra.
  - injection. lra.
  - reflexivity.
  - simpl. f_equal. lra.
Qed.
Lemma lF_p : is_lim lF p_infty 1.
Proof.
  apply (is_lim_ext (fun x => 1 - / (1 + exp x))).
  { intros x. unfold lF. pose proof (exp_pos x). field. lra. }
  evar_last. apply (is_lim_minus (fun _ => 1) (fun x => / (1 + exp x)) p_infty 1 0); [apply is_lim_const| |].
  - evar_last. apply (is_lim_inv (fun x => 1 + exp x) p_infty p_infty).
    + evar_last. apply (is_lim_plus (fun _ => 1) exp p_infty 1 p_infty); [apply is_lim_const|apply is_lim_exp_p|]. reflexivity. reflexivity.
    + discriminate.
    + reflexivity.
  - reflexivity.
  - simpl. f_equal. lra.
Qed.
(** the median of five logistic variables *)
Example ex_order_total : is_RInt_gen (fun x => order_stat_fun 5 3 (lf x) (lF x)) (Rbar_locally m_infty) (Rbar_locally p_infty) 1.
Proof. apply order_stat_total; auto using lF_derive, lf_cont, lF_m, lF_p. Qed.
