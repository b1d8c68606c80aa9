(** Concrete model: the sum Z = X + Y of two uniform variables on [0,1]; X is 0, Y is 1, Z is 2. *)
From Coq Require Import Reals Lra Lia List Bool Arith Permutation.
From Coquelicot Require Import Coquelicot.
From Verif Require Import Base Integral IntegralFacts IntParts ND NDSpec NDFacts NDFacts2 NDFacts3 NDMain Models ModelsSpec ModelsFacts ModelsFacts2 ModelsFacts3 ModelsFacts4 ModelsMain ExProd.
Import List ListNotations.
Open Scope R_scope.

Definition id_e (e : expr) : expr := e.
(** solves d = x + y for x or y *)
Definition ex_solve (e : expr) (d a : nat) : list expr :=
  match e with
  | EAdd (EVar x) (EVar y) =>
      if Nat.eqb x a && negb (Nat.eqb y a) && negb (Nat.eqb d a) then [EAdd (EVar d) (EMul (ENum (Ropp 1)) (EVar y))]
      else if Nat.eqb y a && negb (Nat.eqb x a) && negb (Nat.eqb d a) then [EAdd (EVar d) (EMul (ENum (Ropp 1)) (EVar x))]
      else []
  | _ => []
  end.
Definition ex_diff (e : expr) (d : nat) : expr := ENum 1.
Definition ex_real (e : expr) : bool := true.
Definition ex_id (l : list nat) : list nat := l.
Lemma ex_solve_inv e d a u : In u (ex_solve e d a) -> exists y, u = EAdd (EVar d) (EMul (ENum (Ropp 1)) (EVar y)) /\ y <> a /\ d <> a /\ (e = EAdd (EVar a) (EVar y) \/ e = EAdd (EVar y) (EVar a)).
Proof.
  unfold ex_solve. destruct e as [| |e1 e2| | |]; try (intros []; fail). destruct e1 as [x| | | | |]; try (intros []; fail). destruct e2 as [y| | | | |]; try (intros []; fail).
  destruct (Nat.eqb_spec x a), (Nat.eqb_spec y a), (Nat.eqb_spec d a); cbn [andb negb]; intros H; try (destruct H; fail); destruct H as [<-|[]]; subst; (eexists; split; [reflexivity|]); splits; auto.
Qed.
Example ex_sympy : sympy_ok id_e ex_solve ex_diff ex_id.
Proof.
  constructor; auto.
  - intros e w H. auto.
  - intros e d a u H. apply ex_solve_inv in H as (y & -> & N1 & N2 & E). cbn. splits; auto; [intros [X|[X|[]]]; subst; auto|]. intros w [<-|[<-|[]]]; auto. right. destruct E as [-> | ->]; cbn; auto.
  - intros u d w [].
Qed.
Example ex_exact : exact_on (fun _ => True) ex_solve ex_real.
Proof.
  intros e d a u So env _. assert (I : In u (ex_solve e d a)) by (destruct So as [E|E]; [rewrite E; cbn; auto|]; assert (X : In u [u]) by (cbn; auto); rewrite <- E in X; apply filter_In in X; tauto).
  apply ex_solve_inv in I as (y & -> & N1 & N2 & [-> | ->]); cbn; split; lra.
Qed.
Definition ex_lo (v : nat) : R := 0.
Definition ex_hi (v : nat) : R := if Nat.eqb v 2 then 2 else 1.
Definition uni (v : nat) : factor := FDens (NDF [v] [0] [1] false (fun _ => 1)).
Definition exM : model := Mdl [0%nat; 1%nat] [2%nat] [0%nat; 1%nat; 2%nat] [0%nat; 1%nat; 2%nat] [(2%nat, EAdd (EVar 0) (EVar 1))] [uni 0; uni 1].
Lemma nd1 (l : list nat) : (forall v w, nth_error l v = nth_error l w -> (v < length l)%nat -> v = w) -> NoDup l.
Proof. intros H. apply NoDup_nth_error. intros i j L E. eauto. Qed.
Example exM_wf : wf_model ex_lo ex_hi exM.
Proof.
  constructor; cbn [exM m_free m_dep m_all m_syms m_eqs m_dens map fst].
  - repeat constructor; cbn; intuition congruence.
  - repeat constructor; cbn; tauto.
  - repeat constructor; cbn; intuition congruence.
  - cbn. intros v [<-|[<-|[]]] [H|[]]; discriminate.
  - cbn. intros v. tauto.
  - intros v V. auto.
  - repeat constructor; cbn; tauto.
  - cbn. tauto.
  - intros v e [[= <- <-]|[]] w [<-|[<-|[]]]; cbn; auto.
  - exists (fun v => v). intros v e w [[= <- <-]|[]] [<-|[<-|[]]]; lia.
  - repeat constructor; cbn; auto; try discriminate; try (unfold ex_lo, ex_hi; auto); repeat constructor; cbn; tauto.
  - intros w. unfold occurs. cbn. split; [intros (g & [<-|[<-|[]]] & [<-|[]]); auto|]. intros [<-|[<-|[]]]; [exists (uni 0)|exists (uni 1)]; cbn; auto.
Qed.
(** X can be exchanged with Z, then eliminated; the sum Z and Y remain *)
Example ex_run : forall integ, homogeneous integ -> exists M', run id_e ex_solve ex_real ex_diff ex_id integ ex_lo ex_hi exM [Exchange 0 2; Elim 0] = Ok M' /\
  (forall v, In v (m_all M') <-> v = 1%nat \/ v = 2%nat) /\ (forall v, In v (m_free M') <-> v = 1%nat \/ v = 2%nat).
Proof.
  intros integ HI. assert (X : exists M', varschange id_e ex_solve ex_real ex_diff ex_id ex_lo ex_hi exM 0 2 = Ok M').
  { apply (exchange_succeeds_main _ _ _ _ _ _ _ ex_sympy); [apply exM_wf|]. cbn. split; auto. exists (EAdd (EVar 0) (EVar 1)), (EAdd (EVar 2) (EMul (ENum (Ropp 1)) (EVar 1))). splits; auto; cbn; auto; [intros w [<-|[<-|[]]]; cbn; auto|]. left. reflexivity. }
  destruct X as (M1 & E1). pose proof (exch_wf _ _ _ _ _ _ _ ex_sympy _ _ _ _ exM_wf E1) as (W1 & F1 & D1 & A1).
  assert (X : exists M', m_elim id_e integ ex_lo ex_hi M1 0 = Ok M') by (apply elim_succeeds_main; auto; left; apply D1; auto). destruct X as (M2 & E2).
  pose proof (elim_wf _ _ ex_real _ _ _ _ _ ex_sympy HI _ _ _ W1 E2) as (W2 & _ & F2 & D2 & A2).
  exists M2. cbn [run step rbind]. rewrite E1. cbn [rbind]. rewrite E2. splits; auto; intros v; rewrite ?A2, ?F2, ?A1, ?F1; cbn; intuition; subst; try lia; tauto.
Qed.
(** the mean of Z for a given value of Y, computed before and after the exchange *)
Example ex_law : exists M', varschange id_e ex_solve ex_real ex_diff ex_id ex_lo ex_hi exM 0 2 = Ok M' /\
  forall env : nat -> R, 0 <= env 1%nat <= 1 ->
  has_int (fun y => density (m_dens M') (upd env 2 y) * y) 0 2 (Q (fun x => density (m_dens exM) (upd env 0 x) * (x + env 1%nat)) 0 1).
Proof.
  assert (X : exists M', varschange id_e ex_solve ex_real ex_diff ex_id ex_lo ex_hi exM 0 2 = Ok M').
  { apply (exchange_succeeds_main _ _ _ _ _ _ _ ex_sympy); [apply exM_wf|]. cbn. split; auto. exists (EAdd (EVar 0) (EVar 1)), (EAdd (EVar 2) (EMul (ENum (Ropp 1)) (EVar 1))). splits; auto; cbn; auto; [intros w [<-|[<-|[]]]; cbn; auto|]. left. reflexivity. }
  destruct X as (M1 & E1). exists M1. split; auto. intros env Y1.
  destruct (exchange_law_main _ _ _ _ _ _ _ ex_sympy (fun _ => True) exM 0 2 M1 exM_wf ex_exact E1) as (e & u & I1 & I2 & LAW).
  assert (EE : e = EAdd (EVar 0) (EVar 1)) by (destruct I1 as [[= <-]|[]]; auto). subst e.
  assert (EU : u = EAdd (EVar 2) (EMul (ENum (Ropp 1)) (EVar 1))).
  { cbn in E1. injection E1 as <-. cbn in I2. destruct I2 as [[= <-]|[]]. reflexivity. }
  subst u. specialize (LAW env (fun E => E 2%nat) (env 1%nat) (env 1%nat + 1)). cbv zeta in LAW.
  assert (DN : forall x, 0 < x < 1 -> density (m_dens exM) (upd env 0 x) = 1).
  { intros x X. unfold density, exM, uni. cbn [m_dens fold_right f_val nd_vars map]. unfold nd_point, post, inside, in_rng, upd. cbn [nd_a nd_b nd_abs nd_f Nat.eqb].
    rewrite !(proj2 (rle_true _ _)) by lra. cbn. ring. }
  assert (HD : forall y, upd env 2 y 2%nat = y) by (intros; apply upd_eq).
  assert (FE : forall x, 0 < x < 1 -> density (m_dens exM) (upd env 0 x) * upd (upd env 0 x) 2 (eval (EAdd (EVar 0) (EVar 1)) (upd env 0 x)) 2%nat = x + env 1%nat).
  { intros x X. rewrite DN by auto. rewrite upd_eq. cbn [eval]. rewrite upd_eq, upd_neq by discriminate. ring. }
  assert (R0 : ex_lo 0 = 0 /\ ex_hi 0 = 1 /\ ex_lo 2 = 0 /\ ex_hi 2 = 2 /\ ex_lo 1 = 0 /\ ex_hi 1 = 1) by (repeat split). destruct R0 as (R1 & R2 & R3 & R4 & R5 & R6). rewrite R1, R2, R3, R4 in LAW.
  assert (GO : has_int (fun y => density (m_dens M1) (upd env 2 y) * upd (upd env 2 y) 0 (eval (EAdd (EVar 2) (EMul (ENum (Ropp 1)) (EVar 1))) (upd env 2 y)) 2%nat) 0 2
     (Q (fun x => density (m_dens exM) (upd env 0 x) * upd (upd env 0 x) 2 (eval (EAdd (EVar 0) (EVar 1)) (upd env 0 x)) 2%nat) 0 1)).
  { apply LAW; auto; try lra.
    - intros w [<-|[<-|[]]] N; [congruence|]. rewrite R5, R6. auto.
    - unfold mono_onto. cbn [eval]. splits; try lra; intros.
      + rewrite upd_eq, upd_neq by discriminate. lra.
      + exists (x + env 1%nat). rewrite upd_eq, upd_neq by discriminate. lra.
      + left. intros y z A B C. rewrite !upd_eq, !upd_neq by discriminate. lra.
    - intros y Y O. cbn [eval]. rewrite upd_eq, upd_neq by discriminate. lra.
    - intros y Y. cbn [eval ex_diff]. split; [|apply continuous_const].
      apply (is_derive_ext (fun t => t + Ropp 1 * env 1%nat)); [intros t; rewrite upd_eq, upd_neq by discriminate; auto|]. auto_derive; auto.
    - apply (integrable_ext (fun x => x + env 1%nat)); [intros x X; symmetry; apply FE; apply RbarIn_fin; auto|]. apply cont_integrable; [lra|]. intros x _. apply (continuous_plus (V := R_NormedModule)); [apply continuous_id|apply continuous_const].
    - intros x X. apply (continuous_ext_loc _ (fun x => x + env 1%nat)).
      + apply (open_and (fun t => 0 < t) (fun t => t < 1)) in X; [|apply open_gt|apply open_lt]. revert X. apply filter_imp. intros t T. symmetry. apply FE. auto.
      + apply (continuous_plus (V := R_NormedModule)); [apply continuous_id|apply continuous_const]. }
  rewrite (Q_ext _ (fun x => density (m_dens exM) (upd env 0 x) * (x + env 1%nat))) in GO; [|cbn; lra|].
  - eapply IntPartsFacts.has_int_ext; [exact GO|]. intros y. cbn beta. rewrite (upd_neq _ 0) by discriminate. rewrite upd_eq. auto.
  - intros x X. apply RbarIn_fin in X. rewrite FE by auto. rewrite DN by auto. ring.
Qed.
(** the value of that mean for Y = 1/2 is 1 *)
Example ex_mean : forall env : nat -> R, env 1%nat = 1/2 -> Q (fun x => density (m_dens exM) (upd env 0 x) * (x + env 1%nat)) 0 1 = 1.
Proof.
  intros env E. rewrite (Q_ext _ (fun x => x + 1/2)); [|cbn; lra|].
  - destruct (proper_int (fun x => x + 1/2) 0 1) as (_ & ->); [lra|apply (ex_RInt_continuous (V := R_CompleteNormedModule)); intros; apply (continuous_plus (V := R_NormedModule)); [apply continuous_id|apply continuous_const]|].
    apply is_RInt_unique. replace 1 with (minus (1*1/2+1/2*1) (0*0/2+1/2*0)) at 2 by (unfold minus, plus, opp; cbn; field).
    apply (is_RInt_derive (fun x => x * x / 2 + 1/2 * x) (fun x => x + 1/2)); intros; [auto_derive; auto; field|apply (continuous_plus (V := R_NormedModule)); [apply continuous_id|apply continuous_const]].
  - intros x X. unfold density, exM, uni. cbn [m_dens fold_right f_val nd_vars map]. unfold nd_point, post, inside, in_rng, upd. cbn [nd_a nd_b nd_abs nd_f Nat.eqb]. rewrite !E.
    unfold RbarIn, Rbar_lt in X. rewrite !(proj2 (rle_true _ _)) by lra. cbn. ring.
Qed.
