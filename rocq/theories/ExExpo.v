(** Concrete instances for the estimates of exponents. *)
From Coq Require Import Reals Lra List Bool Lia.
From Coquelicot Require Import Coquelicot.
From Verif Require Import Base Seg Piecewise Expo ExpoSpec ExpoFacts ExpoFacts2 ExpoMain.
Import List ListNotations.
Open Scope R_scope.

(** the density 1 / (2 sqrt x) at 0: the power -1/2 *)
Lemma ex_sqrt_near : power_near (beside (fun x => / (2 * sqrt x)) 0 true) (1 / 2) (- (1 / 2)).
Proof.
  intros h Hh. unfold beside. rewrite Rplus_0_l, Rpower_Ropp. replace (1 / 2) with (/ 2) at 2 by field. rewrite Rpower_sqrt by lra.
  pose proof (sqrt_lt_R0 h ltac:(lra)). rewrite Rabs_pos_eq; [field; lra|]. left. apply Rinv_0_lt_compat. lra.
Qed.
Example ex_degree : estimateDegreeOfPole (fun x => / (2 * sqrt x)) 0 true None 10 = Ok (- (1 / 2)).
Proof. apply (degree_power_main _ _ _ (1 / 2) (- (1 / 2)) 10 ltac:(lra) ex_sqrt_near). lia. Qed.
Example ex_test_pole : testPole (fun x => / (2 * sqrt x)) 0 true max_pole_exponent true = Ok true.
Proof.
  apply (test_pole_power_main _ _ _ (1 / 2) (- (1 / 2)) ltac:(lra) ex_sqrt_near).
  intros k [<-|[<-|[<-|[]]]]; rewrite Rabs_left1; lra.
Qed.
(** x + x^2 near 0 is x up to a relative error of a tenth *)
Example ex_stable : exists r, estimateDegreeOfPole (fun x => x + x * x) 0 true (Some (-1, -10)) 10 = Ok r /\
  Rabs (r - 1) <= (ln (1 + 1 / 10) - ln (1 - 1 / 10)) * INR 9 / ((-1 - -10) * ln 10).
Proof.
  apply (degree_stable_main _ 0 true 1 1 (1 / 10) (-1) (-10) 10); try lra; [lia|].
  intros h Hh. unfold beside. rewrite Rplus_0_l, Rpower_1 by lra. rewrite Rabs_pos_eq; nra.
Qed.
Example ex_degree_zero : testPole (fun x => if rlt x 1 then x else 0) 1 true max_pole_exponent true = Ok false.
Proof.
  apply (degree_zero_main (fun x => if rlt x 1 then x else 0) 1 true 10 true). intros h Hh. unfold beside. destruct (rltP (1 + h) 1); [lra|auto].
Qed.
Example ex_log_pole : forall deriv, testPole (fun x => - ln x) 0 true max_pole_exponent deriv = Ok true.
Proof.
  apply (log_pole_main (fun x => - ln x) true 1); try lra. intros h Hh. unfold beside. rewrite Rplus_0_l.
  assert (ln h < 0) by (rewrite <- ln_1; apply ln_increasing; lra). rewrite Rpower_1 by lra. apply Rabs_pos_eq. lra.
Qed.
(** the Pareto density 2 / x^3 on [1, oo), and its mirror image *)
Lemma ex_pareto_tail : power_tail (fun x => 2 / (x * x * x)) 1 2 (-3).
Proof.
  intros t Ht. replace (-3) with (- INR 3) by (simpl; ring). rewrite Rpower_Ropp, Rpower_pow by lra.
  rewrite Rabs_pos_eq; [simpl; field; lra|]. apply Rlt_le, Rdiv_lt_0_compat; [lra|]. repeat apply Rmult_lt_0_compat; lra.
Qed.
Example ex_tailexp : exists L, tailexp [PInfSeg 1 (fun x => 2 / (x * x * x))] = Ok (L, Some (Ok (Finite (-3)))) /\ L = None.
Proof.
  destruct (tailexp_power_main [PInfSeg 1 (fun x => 2 / (x * x * x))]) as (L & R0 & E & _ & H2 & H3 & _); [discriminate|].
  exists L. assert (K : R0 = Some (Ok (Finite (-3)))).
  { apply (H2 1 (fun x => 2 / (x * x * x)) 1 2 (-3) []); try lra; auto; [|apply ex_pareto_tail].
    rewrite <- (Rpower_O 10) by lra. apply rpow_le. lra. }
  rewrite E, K. split; auto. apply H3. intros; discriminate.
Qed.
Example ex_tailexp_left : exists R0, tailexp [MInfSeg (-1) (fun x => - 2 / (x * x * x))] = Ok (Some (Ok (Finite (-3))), R0).
Proof.
  destruct (tailexp_power_main [MInfSeg (-1) (fun x => - 2 / (x * x * x))]) as (L & R0 & E & H1 & _); [discriminate|].
  exists R0. rewrite E. f_equal. f_equal. apply (H1 (-1) (fun x => - 2 / (x * x * x)) 1 2 (-3)); try lra; auto.
  - rewrite <- (Rpower_O 10) by lra. apply rpow_le. lra.
  - intros t Ht. rewrite <- (ex_pareto_tail t Ht). f_equal. field. lra.
Qed.
Example ex_tail_power : estimateTailExponent (fun x => 2 / (x * x * x)) true (Some (1, 2)) 2 = Ok (Finite (-3)) /\
  estimateAtInfExponent (fun x => 2 / (x * x * x)) true (Some (1, 2)) 2 = Ok (- (-3)).
Proof.
  destruct (tail_power_main (fun x => 2 / (x * x * x)) true 1 2 2 1 2 (-3)) as (A & B); try lra; [lia| |apply ex_pareto_tail|split; [apply B; lra|exact A]].
  rewrite <- (Rpower_O 10) at 1 by lra. apply rpow_le. simpl. lra.
Qed.
(** a density with bounded support *)
Example ex_tail_bounded : exists e, estimateTailExponent (fun x => if rlt x 1 then 1 else 0) true (Some (1, 100)) 300 = Ok (Finite e) /\ e <= 0.
Proof.
  apply tail_never_inf_main; [lra|]. intros s t Hs Ht. rewrite Rpower_1 in Hs by lra. destruct (rltP t 1), (rltP s 1); try lra.
Qed.
Example ex_smooth : testPole (fun t => t ^ 3) 0 false max_pole_exponent true = Ok true.
Proof. apply smooth_pole_refuted_main. lia. Qed.
