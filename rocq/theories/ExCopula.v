(** Concrete instances for PropCopula.v. *)
From Coq Require Import Reals Lra List Bool Arith.
From Coquelicot Require Import Coquelicot.
From Verif Require Import Base Copula CopulaSpec CopulaFacts3 PropCopula.
Import List ListNotations.
Open Scope R_scope.

Lemma half01 : in01 (/ 2). Proof. unfold in01. lra. Qed.
(** three-dimensional copulas at (1/2, 1, 1), and their bounds at (1/2, 1/2, 1) *)
Lemma ex_gumbel : gumbel 2 3 [/ 2; 1; 1] = Ok (Some (Finite (/ 2))).
Proof.
  destruct (gumbel_copula 2 3) as (C & V & _ & (_ & M & _) & _); [lra|].
  rewrite V by (auto; repeat constructor; unfold in01; lra). do 3 f_equal. apply (M 0%nat 2%nat (/ 2)); auto using half01.
Qed.
Lemma ex_clayton : exists c, clayton 3 3 [/ 2; 3 / 4; 1] = Ok (Some (Finite c)) /\ 1 / 4 <= c <= / 2.
Proof.
  destruct (clayton_copula 3 3) as (C & V & _ & (_ & _ & _ & B & _) & _); [lra|].
  exists (C [/ 2; 3 / 4; 1]). split; [apply V; auto; repeat constructor; unfold in01; lra|].
  destruct (B [/ 2; 3 / 4; 1]) as (_ & L & U); auto; [repeat constructor; unfold in01; lra|].
  split; [|apply U; simpl; auto]. unfold sumR in L. simpl in L. lra.
Qed.
Lemma ex_frank : exists c, frank (-2) 2 [/ 2; / 2] = Ok (Some (Finite c)) /\ 0 <= c <= / 2 /\ frank (-2) 2 [/ 2] = Err EAssert.
Proof.
  destruct (frank_copula (-2) 2) as (C & V & W & _ & H & _); [lra|].
  exists (C [/ 2; / 2]). split; [apply V; auto; repeat constructor; unfold in01; lra|]. split; [|apply W; discriminate].
  destruct (frechet_bounds _ (/ 2) (/ 2) H half01 half01) as (B & _). rewrite Rmax_right, Rmin_left in B by lra. lra.
Qed.
Lemma ex_gumbel_formula : gumbel 1 2 [/ 2; / 2] = Ok (Some (Finite (/ 4))).
Proof.
  destruct (gumbel_copula 1 2) as (C & V & _ & _ & _ & Fm); [lra|].
  rewrite V by (auto; repeat constructor; unfold in01; lra). rewrite Fm by (try discriminate; repeat constructor; lra).
  do 3 f_equal. unfold gumbel_formula. simpl. assert (0 < - ln (/ 2)) by (rewrite ln_Rinv by lra; pose proof ln_lt_2; lra).
  rewrite Rpower_1, Rinv_1, Rpower_1 by lra. replace (- (- ln (/ 2) + (- ln (/ 2) + 0))) with (ln (/ 2) + ln (/ 2)) by ring.
  rewrite exp_plus, exp_ln by lra. lra.
Qed.
Lemma ex_pi : exists r, pi_ccdf [[/ 2; / 3]; [/ 4; / 5]] = Ok r /\ nth 1 r 0 = / 15.
Proof.
  destruct pi_copula as (_ & P). destruct (P [[/ 2; / 3]; [/ 4; / 5]] 2%nat) as (r & E & _ & V); [discriminate|repeat constructor|].
  exists r. split; auto. rewrite V by auto. unfold prodR. simpl. lra.
Qed.
Lemma ex_m : exists r, m_ccdf [[/ 2; / 3]; [/ 4; / 5]] = Ok r /\ nth 1 r 0 = / 5.
Proof.
  destruct m_copula as (_ & P). destruct (P [[/ 2; / 3]; [/ 4; / 5]] 2%nat) as (r & E & _ & V); [discriminate|discriminate|repeat constructor|].
  exists r. split; auto. rewrite V by auto. unfold minR. simpl. rewrite (Rmin_left (/ 5)), Rmin_right by lra. lra.
Qed.
Lemma ex_w : exists r, w_ccdf [[3/4]; [3/4]] = Ok r /\ nth 0 r 0 = / 2.
Proof.
  destruct w_copula as (_ & P). destruct (P [3/4] [3/4]) as (r & E & _ & V); auto.
  exists r. split; auto. rewrite V by auto. simpl. rewrite Rmax_left; lra.
Qed.
Lemma ex_inverse : obind (clayton_fi 2 (/ 2)) (clayton_fi_inv 2) = Some (Finite (/ 2)).
Proof. apply (generators_inverse 2 (/ 2) 0); lra. Qed.
Lemma ex_eliminate : archim_eliminate (gumbel_fi 2) (gumbel_fi_inv 2) [true; false; true] [/ 2; / 3] = gumbel 2 3 [/ 2; 1; / 3].
Proof.
  apply (copula_eliminate 2 [true; false; true] [/ 2; 1; / 3]); auto; [lra|repeat constructor; unfold in01; lra|].
  intros k x [E|[E|[E|[]]]] K; injection E as <- <-; auto; discriminate.
Qed.
(** the independence copula as an Archimedean one: generator - log, inverse exp(-s) *)
Lemma ex_density : exists c, archim_cpdf (fun t => - ln t) (fun t => - / t) (fun s => exp (- s)) 2 [/ 2; / 3] = Ok c /\ c = 1.
Proof.
  destruct (archim_density (fun t => - ln t) (fun t => - / t) (fun s => exp (- s)) (fun s => - exp (- s)) (fun s => exp (- s)) (/ 2) (/ 3)) as (c & E & _); try lra.
  - intros t T. assert (ln t < 0) by (rewrite <- ln_1; apply ln_increasing; lra). split; [lra|]. auto_derive; lra.
  - intros s S. split; auto_derive; auto; ring.
  - exists c. split; auto. unfold archim_cpdf in E. simpl in E. injection E as <-.
    replace (- (0 + - ln (/ 2) + - ln (/ 3))) with (ln (/ 2) + ln (/ 3)) by ring. rewrite exp_plus, !exp_ln by lra. field.
Qed.
(** a Frank copula with uniform marginals on [0,2] *)
Lemma ex_joint : exists H1 : R -> R,
  is_derive H1 1 (joint_pdf (f2_cpdf 1) [(fun x => x / 2, fun _ => / 2); (fun x => x / 2, fun _ => / 2)] [1; 1]).
Proof.
  destruct (joint_density (fun u v => f2_ccdf 1 [u; v]) (f2_cpdf 1) (fun x => x / 2) (fun _ => / 2) (fun x => x / 2) (fun _ => / 2) 1 1) as (H1 & _ & D); try lra.
  - intros u v U V. apply frank2d_density; auto; lra.
  - auto_derive; auto. lra.
  - auto_derive; auto. lra.
  - exists H1. exact D.
Qed.
Lemma ex_margin : exists C, copula_bounds 2 C /\
  joint_cdf C [(fun x => x / 2, fun _ => / 2); (fun x => x, fun _ => 1)] [1; 1] = / 2.
Proof.
  destruct (clayton_copula 1 2) as (C & _ & _ & B & _); [lra|]. exists C. split; auto.
  transitivity (1 / 2); [|lra].
  apply (joint_margins 2 C [] [(fun x => x, fun _ => 1)] (fun x => x / 2, fun _ => / 2) [] [1] 1); auto; [simpl; unfold in01; lra|].
  intros k z [[]|[E|[]]]. injection E as <- <-. reflexivity.
Qed.
