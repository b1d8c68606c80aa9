(** Concrete instances of the theorems about conditional distributions of copulas. *)
From Coq Require Import Reals Lra Lia List Bool Arith.
From Coquelicot Require Import Coquelicot.
From Verif Require Import Base Integral IntegralFacts Copula CopulaSpec CopulaFacts CopulaMain Ccond CcondSpec CcondFacts CcondMain PropCcond.
Import List ListNotations.
Open Scope R_scope.

Definition exc_uni : cmarg := CM (fun x => x) (fun _ => 1) (Finite 0) (Finite 1).
Lemma exc_covers : covers01 exc_uni.
Proof. split; simpl; lra. Qed.

Example ex_ccond_formula : ccond (arch_C psi1 (fun t => / t - 1)) 3 [2; 0]%nat [1 / 2; 1; 1 / 4] =
  psi1 2 (/ (1 / 2) - 1 + (/ 1 - 1 + (/ (1 / 4) - 1 + 0))) * (- / (1 / 2) ^ 2 * (1 * (- / (1 / 4) ^ 2 * 1))).
Proof.
  pose proof (ccond_formula psi1 _ _ [2; 0]%nat [1 / 2; 1; 1 / 4] psi1_gen) as K. cbn [length] in K. rewrite K; [reflexivity| |].
  - intros x [<-|[<-|[<-|[]]]]; lra.
  - intros i I [<-|[<-|[]]]; simpl; lra.
Qed.
Example ex_ccond_cdf : 0 <= ccond (pair_fun Rmult) 2 [0%nat] [1 / 3; 1 / 4] <= 1.
Proof.
  apply (ccond_cdf Rmult (proj1 pi_copula_main)); [lra|unfold in01; lra|]. auto_derive. auto.
Qed.
Example ex_cond_law : exists V, (forall x, 1 / 4 <= x <= 3 / 4 -> cond_cdf_fun (pair_fun Rmult) [exc_uni; exc_uni] [0%nat] [x] [1 / 2] = Ok (V x)) /\
  integrable (fun x => 1 * V x) (1 / 4) (3 / 4) /\ Q (fun x => 1 * V x) (1 / 4) (3 / 4) = 3 / 4 * (1 / 2) - 1 / 4 * (1 / 2).
Proof.
  apply (cond_law Rmult exc_uni exc_uni (1 / 4) (3 / 4) (1 / 2)); [lra|apply exc_covers| |].
  - intros x X. cbn. splits; [lra..| |apply continuous_const]. apply (is_derive_id (K := R_AbsRing)).
  - intros u U. cbn. split; [auto_derive; auto|]. apply (continuous_ext (fun _ => 1 / 2)); [|apply continuous_const].
    intros t. symmetry. apply is_derive_unique. auto_derive; auto. ring.
Qed.
Example ex_cond_density : exists V w, locally (1 / 3) (fun t => cond_cdf_fun (arch_C psi1 (fun t => / t - 1)) [exc_uni; exc_uni] [0%nat] [1 / 2] [t] = Ok (V t)) /\
  cond_pdf_fun psi1 (fun t => / t - 1) (fun t => - / t ^ 2) [exc_uni; exc_uni] [0%nat] [1 / 2] [1 / 3] = Ok w /\ is_derive V (1 / 3) w.
Proof.
  apply cond_density; cbn; try lra; [apply psi1_gen|apply exc_covers|apply (is_derive_id (K := R_AbsRing))].
Qed.
Example ex_cond_density_second : exists V w, locally (1 / 3) (fun t => cond_cdf_fun (arch_C psi1 (fun t => / t - 1)) [exc_uni; exc_uni] [1%nat] [1 / 2] [t] = Ok (V t)) /\
  cond_pdf_fun psi1 (fun t => / t - 1) (fun t => - / t ^ 2) [exc_uni; exc_uni] [1%nat] [1 / 2] [1 / 3] = Ok w /\ is_derive V (1 / 3) w.
Proof.
  apply cond_density_second; cbn; try lra; [apply psi1_gen|apply exc_covers|apply (is_derive_id (K := R_AbsRing))].
Qed.
(** uniform variables on [2,3] *)
Definition exc_far : cmarg := CM (fun x => Rmin 1 (Rmax 0 (x - 2))) (fun x => if (rle 2 x && rle x 3)%bool then 1 else 0) (Finite 2) (Finite 3).
Example ex_range : cond_cdf_fun (pair_fun Rmult) [exc_far; exc_far] [0%nat] [5 / 2] [11 / 4] = Ok 0.
Proof.
  destruct (cond_cdf_fun (pair_fun Rmult) [exc_far; exc_far] [0%nat] [5 / 2] [11 / 4]) as [v|] eqn:E; [|discriminate E]. f_equal.
  apply (proj1 cond_cdf_range_refuted) in E; auto.
  - intros m x [<-|[<-|[]]]; cbn; unfold in01, Rmin, Rmax; destruct (Rle_dec 0 _), (Rle_dec 1 _); lra.
  - intros m [<-|[<-|[]]]; left; simpl; lra.
Qed.
Example ex_order : forall x0 x1 y, cond_cdf_fun (arch_C psi1 (fun t => / t - 1)) [exc_uni; exc_uni; exc_uni] [1; 0]%nat [x1; x0] [y] =
  cond_cdf_fun (arch_C psi1 (fun t => / t - 1)) [exc_uni; exc_uni; exc_uni] [0; 1]%nat [x1; x0] [y].
Proof. intros. apply (cond_var_order [1; 0]%nat [0; 1]%nat). simpl. tauto. Qed.
Example ex_condfun : cond_cdf_fun (pair_fun Rmult) [exc_uni; exc_uni] [1%nat] [1 / 4] [1 / 3] = Ok (condfun (pair_fun Rmult) [exc_uni; exc_uni] [1%nat] [1 / 3; 1 / 4]) /\
  condfun (pair_fun Rmult) [exc_uni; exc_uni] [1%nat] [2; 3] = 0.
Proof.
  split.
  - apply (condfun_agrees (pair_fun Rmult) [exc_uni; exc_uni] [1%nat] [1 / 4] [1 / 3] [1 / 3; 1 / 4] eq_refl).
    exists exc_uni, (1 / 3). splits; simpl; auto; lra.
  - apply (condfun_agrees (pair_fun Rmult) [exc_uni; exc_uni] [1%nat] [3] [2] [2; 3] eq_refl).
    intros m z [E|[E|[]]]; injection E as <- <-; right; simpl; lra.
Qed.
