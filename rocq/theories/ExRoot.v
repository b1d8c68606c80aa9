(** Concrete instances for the theorems in PropRoot.v and PropWide.v. *)
From Coq Require Import Reals Lra Lia List Bool Sorted.
From Coquelicot Require Import Coquelicot.
From Verif Require Import Base Root Wide WideSpec PropRoot PropWide.
Import List ListNotations.
Open Scope R_scope.

Lemma sq2_cont x : continuity_pt (fun x => x * x - 2) x.
Proof. reg. Qed.
(** the square root of two *)
Example ex_bisect : exists x r, bisect (1/1000) (1/10) 20 (fun x => x * x - 2) 0 2 = Ok x /\ r * r - 2 = 0 /\ Rabs (x - r) <= 1/1000.
Proof.
  destruct (bisect_root (fun x => x * x - 2) 0 2 (1/1000) (1/10) 20 sq2_cont ltac:(lra) ltac:(lia)) as (x & r & E & Z & _ & W).
  exists x, r. split; auto. split; auto. eapply Rle_trans; [exact W|]. apply Rmax_lub; [apply Rmin_l|]. rewrite Rabs_pos_eq; simpl; lra.
Qed.
Example ex_bisect_raises : bisect (1/1000) (1/10) 20 (fun x => x * x + 1) 0 2 = Err ERuntime.
Proof. apply bisect_raises. lra. Qed.
(** exp x = 1/2 found from b = 0 *)
Example ex_minf : exists N, forall fuel, (N <= fuel)%nat -> exists n0, forall n, (n0 <= n)%nat ->
    exists x r, search_inv (bisect (1/1000) (1/10) n) exp (1/2) (findinv_minf exp fuel 0 (1/2)) = Some (Ok x) /\ exp r = 1/2 /\ Rabs (x - r) <= 1/1000.
Proof.
  apply findinv_minf_root; try lra.
  - intros x. apply derivable_continuous_pt. apply derivable_pt_exp.
  - rewrite exp_0. lra.
  - exists (ln (1/2)). intros x Hx. left. rewrite <- (exp_ln (1/2)) by lra. apply exp_increasing. auto.
Qed.
Example ex_pinf : exists N, forall fuel, (N <= fuel)%nat -> exists n0, forall n, (n0 <= n)%nat ->
    exists x r, search_inv (bisect (1/1000) (1/10) n) exp 100 (findinv_pinf exp true fuel 0 100) = Some (Ok x) /\ exp r = 100 /\ Rabs (x - r) <= 1/1000.
Proof.
  apply findinv_pinf_root; try lra.
  - intros x. apply derivable_continuous_pt. apply derivable_pt_exp.
  - rewrite exp_0. lra.
  - exists (ln 100). intros x Hx. left. rewrite <- (exp_ln 100) at 1 by lra. apply exp_increasing. auto.
Qed.
(** [1,1000] with wide_cond = 10 *)
Example ex_wide : tiles 1 1000 (wide_intervals 10 1 1000) /\ integrate_wide (RInt (fun x => / x)) 10 1 1000 = RInt (fun x => / x) 1 1000 /\
  forall u v, In (u, v) (wide_intervals 10 1 1000) -> v / u <= 10.
Proof.
  split; [apply wide_tiles; lra|]. split.
  - apply wide_integral; try lra. apply (ex_RInt_continuous (V := R_CompleteNormedModule)). intros z Hz. rewrite Rmin_left in Hz by lra.
    apply (ex_derive_continuous (K := R_AbsRing) (V := R_NormedModule)). auto_derive. lra.
  - intros u v. apply (wide_ratio 10 1 1000 u v ltac:(lra)). lra.
Qed.
Example ex_wide_neg : tiles (-1000) (-1) (wide_intervals 10 (-1000) (-1)).
Proof. apply wide_tiles; lra. Qed.
Example ex_breaks : forall x, In x [(0, (true, false, false, false)); (1/10, (false, true, false, false)); (1, (false, false, false, true))] ->
  exists y, In y (unique_breakpoints (1/10) [(0, (true, false, false, false)); (1/10, (false, true, false, false)); (1, (false, false, false, true))]) /\
   fst y <= fst x <= fst y + 1/10.
Proof.
  destruct (unique_breakpoints_exact (1/10) [(0, (true, false, false, false)); (1/10, (false, true, false, false)); (1, (false, false, false, true))]) as (_ & _ & H & _); try lra.
  - repeat constructor; simpl; lra.
  - intros x Hx. destruct (H x Hx) as (y & H1 & H2 & _). eauto.
Qed.
