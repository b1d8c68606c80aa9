(** Concrete instances for the interpolation theorems. *)
From Coq Require Import Reals Lra Lia List Bool Arith Sorted.
From Verif Require Import Base Conv Interp InterpSpec PolyFacts InterpFacts InterpMain.
Import List ListNotations.
Open Scope R_scope.

Definition exX : list R := [0; 1; 3].
Definition exY : list R := [1; 2; 10].
Example ex_nodup : NoDup exX /\ exX <> [] /\ length exY = length exX.
Proof. splits; [|discriminate|reflexivity]. unfold exX. repeat constructor; simpl; intuition lra. Qed.
(** the polynomial through (0,1), (1,2), (3,10) is 1 + x^2 *)
Example ex_poly : interpolates exX exY (fun x => 1 + x * x).
Proof.
  split; [exists [1; 0; 1]; split; [reflexivity|intros; simpl; ring]|].
  intros i I. simpl in I. destruct i as [|[|[|i]]]; try lia; simpl; ring.
Qed.
Example ex_value : bary_at exX exY (bary_weights exX) 2 = Ok 5 /\ lagrange_at exX exY 2 = 5.
Proof.
  destruct ex_nodup as (A & B & C). destruct (interp_exact_main exX exY A B C) as (P & _ & U & V).
  assert (E : P 2 = 5) by (rewrite <- (U _ ex_poly 2); ring). destruct (V 2) as (V1 & V2 & _). rewrite V1, V2, E. auto.
Qed.
(** three nodes on [0,2] and the refinement to five *)
Example ex_three : cheb_nodes 3 0 2 = Ok [0; 1; 2].
Proof.
  unfold cheb_nodes, upd_last, cheb_raw. simpl. do 2 f_equal. f_equal.
  replace (1 * PI / (1 + 1)) with (PI / 2) by field. rewrite cos_PI2. lra.
Qed.
Example ex_adaptive_hyp : (3 <= 100)%nat /\ 0 < 2. Proof. split; [lia|lra]. Qed.
(** a quadratic is reproduced exactly by adaptive interpolation, whatever the tolerances *)
Example ex_quadratic p : exists n X Y e, adaptive (fam_cheb 0 2) (fun x => 1 + x * x) p 100 3 = Ok (n, X, Y, e) /\
  forall x, adaptive_fun (fam_cheb 0 2) (n, X, Y, e) x = Ok (1 + x * x).
Proof.
  destruct (adaptive_exact_main 0 2 (fun x => 1 + x * x) p 100 ltac:(lra) _ _ _ (or_introl (conj eq_refl (conj eq_refl eq_refl))) ltac:(lia)) as (n & P & e & H1 & H2 & _ & _ & H5 & H6 & _).
  do 4 eexists. split; [exact H1|]. intros x. rewrite H5. f_equal. apply H6. rewrite map_length, seq_length.
  exists ([1; 0; 1] ++ repeat 0 (n - 3)). split; [rewrite app_length, repeat_length; simpl; lia|].
  intros y. simpl. replace (poly (repeat 0 (n - 3)) y) with 0; [ring|]. clear. induction (n - 3)%nat; simpl; [auto|]. rewrite <- IHn0. ring.
Qed.
