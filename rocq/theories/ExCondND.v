(** Concrete instances for conditional densities. *)
From Coq Require Import Reals Lra Lia List Bool Arith Sorted Permutation.
From Coquelicot Require Import Coquelicot.
From Verif Require Import Base ND NDSpec NDFacts NDFacts2 NDFacts3 ExND CondND CondNDSpec CondNDFacts CondNDFacts2 CondNDFacts3 CondNDFacts4 CondNDMain.
Import List ListNotations.
Open Scope R_scope.

(** the exact integral and the trapezium rule integrate linear functions exactly *)
Example ex_linear_trap : linear_exact trap.
Proof. intros f p q H. unfold trap. rewrite !H by lra. field. Qed.
Example ex_linear_exact : linear_exact exact_int.
Proof.
  intros f p q H. assert (I : is_RInt f 0 1 (p + q / 2)).
  { apply (is_RInt_ext (fun x => p + q * x)); [intros x X; rewrite Rmin_left, Rmax_right in X by lra; symmetry; apply H; lra|].
    replace (p + q / 2) with (minus (p * 1 + q * 1 ^ 2 / 2) (p * 0 + q * 0 ^ 2 / 2)) by (unfold minus, plus, opp; simpl; field).
    apply (is_RInt_derive (fun x => p * x + q * x ^ 2 / 2)).
    - intros x _. auto_derive; auto. match goal with |- ?l = ?r => change (@eq R l r) end. field.
    - intros x _. apply (ex_derive_continuous (fun x => p + q * x)). auto_derive. auto. }
  rewrite exact_yes by (eexists; eauto). apply is_RInt_unique. auto.
Qed.
(** the density x + z of (x, y, z) given z: the joint density meets the hypotheses, and at z = 1/2 the integral is one *)
Example ex_cd : wf_nd z0 z1 exFree /\ sublist [2%nat] (nd_vars exFree) /\ rest_of (nd_vars exFree) [2%nat] [0; 1]%nat /\
  exists C, cd_make trap z0 z1 exFree [2%nat] None = Ok C /\ cd_point z0 z1 C [1 / 4; 1 / 2; 1 / 2] = Ok (3 / 4).
Proof.
  pose proof (wf_ex (fun X => nth 0 X 0 + nth 2 X 0)) as W. fold exFree in W. split; auto. split; [cbn; auto|].
  assert (RR : rest_of (nd_vars exFree) [2%nat] [0; 1]%nat) by (split; [repeat constructor; simpl; intuition discriminate|intros v; simpl; intuition (try discriminate; try congruence)]). split; [exact RR|].
  destruct (cond_density_main trap z0 z1 exFree [2%nat] (proj1 ex_trap) W ltac:(cbn; auto)) as (C & l & M & V & L & FU & H). exists C. split; auto.
  set (env := fun v : nat => match v with O => 1 / 4 | _ => 1 / 2 end). specialize (H env). cbv zeta in H. rewrite <- (FU (proj2 ex_trap) _ RR) in H.
  assert (JF : forall x y z e, 0 <= x <= 1 -> 0 <= y <= 1 -> 0 <= z <= 1 -> e O = x -> e 1%nat = y -> e 2%nat = z -> joint z0 z1 exFree e = x + z) by (intros x y z e A B D E1 E2 E3; unfold exFree; rewrite (joint_in _ x y z) by (auto; lra); reflexivity).
  assert (Z : integ_all trap z0 z1 [0; 1]%nat (joint z0 z1 exFree) env = 1).
  { cbn [integ_all]. unfold integ1, trap, z0, z1. fold z0 z1. rewrite (JF 0 0 (1 / 2)), (JF 1 0 (1 / 2)), (JF 0 1 (1 / 2)), (JF 1 1 (1 / 2)) by (auto; try lra; unfold upd; cbn; auto). field. }
  rewrite Z in H. destruct H as (H & _). change [1 / 4; 1 / 2; 1 / 2] with (map env (nd_vars exFree)). rewrite H; [f_equal; rewrite (JF (1 / 4) (1 / 2) (1 / 2)) by (auto; lra); lra| |lra]. intros v _. unfold z0, z1, env. destruct v; lra.
Qed.
(** eliminating x from the density of (x, y) given z leaves a conditional density of y given z *)
Example ex_cd_elim : exists C C', cd_make trap z0 z1 exFree [2%nat] None = Ok C /\ cd_elim trap z0 z1 C [0%nat] = Ok (inr C') /\ cd_elim trap z0 z1 C [0; 1]%nat = Ok (inl FOne) /\ cd_elim trap z0 z1 C [1; 2]%nat = Err ERuntime.
Proof.
  destruct ex_cd as (W & S & RR & C & M & _). exists C.
  destruct (cond_eliminate_main trap z0 z1 exFree [2%nat] C [0%nat] (proj1 ex_trap) W S M ltac:(cbn; auto)) as (_ & _ & H). destruct H as (C' & E & _); [intros v [<-|[]]; simpl; intuition discriminate|exists 1%nat; simpl; intuition discriminate|apply ex_trap|].
  exists C'. splits; auto.
  - apply (cond_eliminate_main trap z0 z1 exFree [2%nat] C [0; 1]%nat (proj1 ex_trap) W S M ltac:(cbn; auto)). exact RR.
  - apply (cond_eliminate_main trap z0 z1 exFree [2%nat] C [1; 2]%nat (proj1 ex_trap) W S M ltac:(cbn; right; left; auto)). exists 2%nat. simpl. auto.
Qed.
(** fixing z = 1 in the joint density, and in the conditional density given z *)
Example ex_cd_fix : exists C G, cd_make trap z0 z1 exFree [2%nat] None = Ok C /\ cd_condition trap z0 z1 C [2%nat] [1] = Ok (inl (FDens G)).
Proof.
  destruct ex_cd as (W & S & RR & C & M & _). exists C. destruct (cond_fix_main trap z0 z1 exFree [2%nat] C [2%nat] [1] (proj1 ex_trap) W S M) as (G & E & _).
  - repeat constructor; simpl; tauto.
  - tauto.
  - auto.
  - intros v x [E|[]]. injection E as <- <-. unfold z0, z1. lra.
  - exists O. simpl. intuition discriminate.
  - apply ex_trap.
  - exists (fun _ => 0), [0; 1]%nat. split; [exact RR|].
    assert (JF : forall x y z e, 0 <= x <= 1 -> 0 <= y <= 1 -> 0 <= z <= 1 -> e O = x -> e 1%nat = y -> e 2%nat = z -> joint z0 z1 exFree e = x + z) by (intros x y z e A B D E1 E2 E3; unfold exFree; rewrite (joint_in _ x y z) by (auto; lra); reflexivity).
    cbn [integ_all set_all]. unfold integ1, trap, z0, z1. fold z0 z1. rewrite (JF 0 0 1), (JF 1 0 1), (JF 0 1 1), (JF 1 1 1) by (auto; try lra; unfold upd; cbn; auto). lra.
  - exists G. auto.
Qed.
