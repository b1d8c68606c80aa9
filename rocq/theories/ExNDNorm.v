(** Concrete instances: correlated normal vectors with two and three coordinates. *)
From Coq Require Import Reals List Arith Bool Lra Lia.
From Coquelicot Require Import Coquelicot.
From Verif Require Import Base ND NDSpec QuadFacts RMx Std NDNorm NDNormSpec NDNormMain.
Import List ListNotations.
Open Scope R_scope.

Definition mu3 : list R := [1; 2; 3].
Definition S3 : mat := [[2; 1; 0]; [1; 2; 1]; [0; 1; 4]].
Definition mu2 : list R := [1; 2].
Definition S2 : mat := [[2; 1]; [1; 3]].
Lemma sq_pos x : x <> 0 -> 0 < x * x.
Proof. intros. apply (Rsqr_pos_lt x). auto. Qed.
Lemma sq_ge x : 0 <= x * x.
Proof. apply (Rle_0_sqr x). Qed.
Lemma ex_params3 : normal_params [5; 7; 9]%nat mu3 S3.
Proof.
  unfold normal_params. splits.
  - repeat constructor; simpl; lia.
  - reflexivity.
  - reflexivity.
  - intros row [<-|[<-|[<-|[]]]]; reflexivity.
  - split.
    + intros i j Hi Hj. simpl in Hi, Hj. destruct i as [|[|[|]]]; try lia; destruct j as [|[|[|]]]; try lia; reflexivity.
    + intros v (i & Hi & N). unfold quad. simpl length. rewrite !bsum_S, !bsum_0. unfold entry; simpl.
      match goal with |- 0 < ?e => replace e with (v O * v O + (v O + v 1%nat) * (v O + v 1%nat) + (v 1%nat + v 2%nat) * (v 1%nat + v 2%nat) + 3 * (v 2%nat * v 2%nat)) by ring end.
      pose proof (sq_ge (v O)). pose proof (sq_ge (v O + v 1%nat)). pose proof (sq_ge (v 1%nat + v 2%nat)). pose proof (sq_ge (v 2%nat)).
      destruct (Req_dec (v O) 0) as [Z|Z]; [|apply sq_pos in Z; lra]. destruct (Req_dec (v 2%nat) 0) as [Z2|Z2]; [|apply sq_pos in Z2; lra].
      simpl in Hi. destruct i as [|[|[|]]]; try lia; try congruence. apply sq_pos in N. rewrite Z in *. rewrite Rplus_0_l in *. lra.
Qed.
Lemma ex_params2 : normal_params [5; 7]%nat mu2 S2.
Proof.
  unfold normal_params. splits.
  - repeat constructor; simpl; lia.
  - reflexivity.
  - reflexivity.
  - intros row [<-|[<-|[]]]; reflexivity.
  - split.
    + intros i j Hi Hj. simpl in Hi, Hj. destruct i as [|[|]]; try lia; destruct j as [|[|]]; try lia; reflexivity.
    + intros v (i & Hi & N). unfold quad. simpl length. rewrite !bsum_S, !bsum_0. unfold entry; simpl.
      match goal with |- 0 < ?e => replace e with (v O * v O + (v O + v 1%nat) * (v O + v 1%nat) + 2 * (v 1%nat * v 1%nat)) by ring end.
      pose proof (sq_ge (v O)). pose proof (sq_ge (v O + v 1%nat)). pose proof (sq_ge (v 1%nat)).
      destruct (Req_dec (v O) 0) as [Z|Z]; [|apply sq_pos in Z; lra].
      simpl in Hi. destruct i as [|[|]]; try lia; try congruence. apply sq_pos in N. lra.
Qed.
(** three coordinates: the marginal of the first and third, the marginal of the second, no conditioning *)
Lemma ex_three : exists g r h, normal_nd [5; 7; 9]%nat mu3 S3 = Ok g /\
  ndn_elim g [7]%nat = Ok r /\ vars_of r = [5; 9]%nat /\ integrated [7]%nat (at_env (NDist g)) (at_env r) /\
  ndn_elim g [9; 5]%nat = Ok (NDist h) /\ (forall env, at_env (NDist h) env = normal_pdf 2 (sqrt 2) (env 7%nat)) /\
  (exists e, ndn_cond g [7]%nat [0] = Err e) /\ (exists e, ndn_cond g [5; 9]%nat [0; 0] = Err e).
Proof.
  destruct (nd_textbook_main _ _ _ ex_params3) as (g & E & _). exists g.
  destruct (nd_marginal_main _ _ _ _ [7]%nat ex_params3 E) as (r & R1' & R2' & R3').
  { repeat constructor; simpl; lia. } { intros v [<-|[]]; simpl; auto. } exists r.
  destruct (nd_marginal_one_main _ _ _ _ 1%nat [9; 5]%nat ex_params3 E) as (h & H1 & _ & H2).
  { simpl; lia. } { repeat constructor; simpl; lia. } { intros v; simpl; lia. } exists h.
  splits; auto.
  - apply (nd_cond_more_refuted_main _ _ _ _ [7]%nat [0] ex_params3 E). simpl; lia. exists 5%nat. simpl; lia.
  - apply (nd_cond_more_refuted_main _ _ _ _ [5; 9]%nat [0; 0] ex_params3 E). simpl; lia. exists 7%nat. simpl; lia.
Qed.
(** two coordinates: the second given the first *)
Lemma ex_two : exists g h, normal_nd [5; 7]%nat mu2 S2 = Ok g /\ ndn_cond g [5]%nat [4] = Ok (NDist h) /\ g_vars h = [7]%nat /\
  integrated [7]%nat (at_env (NDist h)) (fun _ => 1) /\
  (exists x, default_pdf mu2 S2 0 x <> normal_pdf 1 (sqrt 2) x) /\
  0 < ndn_pdf g [7; 2] /\ nd_point (ndn_fun g) [7; 2] = 0.
Proof.
  destruct (nd_textbook_main _ _ _ ex_params2) as (g & E & _). exists g.
  destruct (nd_cond_two_main _ _ _ _ 5%nat 7%nat 4 ex_params2 E) as (h & H1 & H2 & H3 & _). { reflexivity. } { simpl; auto. } { simpl; auto. } { lia. } exists h.
  destruct (nd_box_refuted_main _ _ _ _ [7; 2] ex_params2 E) as (P1 & _ & P2); auto. splits; auto.
  - pose proof (nd_default_refuted_main _ _ _ 0 ex_params2 ltac:(simpl; lia)) as D. apply Classical_Pred_Type.not_all_ex_not. intros Z.
    apply D in Z. unfold entry in Z; simpl in Z. lra.
  - apply P2. exists O. simpl. split; [lia|]. rewrite Rabs_right; lra.
Qed.
