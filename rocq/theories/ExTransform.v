(** Concrete instances: the density exD (tails, atom at 0, constant piece, singular piece) and parts of it
    meet the hypotheses of the theorems in PropTransform.v. *)
From Coq Require Import Reals Lra List Bool Sorted.
From Coquelicot Require Import Coquelicot.
From Verif Require Import Base Seg Piecewise PiecewiseSpec PiecewiseFacts4 Integral IntegralFacts SegInt SegIntSpec SegIntFacts
  Transform TransformSpec TransformMain PropTransform ExSegInt.
Import List ListNotations.
Open Scope R_scope.

Lemma exD_has_int : Forall has_int exD.
Proof.
  unfold exD. repeat apply Forall_cons; try apply Forall_nil; intros D; try discriminate.
  - apply exD_minf.
  - apply exD_lin.
  - apply (integrable_const 1 2); lra.
  - apply exD_pole.
  - apply exD_pinf.
Qed.
Lemma exD_cont : Forall cont_inside exD.
Proof.
  unfold exD. repeat apply Forall_cons; try apply Forall_nil; intros x D (H1 & H2); try discriminate; simpl in *;
    try (apply continuous_const); apply dc; cbn [sf].
  - change (ex_derive (fun x => exp x / 4) x). auto_derive; auto.
  - change (ex_derive (fun x => x / 4) x). auto_derive; auto.
  - change (ex_derive (fun x => / (16 * sqrt (x - 2))) x). auto_derive. repeat split; try lra. apply Rgt_not_eq. apply Rmult_lt_0_compat; [lra|]. apply sqrt_lt_R0; lra.
  - change (ex_derive (fun x => exp (3 - x) / 4) x). auto_derive; auto.
Qed.
Lemma exD_sep eps : dirac_sep eps exD.
Proof. unfold exD, dirac_sep. repeat constructor. Qed.

(** -2 X + 1 *)
Lemma ex_affine : exists q, copyShiftedAndScaled (1/1000) exD 1 (-2) = Ok q /\
  pprob (segs q) (-5) (-1) = pprob exD 1 3 /\ pprob (segs q) m_infty 1 = pprob exD 0 p_infty.
Proof.
  destruct (shift_scale_list (1/1000) 1 (-2) exD) as (q & E & _ & _ & _ & P); auto using exD_ordered, exD_wf, exD_has_int; try lra.
  { unfold image_sep, exD. repeat constructor. }
  exists q. split; auto.
  assert (R : rlt 0 (-2) = false) by (destruct (rltP 0 (-2)); auto; lra). rewrite R in P. unfold lo_end, hi_end in P. split.
  - rewrite <- P by (simpl; lra). simpl. do 2 f_equal; lra.
  - rewrite <- P by (simpl; auto). simpl. destruct (Rlt_dec 0 (-2)); [lra|]. do 2 f_equal; lra.
Qed.

(** X^2 and |X| *)
Lemma ex_square : exists q, copySquareComposition (1/1000) exD = Ok q /\
  pprob (segs q) 1 9 = pprob exD 1 3 + pprob exD (-3) (-1) /\ pprob (segs q) (-1) 4 = pprob exD (-2) 2.
Proof.
  destruct (square_list (1/1000) exD) as (q & E & _ & _ & (_ & L1 & L2)); auto using exD_ordered, exD_wf, exD_has_int, exD_cont, exD_sep; try lra.
  { intros a m b k Ha Hb. simpl in Ha, Hb. left.
    repeat destruct Ha as [Ha|Ha]; try discriminate; try tauto. repeat destruct Hb as [Hb|Hb]; try discriminate; try tauto.
    injection Ha as <- <-. injection Hb as <- <-. auto. }
  exists q. split; auto. split.
  - specialize (L1 1 3). cbn [ext_even Rbar_opp] in L1. replace (1 * 1) with 1 in L1 by ring. replace (3 * 3) with 9 in L1 by ring. apply L1; simpl; lra.
  - specialize (L2 (-1) 2). cbn [ext_even Rbar_opp] in L2. replace (2 * 2) with 4 in L2 by ring. apply L2; simpl; lra.
Qed.
Lemma ex_abs : exists q, copyAbsComposition (1/1000) exD = Ok q /\
  pprob (segs q) 1 3 = pprob exD 1 3 + pprob exD (-3) (-1).
Proof.
  destruct (abs_list (1/1000) exD) as (q & E & _ & _ & (_ & L1 & L2)); auto using exD_ordered, exD_wf, exD_has_int, exD_cont, exD_sep; try lra.
  { intros a m b k Ha Hb. simpl in Ha, Hb. left.
    repeat destruct Ha as [Ha|Ha]; try discriminate; try tauto. repeat destruct Hb as [Hb|Hb]; try discriminate; try tauto.
    injection Ha as <- <-. injection Hb as <- <-. auto. }
  exists q. split; auto. specialize (L1 1 3). cbn [ext_even Rbar_opp] in L1. rewrite !Rabs_right in L1 by lra. apply L1; simpl; lra.
Qed.

(** logarithm and reciprocal of the part to the right of zero *)
Definition exP := skipn 2 exD.
Lemma Forall_skip {A} (P : A -> Prop) n l : Forall P l -> Forall P (skipn n l).
Proof. revert l. induction n; intros l H; simpl; auto. destruct H; auto. Qed.
Lemma ex_log : exists q, copyLogComposition (1/1000) exP ln_ext exp exp = Ok q /\ pprob (segs q) m_infty (ln 2) = pprob exP 0 2.
Proof.
  destruct (log_list (1/1000) exP) as (q & E & _ & _ & _ & P).
  - pose proof exD_ordered as O. unfold exD in O. do 2 apply StronglySorted_inv, proj1 in O. exact O.
  - apply (Forall_skip _ 2), exD_wf.
  - unfold exP, exD. simpl. repeat constructor; simpl; lra.
  - apply (Forall_skip _ 2), exD_has_int.
  - apply (Forall_skip _ 2), exD_cont.
  - intros a m H. simpl in H. repeat destruct H as [H|H]; try discriminate; tauto.
  - unfold exP, exD, dirac_sep. simpl. repeat constructor.
  - unfold exP, exD, image_sep. simpl. repeat constructor.
  - exists q. split; auto. specialize (P 0 2). simpl in P. destruct (Rlt_dec 0 0); [lra|]. destruct (Rlt_dec 0 2); [|lra]. apply P; lra.
Qed.
Lemma ex_inverse : exists q, copyProbInverse (1/1000) exP true = Ok q /\ pprob (segs q) 0 (1/2) = pprob exP 2 p_infty.
Proof.
  destruct (inverse_list (1/1000) true exP) as (q & E & _ & _ & _ & P & _).
  - pose proof exD_ordered as O. unfold exD in O. do 2 apply StronglySorted_inv, proj1 in O. exact O.
  - apply (Forall_skip _ 2), exD_wf.
  - apply (Forall_skip _ 2), exD_has_int.
  - apply (Forall_skip _ 2), exD_cont.
  - unfold exP, exD. simpl. repeat constructor.
  - exists q. split; auto. specialize (P 2 p_infty). simpl in P. destruct (reqP 2 0); [lra|]. apply P; auto; lra.
Qed.
(** the exponential of the whole density *)
Definition exp_ext (x : Rbar) : Rbar := match x with Finite x => Finite (exp x) | p_infty => p_infty | m_infty => Finite 0 end.
Lemma ex_exp : exists q, copyComposition (1/1000) exD exp_ext ln (fun y => / y) true = Ok q /\ pprob (segs q) 1 p_infty = pprob exD 0 p_infty.
Proof.
  destruct (composition_list (1/1000) true exp_ext ln (fun y => / y) true m_infty p_infty exD) as (q & E & _ & _ & _ & P);
    auto using exD_ordered, exD_wf, exD_has_int, exD_cont, exD_sep.
  - split; [|split].
    + intros [x| |] [y| |] _ L _; simpl in *; auto; try tauto; [apply exp_increasing; auto|apply exp_pos].
    + intros x _. exists (exp x). rewrite ln_exp. auto.
    + intros y (Y & _). simpl in *. rewrite exp_ln; auto. split; auto. split; simpl; auto.
  - unfold exD. repeat constructor; simpl; try lra.
  - intros y (Y & _). simpl in Y. split.
    + apply is_derive_ln; auto.
    + apply dc. auto_derive. lra.
  - unfold exD. repeat apply Forall_cons; try apply Forall_nil; unfold ends_ok_split; cbn [isDirac sa sb];
      try reflexivity;
      match goal with |- context [(blt ?a ?b && blt ?c ?d)%bool] => destruct (bltP a b); destruct (bltP c d); cbn [andb]; simpl in * end; try lra;
      unfold ends_ok; simpl; repeat split; intros; try discriminate; apply exp_pos.
  - unfold image_sep, exD. repeat constructor.
  - exists q. split; auto. specialize (P 0 p_infty). simpl in P. rewrite exp_0 in P. apply P; auto.
Qed.
