(** Concrete instances: the density exD (tails, atom at 0, constant piece, singular piece) and others meet the
    hypotheses of the theorems in PropFunc.v. *)
From Coq Require Import Reals Lra List Bool Sorted Permutation.
From Coquelicot Require Import Coquelicot.
From Verif Require Import Base Seg Piecewise PiecewiseSpec PiecewiseFacts4 Integral IntegralFacts SegInt SegIntSpec SegIntFacts
  Transform TransformSpec TransformFacts TransformMain Func FuncSpec FuncFacts PropFunc ExSegInt ExTransform.
Import List ListNotations.
Open Scope R_scope.

Lemma exD_smooth eps : smooth eps exD.
Proof. unfold smooth. auto using exD_ordered, exD_wf, exD_has_int, exD_cont, exD_sep. Qed.
Lemma exD_isep eps g : image_sep eps g exD.
Proof. unfold image_sep, exD. repeat constructor. Qed.

(** P(e^X in (0,1)) = P(X < 0), P(atan X > pi/4) = P(X > 1), P(sigmoid X < 1/2) = P(X < 0) *)
Lemma ex_exp : exists q, exp_distr (1/1000) exD = Ok q /\ pprob (segs q) (Finite 0) (Finite 1) = pprob exD m_infty (Finite 0).
Proof.
  destruct (exp_exact (1/1000) exD (exD_smooth _) (exD_isep _ _)) as (q & E & _ & (_ & _ & L) & _). exists q. split; auto.
  rewrite <- L by (simpl; auto). simpl. rewrite exp_0. reflexivity.
Qed.
Lemma ex_atan : exists q, atan_distr (1/1000) exD = Ok q /\ pprob (segs q) (Finite (PI / 4)) (Finite (PI / 2)) = pprob exD (Finite 1) p_infty.
Proof.
  destruct (atan_exact (1/1000) exD (exD_smooth _) (exD_isep _ _)) as (q & E & _ & (_ & _ & L) & _). exists q. split; auto.
  rewrite <- L by (simpl; auto). simpl. rewrite atan_1. reflexivity.
Qed.
Lemma ex_tanh : exists q, tanh_distr (1/1000) exD = Ok q /\ pprob (segs q) (Finite 0) (Finite 1) = pprob exD (Finite 0) p_infty.
Proof.
  destruct (tanh_exact (1/1000) exD (exD_smooth _) (exD_isep _ _)) as (q & E & _ & (_ & _ & L) & _). exists q. split; auto.
  rewrite <- L by (simpl; auto). unfold lo_end, hi_end, lift. replace (tanh 0) with 0; [reflexivity|]. unfold tanh. rewrite sinh_0. lra.
Qed.
Lemma ex_sigmoid : exists q, sigm_distr (1/1000) exD = Ok q /\ pprob (segs q) (Finite 0) (Finite (1/2)) = pprob exD m_infty (Finite 0).
Proof.
  destruct (sigmoid_exact (1/1000) exD (exD_smooth _) (exD_isep _ _)) as (q & E & _ & (_ & _ & L) & _). exists q. split; auto.
  rewrite <- L by (simpl; auto). simpl. rewrite Ropp_0, exp_0. do 2 f_equal. lra.
Qed.
(** 2 ** X and (1/2) ** X *)
Lemma ex_rpow : exists q r, rpow_distr (1/1000) (PW exD []) 2 = Ok (PDistr q) /\ pprob (segs q) (Finite 1) (Finite 2) = pprob exD (Finite 0) (Finite 1) /\
  rpow_distr (1/1000) (PW exD []) (1/2) = Ok (PDistr r) /\ pprob (segs r) (Finite 1) p_infty = pprob exD m_infty (Finite 0).
Proof.
  destruct (rpow_exact (1/1000) (PW exD []) 2) as (q & E & _ & (_ & _ & L)); auto using exD_smooth, exD_isep; try lra; try (intros HH; lra).
  destruct (rpow_exact (1/1000) (PW exD []) (1/2)) as (r & E' & _ & (_ & _ & L')); auto using exD_smooth, exD_isep; try lra; try (intros HH; lra).
  exists q, r. split; auto. split; [|split; auto].
  - rewrite (proj2 (rlt_true 1 2)) in L by lra. specialize (L (Finite 0) (Finite 1)). unfold lo_end, hi_end, expo in L.
    rewrite Rpower_O, Rpower_1 in L by lra. apply L; simpl; auto; lra.
  - rewrite (proj2 (rlt_false 1 (1/2))) in L' by lra. specialize (L' m_infty (Finite 0)). unfold lo_end, hi_end, expo in L'.
    rewrite Rpower_O in L' by lra. destruct (Rlt_dec 1 (1/2)); [lra|]. apply L'; simpl; auto.
Qed.

(** a positive variable: density x on [0,1], atom of mass 1/2 at 2 *)
Definition exP : list segment := [Seg 0 1 (fun x => x); DiracSeg 2 (1/2)].
Lemma exP_smooth : smooth (1/1000) exP.
Proof.
  unfold smooth, exP. splits.
  - repeat first [apply SSorted_cons | apply SSorted_nil | apply Forall_cons | apply Forall_nil | apply conj]; simpl; try lra; try (intros HH; injection HH; lra); try discriminate; auto.
  - repeat apply Forall_cons; try apply Forall_nil; simpl; auto; lra.
  - unfold dirac_sep. repeat constructor.
  - apply Forall_cons; [intros _|apply Forall_cons; [intros D; discriminate|apply Forall_nil]].
    assert (C : forall x, filterlim (fun x => x * x / 2) (locally x) (locally (x * x / 2))).
    { intros x. apply (der_cont (fun x => x * x / 2) x). auto_derive; auto. }
    apply (ftc (fun x => x) (fun x => x * x / 2) 0 1 0 (1/2)); try (simpl; lra).
    + intros x _. auto_derive; auto. field.
    + intros x _. apply continuous_id.
    + eapply filterlim_filter_le_1; [apply filter_le_within|]. specialize (C 0). replace (0 * 0 / 2) with 0 in C by field. exact C.
    + eapply filterlim_filter_le_1; [apply filter_le_within|]. specialize (C 1). replace (1 * 1 / 2) with (1/2) in C by field. exact C.
  - apply Forall_cons; [intros x _ _; apply (continuous_id (U := R_UniformSpace))|apply Forall_cons; [intros x D; discriminate|apply Forall_nil]].
Qed.
Lemma exP_pos : forall s, In s exP -> if isDirac s then Rbar_lt 0 (sa s) else Rbar_le 0 (sa s).
Proof. intros s [<-|[<-|[]]]; simpl; lra. Qed.
Lemma exP_isep eps g : image_sep eps g exP.
Proof. unfold image_sep, exP. repeat constructor. Qed.
Lemma ex_log : exists q, log_distr (1/1000) exP = Ok q /\ pprob (segs q) m_infty (Finite 0) = pprob exP (Finite 0) (Finite 1).
Proof.
  destruct (log_exact (1/1000) exP exP_smooth exP_pos (exP_isep _ _)) as (q & E & _ & (_ & _ & L)). exists q. split; auto.
  rewrite <- L by (simpl; auto; lra). simpl. destruct (Rlt_dec 0 0); [lra|]. destruct (Rlt_dec 0 1); [|lra]. rewrite ln_1. reflexivity.
Qed.
Lemma ex_log_refused : log_distr (1/1000) exD = Err EValue.
Proof. apply (log_negative (1/1000) exD (DiracSeg 0 (1/8))); [simpl; auto|simpl; lra]. Qed.
(** X ** 3 and X ** (-1/2) *)
Lemma ex_pow : exists q r, pow_distr (1/1000) (PW exP []) 3 = Ok (PDistr q) /\ pprob (segs q) (Finite 1) p_infty = pprob exP (Finite 1) p_infty /\
  pow_distr (1/1000) (PW exP []) (-1/2) = Ok (PDistr r) /\ pprob (segs r) (Finite 0) (Finite 1) = pprob exP (Finite 1) p_infty.
Proof.
  destruct (pow_exact (1/1000) (PW exP []) 3) as (q & E & _ & (_ & _ & L)); try exact exP_pos; try apply exP_isep; try exact exP_smooth; try (intros HH; lra).
  destruct (pow_exact (1/1000) (PW exP []) (-1/2)) as (r & E' & _ & (_ & _ & L')); try exact exP_pos; try apply exP_isep; try exact exP_smooth; try (intros HH; lra).
  assert (O : forall d, Rpower 1 d = 1) by (intros d; unfold Rpower; rewrite ln_1, Rmult_0_r; apply exp_0).
  exists q, r. split; auto. split; [|split; auto].
  - rewrite (proj2 (rlt_true 0 3)) in L by lra. specialize (L (Finite 1) p_infty). unfold lo_end, hi_end, power in L.
    destruct (Rlt_dec 0 1); [|lra]. destruct (Rlt_dec 0 3); [|lra]. rewrite O in L. apply L; simpl; auto; lra.
  - rewrite (proj2 (rlt_false 0 (-1/2))) in L' by lra. specialize (L' (Finite 1) p_infty). unfold lo_end, hi_end, power in L'.
    destruct (Rlt_dec 0 1); [|lra]. destruct (Rlt_dec 0 (-1/2)); [lra|]. rewrite O in L'. apply L'; simpl; auto; lra.
Qed.
Lemma ex_pow2 : exists q, pow_distr (1/1000) (PW exD []) 2 = Ok (PDistr q) /\ even_law (fun x => x * x) exD (segs q).
Proof.
  destruct (pow_special (1/1000) (PW exD [])) as (_ & _ & H); [lra|]. apply H; [apply exD_smooth|].
  intros a m b k Ha Hb. simpl in Ha, Hb. left.
  repeat destruct Ha as [Ha|Ha]; try discriminate; try tauto. repeat destruct Hb as [Hb|Hb]; try discriminate; try tauto.
  injection Ha as <- <-. injection Hb as <- <-. auto.
Qed.

(** tan, sin and cos of the uniform variable on [-1,1] and an atom *)
Definition exU : list segment := [ConstSeg (Ropp 1) 1 (1/4); DiracSeg 1 (1/2)].
Lemma exU_smooth : smooth (1/1000) exU.
Proof.
  unfold smooth, exU. splits.
  - repeat first [apply SSorted_cons | apply SSorted_nil | apply Forall_cons | apply Forall_nil | apply conj]; simpl; try lra; try (intros HH; injection HH; lra); try discriminate; auto.
  - repeat apply Forall_cons; try apply Forall_nil; simpl; auto; lra.
  - unfold dirac_sep. repeat constructor.
  - apply Forall_cons; [intros _|apply Forall_cons; [intros D; discriminate|apply Forall_nil]]. apply (integrable_const (Ropp 1) 1). lra.
  - apply Forall_cons; [intros x _ _; apply continuous_const|apply Forall_cons; [intros x D; discriminate|apply Forall_nil]].
Qed.
Lemma exU_isep eps g : image_sep eps g exU.
Proof. unfold image_sep, exU. repeat constructor. Qed.
Lemma exU_within a b : a <= Ropp 1 -> 1 <= b -> Forall (within (Finite a) (Finite b)) exU.
Proof. intros. unfold exU. apply Forall_cons; [split; simpl; lra|]. apply Forall_cons; [split; simpl; lra|apply Forall_nil]. Qed.
Lemma ex_tan : exists q, tan_distr (1/1000) exU = Ok q /\ pprob (segs q) (Finite 0) (Finite (tan (11/10))) = pprob exU (Finite 0) (Finite (11/10)).
Proof.
  pose proof PI2_3_2. destruct (tan_exact (1/1000) (Ropp 1) (11/10) exU) as (q & E & _ & (_ & _ & L) & _); auto using exU_smooth, exU_isep; try lra; try (intros HH; lra).
  { apply exU_within; lra. }
  exists q. split; auto. rewrite <- L by (simpl; lra). simpl. rewrite tan_0. reflexivity.
Qed.
Lemma exU_atoms (f : R -> R) : forall a b, In a (dirac_pos exU) -> In b (dirac_pos exU) -> f a = f b \/ 1/1000 < Rabs (f a - f b).
Proof. intros a b [<-|[]] [<-|[]]. left; auto. Qed.
Lemma ex_sin : exists q, sin_distr (1/1000) exU = Ok q /\ pprob (segs q) (Finite 0) (Finite 1) = pprob exU (Finite 0) (Finite (PI / 2)).
Proof.
  pose proof PI2_3_2. destruct (sin_half_exact (1/1000) exU) as (q & E & _ & _ & L); auto using exU_smooth, exU_atoms; try lra; try (intros HH; lra).
  { apply exU_within; lra. }
  { intros [H1|[]]. lra. }
  exists q. split; auto. rewrite L by lra. rewrite asin_0, asin_1. reflexivity.
Qed.
Lemma ex_cos : exists q, cos_distr (1/1000) exU = Ok q /\
  pprob (segs q) (Finite 0) (Finite 1) = pprob exU (Finite 0) (Finite (PI / 2)) + pprob exU (Finite (2 * PI - PI / 2)) (Finite (2 * PI - 0)).
Proof.
  destruct (cos_exact (1/1000) exU) as (q & E & _ & _ & L); auto using exU_smooth, exU_atoms; try lra; try (intros HH; lra).
  exists q. split; auto. rewrite L by lra. rewrite acos_0, acos_1. reflexivity.
Qed.
