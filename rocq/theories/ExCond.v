(** Concrete instances for the theorems in PropCond.v. *)
From Coq Require Import Reals Lra List Bool Sorted.
From Coquelicot Require Import Coquelicot.
From Verif Require Import Base Seg Piecewise PiecewiseSpec Integral IntegralFacts IntParts SegInt SegIntSpec Indep IndepSpec ExtrFacts2 DensLaw CondFacts2 CondFacts4 Cond CondSpec PropCond ExAtom ExConvol ExExtr ExProdAsm.
From Verif Require TransformSpec.
Import List ListNotations.
Open Scope R_scope.

(** X is 0 with probability 1/2, otherwise uniform on (0,1) *)
Lemma exM_law : nonneg_law exM /\ total_mass exM = 1.
Proof.
  split.
  - unfold exM. repeat constructor; simpl; intros; lra.
  - unfold total_mass, exM. cbn [map]. unfold sumR. cbn [fold_right]. rewrite ex_mass_const by lra. cbn [mass]. lra.
Qed.
Lemma exM_end (p : R) : is_end exM p -> p = 0 \/ p = 1.
Proof. intros (s & [<-|[<-|[]]] & [E|E]); simpl in E; injection E; auto. Qed.
Lemma exM_marks pts : (forall p, In p pts -> p = 1/2 \/ p = -1/2) -> marks_sep (1/10) exM pts.
Proof.
  intros HP p q Hp Hq L.
  assert (A : forall x, marked exM pts x -> x = -1 \/ x = -1/2 \/ x = 0 \/ x = 1/2 \/ x = 1).
  { intros x [K|[K|[K|[K|K]]]]; auto; [apply exM_end in K; tauto|apply HP in K; tauto]. }
  apply A in Hp. apply A in Hq. assert (M0 : 0 < Rmax 1 (Rabs q)) by (apply (Rlt_le_trans _ 1); [lra|apply Rmax_l]). apply (proj1 (Rlt_div_r _ _ _ M0)).
  assert (B : Rmax 1 (Rabs q) <= 1). { apply Rmax_lub; [lra|]. apply Rabs_le. lra. }
  assert (1/2 <= q - p) by lra. lra.
Qed.
Lemma exM_apart c : c = 1/2 \/ c = -1/2 -> atoms_apart (1/10) exM c.
Proof. intros Hc a m [E|[E|[]]]; [|discriminate]. injection E as <- <-. right. destruct Hc as [-> | ->]; [rewrite Rabs_left|rewrite Rabs_right]; lra. Qed.
Lemma exM_pm0 : pm exM 0 = 1/2.
Proof. unfold pm, exM. simpl. destruct (Req_EM_T 0 0); [lra|congruence]. Qed.
Lemma exM_up : TransformSpec.pprob exM (1/2) p_infty = 1/4.
Proof.
  destruct exMU_hyp as (_ & _ & W & _ & I & _). destruct exM_law as (_ & T). destruct exMU_vals as (_ & _ & V & _).
  rewrite <- (tail_gt exM W I T). unfold prob_above in V. lra.
Qed.
Lemma exM_lo : TransformSpec.pprob exM m_infty (1/2) = 3/4.
Proof.
  destruct exMU_hyp as (_ & _ & W & _ & I & _). destruct exM_law as (_ & T). destruct exMU_vals as (_ & _ & V & _).
  rewrite <- (tail_lt exM W T). rewrite V. unfold pm, exM. simpl. destruct (Req_EM_T 0 (1/2)); lra.
Qed.
(** X | X > 1/2: P(X > 3/4 | X > 1/2) is P(X > 3/4) / (1/4) *)
Lemma ex_gt : exists r, or_gt (1/10) (1/10) (1/2) exM = Ok r /\ total_mass (segs r) = 1 /\ pm (segs r) 0 = 0 /\
  TransformSpec.pprob (segs r) (3/4) p_infty = TransformSpec.pprob exM (3/4) p_infty / (1/4).
Proof.
  destruct exMU_hyp as (H1 & _ & H3 & _ & H5 & _ & H7 & _ & _ & H10 & _). destruct exM_law as (N & T).
  destruct (cond_gt_exact (1/10) (1/10) (1/2) exM) as (r & R1 & _ & _ & R4 & R5 & R6); auto; try lra.
  - apply exM_apart; auto.
  - apply exM_marks. intros p [<-|[]]; auto.
  - rewrite exM_up; lra.
  - exists r. splits; auto.
    + apply R6. intros (K & _). simpl in K. lra.
    + rewrite R5, exM_up by (simpl; auto). f_equal. unfold TransformSpec.rmaxb, TransformSpec.rminb.
      destruct (Rbar_le_dec (3/4) (1/2)) as [K|_]; [simpl in K; lra|]. destruct (Rbar_le_dec p_infty p_infty); auto.
Qed.
(** X | X < 1/2 has the atom at 0 with mass (1/2)/(3/4) *)
Lemma ex_lt : exists r, or_lt (1/10) (1/10) (1/2) exM = Ok r /\ total_mass (segs r) = 1 /\ pm (segs r) 0 = 2/3.
Proof.
  destruct exMU_hyp as (H1 & _ & H3 & _ & H5 & _ & H7 & _ & _ & H10 & _). destruct exM_law as (N & T).
  destruct (cond_lt_exact (1/10) (1/10) (1/2) exM) as (r & R1 & _ & _ & R4 & R5 & R6); auto; try lra.
  - apply exM_apart; auto.
  - apply exM_marks. intros p [<-|[]]; auto.
  - intros a m [E|[E|[]]]; [|discriminate]. injection E as <- <-. lra.
  - rewrite exM_lo; lra.
  - rewrite exM_lo, exM_pm0; lra.
  - exists r. splits; auto. destruct (R6 0) as (A & _). rewrite A, exM_lo, exM_pm0; [lra|]. split; simpl; auto; lra.
Qed.
(** X | -1/2 < X < 1/2 *)
Lemma exM_mid : TransformSpec.pprob exM (-1/2) (1/2) = 3/4.
Proof.
  rewrite <- exM_lo. unfold TransformSpec.pprob, exM. cbn [map]. f_equal. f_equal.
  - cbn [TransformSpec.prob]. destruct (Rbar_lt_dec (-1/2) 0) as [_|K]; [|simpl in K; lra]. destruct (Rbar_lt_dec m_infty 0) as [_|K]; [auto|simpl in K; tauto].
  - cbn [TransformSpec.prob sa sb]. replace (TransformSpec.rmaxb (-1/2) 0) with (TransformSpec.rmaxb m_infty 0); auto.
    unfold TransformSpec.rmaxb. destruct (Rbar_le_dec m_infty 0) as [_|K]; [|simpl in K; tauto]. destruct (Rbar_le_dec (-1/2) 0) as [_|K]; [auto|simpl in K; lra].
Qed.
Lemma ex_between : exists r, or_between (1/10) (1/10) (-1/2) (1/2) exM = Ok r /\ total_mass (segs r) = 1 /\ pm (segs r) 0 = 2/3.
Proof.
  destruct exMU_hyp as (H1 & _ & H3 & _ & H5 & _ & H7 & _ & _ & H10 & _). destruct exM_law as (N & T).
  destruct (cond_between_exact (1/10) (1/10) (-1/2) (1/2) exM) as (r & R1 & _ & _ & R4 & R5 & R6); auto; try lra.
  - intros a m [E|[E|[]]]; [|discriminate]. injection E as <- <-. split; right; lra.
  - apply exM_marks. intros p [<-|[<-|[]]]; auto.
  - rewrite exM_mid; lra.
  - rewrite exM_mid, exM_pm0; lra.
  - exists r. splits; auto. destruct (R6 0) as (A & _). rewrite A, exM_mid, exM_pm0; [lra|]. split; simpl; lra.
Qed.
(** nothing of X above 2 or below -1: the operator refuses *)
Lemma ex_assert : or_gt (1/10) (1/10) 2 exM = Err EAssert /\ or_lt (1/10) (1/10) (-1) exM = Err EAssert.
Proof.
  assert (E : exists p : R, is_end exM p) by (exists 0, (DiracSeg 0 (1/2)); simpl; auto).
  split; [apply (proj1 (cond_assert (1/10) (1/10) 2 exM E))|apply (proj2 (cond_assert (1/10) (1/10) (-1) exM E))]; intros s [<-|[<-|[]]]; simpl; lra.
Qed.
(** the unmodified law of min(X, 2) for X = 1 or 3 *)
Lemma ex_lt_atom : exists r, cond_lt 0 (/10) 2 CondMain.cx_d = Ok r /\ pm (segs r) 2 = /2.
Proof.
  destruct CondMain.cx_hyp as (H1 & H2 & H3 & H4 & H5 & H6).
  destruct (cond_lt_atom 0 (/10) 2 CondMain.cx_d) as (r & R1 & R2 & _); auto; try lra.
  - intros a m [E|[E|[]]]; injection E as <- <-; right; [rewrite Rabs_left|rewrite Rabs_right]; lra.
  - apply CondMain.cx_marks. intros p [<-|[]]; auto.
  - exists 3, (/2). split; [simpl; auto|lra].
  - exists r. split; auto. rewrite R2, CondMain.cx_mass. destruct (Req_EM_T 1 2); [lra|]. destruct (Req_EM_T 3 2); [lra|]. unfold prob_above. rewrite H6. unfold cdf_spec, CondMain.cx_d. simpl. destruct (Rle_dec 1 2); [|lra]. destruct (Rle_dec 3 2); lra.
Qed.
