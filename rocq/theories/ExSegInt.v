(** Concrete instance: a density with tails, an atom, a constant piece and a singular piece meets the
    hypotheses of the theorems in PropSegInt.v. *)
From Coq Require Import Reals Lra List Bool Sorted.
From Coquelicot Require Import Coquelicot.
From Verif Require Import Base Seg Piecewise PiecewiseSpec Integral IntegralFacts SegInt SegIntSpec SegIntFacts PropSegInt.
Import List ListNotations.
Open Scope R_scope.

Definition exD : list segment :=
  [MInfSeg 0 (fun x => exp x / 4); DiracSeg 0 (1/8); Seg 0 1 (fun x => x / 4); ConstSeg 1 2 (1/8);
   PoleSeg 2 3 (fun x => / (16 * sqrt (x - 2))) true; PInfSeg 3 (fun x => exp (3 - x) / 4)].

Lemma lim_l (F : R -> R) (x y : R) : F x = y -> continuous F x -> filterlim F (at_l x) (locally y).
Proof. intros <-. apply filterlim_at_l_cont. Qed.
Lemma lim_r (F : R -> R) (x y : R) : F x = y -> continuous F x -> filterlim F (at_r x) (locally y).
Proof. intros <-. apply filterlim_at_r_cont. Qed.
Lemma dc (F : R -> R) (x : R) : ex_derive F x -> continuous F x.
Proof. intros H. apply (ex_derive_continuous (V := R_NormedModule)). exact H. Qed.

Lemma exD_minf : integrable (fun x => exp x / 4) m_infty 0 /\ Q (fun x => exp x / 4) m_infty 0 = 1 / 4.
Proof.
  destruct (ftc (fun x => exp x / 4) (fun x => exp x / 4) m_infty 0 0 (1/4)) as (A & B).
  - exact I.
  - intros x _. auto_derive; auto; lra.
  - intros x _. apply dc; auto_derive; auto.
  - change (at_r m_infty) with (Rbar_locally m_infty). replace (locally 0) with (Rbar_locally (Rbar_mult 0 (/ 4))) by (change (locally 0) with (Rbar_locally 0); f_equal; simpl; f_equal; lra).
    assert (L : is_lim (fun x => exp x * / 4) m_infty (Rbar_mult 0 (/ 4))).
    { apply is_lim_mult; simpl; auto; [apply is_lim_exp_m|apply is_lim_const]. }
    exact L.
  - apply lim_l; [(rewrite exp_0; lra)|apply dc; auto_derive; auto].
  - split; auto. rewrite B. lra.
Qed.
Lemma exD_pinf : integrable (fun x => exp (3 - x) / 4) 3 p_infty /\ Q (fun x => exp (3 - x) / 4) 3 p_infty = 1 / 4.
Proof.
  destruct (ftc (fun x => exp (3 - x) / 4) (fun x => - exp (3 - x) / 4) 3 p_infty (-1/4) 0) as (A & B).
  - exact I.
  - intros x _. auto_derive; auto. unfold Rminus. lra.
  - intros x _. apply dc; auto_derive; auto.
  - apply lim_r; [(replace (3 - 3) with 0 by lra; rewrite exp_0; lra)|apply dc; auto_derive; auto].
  - change (at_l p_infty) with (Rbar_locally p_infty). replace (locally 0) with (Rbar_locally (Rbar_mult 0 (- / 4))) by (change (locally 0) with (Rbar_locally 0); f_equal; simpl; f_equal; lra).
    assert (L : is_lim (fun x => - exp (3 - x) / 4) p_infty (Rbar_mult 0 (- / 4))); [|exact L].
    apply (is_lim_ext (fun x => exp (3 - x) * (- / 4))); [intros; lra|].
    apply is_lim_mult; simpl; auto; [|apply is_lim_const].
    apply (is_lim_comp exp (fun x => 3 - x) p_infty 0 m_infty); [apply is_lim_exp_m| |exists 0; intros; discriminate].
    apply (is_lim_minus (fun _ => 3) (fun x => x) p_infty 3 p_infty); [apply is_lim_const|apply is_lim_id|reflexivity].
  - split; auto. rewrite B. lra.
Qed.
Lemma exD_lin : integrable (fun x => x / 4) 0 1 /\ Q (fun x => x / 4) 0 1 = 1 / 8.
Proof.
  destruct (ftc (fun x => x / 4) (fun x => x * x / 8) 0 1 0 (1/8)) as (A & B).
  - simpl; lra.
  - intros x _. auto_derive; auto; lra.
  - intros x _. apply dc; auto_derive; auto.
  - apply lim_r; [lra|apply dc; auto_derive; auto].
  - apply lim_l; [lra|apply dc; auto_derive; auto].
  - split; auto. rewrite B. lra.
Qed.
Lemma exD_pole : integrable (fun x => / (16 * sqrt (x - 2))) 2 3 /\ Q (fun x => / (16 * sqrt (x - 2))) 2 3 = 1 / 8.
Proof.
  assert (C : forall x : R, continuous (fun x : R => sqrt (x - 2) / 8) x).
  { intros x. apply (continuous_mult (fun x : R => sqrt (x - 2)) (fun _ => / 8)); [|apply continuous_const].
    apply (continuous_comp (fun x : R => x - 2) sqrt); [|apply continuous_sqrt].
    apply dc; auto_derive; auto. }
  destruct (ftc (fun x => / (16 * sqrt (x - 2))) (fun x => sqrt (x - 2) / 8) 2 3 0 (1/8)) as (A & B).
  - simpl; lra.
  - intros x (X & _). simpl in X. assert (0 < sqrt (x - 2)) by (apply sqrt_lt_R0; lra).
    auto_derive; [lra|]. unfold Rminus in *. field. lra.
  - intros x (X & _). simpl in X. assert (0 < sqrt (x - 2)) by (apply sqrt_lt_R0; lra).
    apply dc. auto_derive. unfold Rminus in *. split; [lra|split; [lra|auto]].
  - apply lim_r; [(replace (2 - 2) with 0 by lra; rewrite sqrt_0; lra)|apply C].
  - apply lim_l; [(replace (3 - 2) with 1 by lra; rewrite sqrt_1; lra)|apply C].
  - split; auto. rewrite B. lra.
Qed.

Lemma exD_wf : Forall wf_seg exD.
Proof. repeat apply Forall_cons; try apply Forall_nil; simpl; auto; lra. Qed.
Lemma exD_int : Forall integrable_piece exD.
Proof.
  apply Forall_cons; [apply exD_minf|]. apply Forall_cons; [exact I|]. apply Forall_cons; [apply exD_lin|].
  apply Forall_cons; [apply integrable_const; lra|]. apply Forall_cons; [apply exD_pole|].
  apply Forall_cons; [apply exD_pinf|]. apply Forall_nil.
Qed.
Lemma exD_ordered : ordered exD.
Proof. 
  unfold exD. repeat first [apply SSorted_cons | apply SSorted_nil | apply Forall_cons | apply Forall_nil | apply conj]; simpl; try lra; try (intros HH; injection HH; lra); try discriminate; auto.
Qed.
Lemma exD_density : density exD.
Proof.
  unfold density. splits; [discriminate|apply exD_wf|apply exD_int|apply exD_ordered|]. simpl. splits; auto.
Qed.
Lemma exD_nonneg : Forall nonneg_piece exD.
Proof.
  repeat apply Forall_cons; try apply Forall_nil; simpl; intros; try lra.
  - pose proof (exp_pos x); lra.
  - left. apply Rinv_0_lt_compat. apply Rmult_lt_0_compat; [lra|]. apply sqrt_lt_R0; lra.
  - pose proof (exp_pos (3 - x)); lra.
Qed.
Lemma exD_mass : total_mass exD = 1.
Proof.
  unfold total_mass, exD. cbn [map mass sumR].
  assert (K : forall f a b, Rbar_lt a b -> RInt_gen (V := R_CompleteNormedModule) f (at_r a) (at_l b) = Q f a b) by (intros; symmetry; apply Q_RInt_gen; auto).
  rewrite !K by (simpl; auto; lra). cbn [sa sb].
  change (sf (MInfSeg 0 (fun x => exp x / 4))) with (fun x => exp x / 4).
  change (sf (Seg 0 1 (fun x => x / 4))) with (fun x => x / 4).
  change (sf (ConstSeg 1 2 (1/8))) with (fun _ : R => 1/8).
  change (sf (PoleSeg 2 3 (fun x => / (16 * sqrt (x - 2))) true)) with (fun x => / (16 * sqrt (x - 2))).
  change (sf (PInfSeg 3 (fun x => exp (3 - x) / 4))) with (fun x => exp (3 - x) / 4).
  rewrite (proj2 exD_minf), (proj2 exD_lin), (proj2 exD_pole), (proj2 exD_pinf), Q_const. simpl. lra.
Qed.
(** its distribution function: exists, is defined everywhere, jumps by 1/8 at 0 *)
Lemma exD_cdf : exists q, cumint (1/1000) exD = Ok q /\
  (forall x : R, call_scalar (segs q) x = Ok (cdf_spec exD x)) /\
  filterlim (call_vec (segs q)) (at_left 0) (locally (call_vec (segs q) 0 - 1 / 8)) /\
  filterlim (call_vec (segs q)) (Rbar_locally p_infty) (locally 1).
Proof.
  destruct (cdf_exact (1/1000) exD exD_density) as (q & E & _ & _ & V).
  destruct (cdf_distribution_function (1/1000) exD q exD_density exD_nonneg E) as (_ & _ & _ & _ & L & _ & P).
  exists q. splits; auto.
  - apply V.
  - pose proof (L 0) as L0. cbn [exD map sumR] in L0. destruct (Req_EM_T 0 0) as [_|N] in L0; [|lra].
    replace (call_vec (segs q) 0 - 1/8) with (call_vec (segs q) 0 - (0 + (1 / 8 + (0 + (0 + (0 + (0 + 0))))))) by lra. exact L0.
  - rewrite <- exD_mass. exact P.
Qed.
(** the singular piece integrates over any subinterval *)
Lemma ex_integrate_pole :
  seg_integrate (PoleSeg 2 3 (fun x => / (16 * sqrt (x - 2))) true) 0 (5/2) + seg_integrate (PoleSeg 2 3 (fun x => / (16 * sqrt (x - 2))) true) (5/2) p_infty =
  seg_integrate (PoleSeg 2 3 (fun x => / (16 * sqrt (x - 2))) true) 0 p_infty.
Proof.
  symmetry. apply (integrate_additive _ 0 (5/2) p_infty); simpl; auto; try lra. apply exD_pole.
Qed.
