(** Concrete instances for the theorems in PropProdAsm.v. *)
From Coq Require Import Reals Lra List Bool Sorted.
From Coquelicot Require Import Coquelicot.
From Verif Require Import Base Seg Piecewise PiecewiseSpec Integral IntegralFacts IntParts IntPartsFacts SegInt SegIntSpec Indep IndepSpec AtomFacts AtomFacts3 CumintFacts QuotFacts ProdAsm ProdAsmSpec PropProdAsm ExProd.
From Verif Require TransformSpec.
Import List ListNotations.
Open Scope R_scope.

(** X is 0 with probability 1/2, otherwise uniform on (1,2); Y is uniform on (-4,-1) *)
Definition exZX : list segment := [DiracSeg 0 (1/2); Seg 1 2 (fun _ => 1/2)].

Lemma exZ_end p : cut_end exZX p -> p = Finite 0 \/ p = Finite 1 \/ p = Finite 2.
Proof.
  intros [(s & [<-|[<-|[]]] & E)|([E|[E|E]] & s & [<-|[<-|[]]] & L1 & L2)]; simpl in E; try tauto; subst p; simpl in *; lra.
Qed.
Lemma exY_end p : cut_end exPY p -> p = Finite (-4) \/ p = Finite (-1).
Proof.
  intros [(s & [<-|[]] & E)|([E|[E|E]] & s & [<-|[]] & L1 & L2)]; simpl in E; try tauto; subst p; simpl in *; lra.
Qed.
Lemma ex_mass_const (a b k : R) : a < b -> mass (Seg a b (fun _ => k)) = k * (b - a).
Proof. intros L. rewrite mass_Q by (simpl; auto; lra). cbn [sa sb]. change (sf (Seg a b (fun _ => k))) with (fun _ : R => k). apply Q_const. Qed.
Lemma exZ_hyp : ordered exZX /\ Forall wf_seg exZX /\ Forall integrable_piece exZX /\ dirac_sep (1/1000) exZX /\ not_zero exZX /\
  total_mass exZX = 1 /\ cont_mass exZX = 1/2 /\ pm exZX 0 = 1/2.
Proof.
  unfold exZX. splits.
  - repeat first [apply SSorted_cons | apply SSorted_nil | apply Forall_cons | apply Forall_nil | apply conj]; simpl; try lra; try (intros HH; injection HH; lra); try discriminate; auto.
  - repeat constructor; simpl; lra.
  - constructor; [exact I|constructor; [|constructor]]. apply integrable_const; lra.
  - repeat constructor.
  - exists (Seg 1 2 (fun _ => 1/2)). split; [simpl; auto|discriminate].
  - unfold total_mass. cbn [map]. rewrite !sumR_cons, ex_mass_const by lra. cbn [mass sumR fold_right]. simpl. lra.
  - unfold cont_mass, getSegments. cbn [filter isSegment isDirac negb map]. rewrite !sumR_cons, ex_mass_const by lra. simpl. lra.
  - unfold pm. cbn [map]. rewrite !sumR_cons. destruct (Req_EM_T 0 0); [simpl; lra|lra].
Qed.
Lemma exY_hyp : ordered exPY /\ Forall wf_seg exPY /\ Forall integrable_piece exPY /\ dirac_sep (1/1000) exPY /\ not_zero exPY /\
  total_mass exPY = 1 /\ cont_mass exPY = 1 /\ pm exPY 0 = 0.
Proof.
  unfold exPY. splits.
  - repeat constructor.
  - repeat constructor; simpl; lra.
  - constructor; [|constructor]. apply integrable_const; lra.
  - repeat constructor.
  - exists (Seg (-4) (-1) (fun _ => 1/3)). split; [simpl; auto|discriminate].
  - unfold total_mass. cbn [map]. rewrite !sumR_cons, ex_mass_const by lra. simpl. lra.
  - unfold cont_mass, getSegments. cbn [filter isSegment isDirac negb map]. rewrite !sumR_cons, ex_mass_const by lra. simpl. lra.
  - unfold pm. cbn [map]. rewrite !sumR_cons. simpl; lra.
Qed.
Lemma exZY_sep : prods_sep (1/1000) exZX exPY.
Proof.
  assert (P : forall r, end_prod exZX exPY r -> r = 0 \/ r = -4 \/ r = -1 \/ r = -8 \/ r = -2).
  { intros r (p & q & Hp & Hq & ->). apply exZ_end in Hp. apply exY_end in Hq.
    destruct Hp as [E|[E|E]]; injection E as ->; destruct Hq as [E'|E']; injection E' as ->; lra. }
  intros u v Hu Hv L. apply P in Hu. apply P in Hv.
  assert (M : 1 <= Rmax 1 (Rabs v) <= 8).
  { split; [apply Rmax_l|]. apply Rmax_lub; [lra|]. apply Rabs_le. lra. }
  assert (D : 1 <= v - u) by lra. apply (Rlt_le_trans _ (1 / 8)); [lra|].
  unfold Rdiv. apply Rmult_le_compat; try lra. apply Rinv_le_contravar; lra.
Qed.
(** the atom at zero keeps its probability; at -3 the product has the density of X*Y *)
Lemma exZY_prod : exists q, convprod (1/1000) (1/1000) exZX exPY = Ok q /\ pm (segs q) 0 = 1/2 /\ pm (segs q) (-1) = 0 /\ prod_density exZX exPY (-3) (call_vec (segs q) (-3)).
Proof.
  destruct exZ_hyp as (A1 & A2 & A3 & A4 & A5 & A6 & A7 & A8), exY_hyp as (B1 & B2 & B3 & B4 & B5 & B6 & B7 & B8).
  destruct (prod_exact (1/1000) (1/1000) exZX exPY) as (q & Q1 & Q2 & Q3 & Q4 & Q5 & Q6 & Q7 & Q8); auto; try lra.
  - apply exZY_sep.
  - intros x m y k x' m' y' k' _ [H|[]]. discriminate.
  - exists q. splits; auto.
    + rewrite Q6, A8, B8. lra.
    + rewrite Q5 by lra. unfold pm_op, pair_sum, exZX, exPY. simpl. ring.
    + apply Q7; [lra| |].
      * intros (p & r & Hp & Hr & E). apply exZ_end in Hp. apply exY_end in Hr.
        destruct Hp as [K|[K|K]]; injection K as ->; destruct Hr as [K'|K']; injection K' as ->; lra.
      * intros si sj a b [<-|[<-|[]]] [<-|[]] D1 D2 L IN; try discriminate. cbn [sa sb sf] in *.
        destruct (sub_window a b 1 2 L) as (A & B); [intros t (T1 & T2); destruct (IN t T1 T2) as (_ & K1 & K2 & _); simpl in *; lra|].
        apply (integrable_sub _ 1 2); auto. apply integrable_scal. apply cont_integrable; [lra|]. intros t T.
        apply (continuous_comp Rabs Rinv); [apply continuous_Rabs|]. apply continuous_Rinv. rewrite Rabs_right; lra.
Qed.
(** -2 X: half of the mass at 0, and P(-4 < -2X < -2) = 1/2 *)
Lemma exZ_const : exists q, convprod (1/1000) (1/1000) exZX [DiracSeg (-2) 1] = Ok q /\ pm (segs q) 0 = 1/2 /\
  TransformSpec.pprob (segs q) (-4) (-2) = TransformSpec.pprob exZX 1 2.
Proof.
  destruct exZ_hyp as (A1 & A2 & A3 & A4 & A5 & A6 & A7 & A8).
  destruct (prod_const (1/1000) (1/1000) exZX (-2) 1) as (q & Q1 & Q2 & Q3 & Q4 & Q5 & Q6 & Q7 & Q8 & Q9); auto; try lra.
  - intros u v (p & r & Hp & Hr & ->) (p' & r' & Hp' & Hr' & ->) L.
    assert (C : forall r : R, cut_end [DiracSeg (-2) 1] r -> r = -2).
    { intros t [(s & [<-|[]] & E)|(_ & s & [<-|[]] & L1 & L2)]; simpl in *; [destruct E as [E|E]; injection E; auto|lra]. }
    apply C in Hr. apply C in Hr'. subst r r'. apply exZ_end in Hp. apply exZ_end in Hp'.
    assert (P : p = 0 \/ p = 1 \/ p = 2) by (destruct Hp as [K|[K|K]]; injection K; auto).
    assert (P' : p' = 0 \/ p' = 1 \/ p' = 2) by (destruct Hp' as [K|[K|K]]; injection K; auto).
    assert (M : 1 <= Rmax 1 (Rabs (p' * -2)) <= 8).
    { split; [apply Rmax_l|]. apply Rmax_lub; [lra|]. apply Rabs_le. lra. }
    assert (D : 1 <= p' * -2 - p * -2) by lra. apply (Rlt_le_trans _ (1 / 8)); [lra|].
    unfold Rdiv. apply Rmult_le_compat; try lra. apply Rinv_le_contravar; lra.
  - intros x m y k x' m' y' k' Hx [E|[]] Hx' [E'|[]]. injection E as <- <-. injection E' as <- <-. left.
    destruct Hx as [K|[K|[]]]; try discriminate. destruct Hx' as [K'|[K'|[]]]; try discriminate. congruence.
  - exists q. splits; auto.
    + rewrite Q6. replace (0 / -2) with 0 by field. rewrite A8. lra.
    + destruct (Q9 1 2) as (_ & E); [simpl; lra|]. replace (Rbar_mult 2 (-2)) with (Finite (-4)) in E by (simpl; f_equal; ring).
      replace (Rbar_mult 1 (-2)) with (Finite (-2)) in E by (simpl; f_equal; ring). rewrite E by lra. ring.
Qed.
(** uniform times the constant zero *)
Lemma exY_zero : convprod (1/1000) (1/1000) exPY [DiracSeg 0 1] = Err EIndex.
Proof. destruct exY_hyp as (B1 & B2 & _). apply prod_zero_raises; auto. Qed.
