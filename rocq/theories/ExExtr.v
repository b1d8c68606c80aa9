(** Concrete instances for the theorems in PropExtr.v. *)
From Coq Require Import Reals Lra List Bool Sorted.
From Coquelicot Require Import Coquelicot.
From Verif Require Import Base Seg Piecewise PiecewiseSpec Integral IntegralFacts IntParts IntPartsFacts SegInt SegIntSpec SegIntFacts CumintFacts Indep IndepSpec IndepAsm ConvolFacts PropExtr ExAtom ExConvol.
Import List ListNotations.
Open Scope R_scope.

(** X is 0 with probability 1/2, otherwise uniform on (0,1); Y is uniform on (0,1).  At 1/2 the minimum has
    density 1/2 * 1/2 + 1 * 1/4 = 1/2 and the maximum 1/2 * 1/2 + 1 * 3/4 = 1. *)
Lemma exMU_hyp : ordered exM /\ ordered exU /\ Forall wf_seg exM /\ Forall wf_seg exU /\ Forall integrable_piece exM /\ Forall integrable_piece exU /\
  dirac_sep (1/10) exM /\ dirac_sep (1/10) exU /\ cross_sep (1/10) exM exU /\ (exists p : R, is_end exM p) /\ (exists p : R, is_end exU p) /\
  ~ is_end exM (1/2) /\ ~ is_end exU (1/2) /\ cont_at exM (1/2) /\ cont_at exU (1/2).
Proof.
  splits.
  - constructor; [repeat constructor|constructor; [split; [simpl; lra|simpl; intros K; injection K; lra]|constructor]].
  - repeat constructor.
  - repeat constructor; simpl; lra.
  - repeat constructor; simpl; lra.
  - constructor; [exact I|constructor; [|constructor]]. apply integrable_const; lra.
  - constructor; [|constructor]. apply integrable_const; lra.
  - repeat constructor.
  - repeat constructor.
  - intros a m b k _ [H|[]]; discriminate.
  - exists 0, (DiracSeg 0 (1/2)). simpl. auto.
  - exists 0, (Seg 0 1 (fun _ => 1)). simpl. auto.
  - intros (s & Hs & E). simpl in Hs. destruct Hs as [<-|[<-|[]]]; simpl in E; destruct E as [E|E]; injection E; lra.
  - intros (s & Hs & E). simpl in Hs. destruct Hs as [<-|[]]; simpl in E; destruct E as [E|E]; injection E; lra.
  - intros s [<-|[<-|[]]] D _; try discriminate. apply continuous_const.
  - intros s [<-|[]] D _. apply continuous_const.
Qed.
Lemma exMU_vals : dens exM (1/2) = 1/2 /\ dens exU (1/2) = 1 /\ prob_above exM (1/2) = 1/4 /\ prob_above exU (1/2) = 1/2 /\
  prob_below exM (1/2) = 3/4 /\ prob_below exU (1/2) = 1/2.
Proof.
  destruct exMU_hyp as (_ & _ & WM & WU & _).
  assert (MU : forall s, In s exM \/ In s exU -> wf_seg s) by (intros s [H|H]; [rewrite Forall_forall in WM|rewrite Forall_forall in WU]; auto).
  assert (D : dens exM (1/2) = 1/2 /\ dens exU (1/2) = 1).
  { unfold dens, exM, exU. cbn [map isDirac sa sb sf sumR].
    repeat match goal with |- context [Rbar_lt_dec ?a ?b] => destruct (Rbar_lt_dec a b) end; simpl in *; lra. }
  destruct D as (D1 & D2). 
  assert (M1 : mass (Seg 0 1 (fun _ => 1/2)) = 1/2) by (rewrite mass_Q by (simpl; auto; lra); cbn [sa sb]; change (sf (Seg 0 1 (fun _ => 1/2))) with (fun _ : R => 1/2); rewrite Q_const; lra).
  assert (M2 : mass (Seg 0 1 (fun _ => 1)) = 1) by (rewrite mass_Q by (simpl; auto; lra); cbn [sa sb]; change (sf (Seg 0 1 (fun _ => 1))) with (fun _ : R => 1); rewrite Q_const; lra).
  assert (K : forall c, mass_upto (Seg 0 1 (fun _ => c)) (1/2) = c/2).
  { intros c. rewrite mass_upto_cpart by (simpl; lra). unfold cpart. change (sf (Seg 0 1 (fun _ => c))) with (fun _ : R => c). cbn [sa].
    replace (clamp (Seg 0 1 (fun _ => c)) (1/2)) with (Finite (1/2)); [rewrite Q_const; lra|].
    symmetry. apply SegIntFacts.clamp_id; simpl; lra. }
  unfold prob_above, prob_below, total_mass, cdf_spec, pm, exM, exU. cbn [map]. unfold sumR. cbn [fold_right].
  rewrite !K, M1, M2. cbn [mass mass_upto].
  splits; auto; repeat match goal with |- context [Rle_dec ?a ?b] => destruct (Rle_dec a b) | |- context [Req_EM_T ?a ?b] => destruct (Req_EM_T a b) end; simpl in *; lra.
Qed.
Lemma exMU_min : exists q, convmin (1/10) exM exU = Ok q /\ call_vec (segs q) (1/2) = 1/2.
Proof.
  destruct exMU_hyp as (H1 & H2 & H3 & H4 & H5 & H6 & H7 & H8 & H9 & H10 & H11 & H12 & H13 & H14 & H15). destruct exMU_vals as (V1 & V2 & V3 & V4 & _).
  destruct (min_exact (1/10) exM exU) as (q & Q1 & _ & _ & _ & Q5 & _); auto; [lra|]. exists q. split; auto.
  destruct (Q5 (1/2)) as (-> & _); auto. rewrite V1, V2, V3, V4. lra.
Qed.
Lemma exMU_max : exists q, convmax (1/10) exM exU = Ok q /\ call_vec (segs q) (1/2) = 1.
Proof.
  destruct exMU_hyp as (H1 & H2 & H3 & H4 & H5 & H6 & H7 & H8 & H9 & H10 & H11 & H12 & H13 & H14 & H15). destruct exMU_vals as (V1 & V2 & _ & _ & V3 & V4).
  destruct (max_exact (1/10) exM exU) as (q & Q1 & _ & _ & _ & Q5 & _); auto; [lra|]. exists q. split; auto.
  destruct (Q5 (1/2)) as (-> & _); auto. rewrite V1, V2, V3, V4. lra.
Qed.
Lemma exMU_point : forall p : R, is_end exM p \/ is_end exU p -> same_side p (1/4) (1/2).
Proof.
  intros p [(s & Hs & E)|(s & Hs & E)]; simpl in Hs; [destruct Hs as [<-|[<-|[]]]|destruct Hs as [<-|[]]]; simpl in E; unfold same_side; destruct E as [E|E]; injection E as ->; lra.
Qed.
