(** Concrete instances: information measures of uniform, two-point and mixed distributions. *)
From Coq Require Import Reals Lra Lia List Bool Sorted.
From Coquelicot Require Import Coquelicot.
From Verif Require Import Base Seg Piecewise PiecewiseSpec Integral IntegralFacts SegIntSpec SegIntFacts IndepSpec AtomFacts CumintFacts Info InfoSpec InfoFacts InfoFacts2 InfoFacts3 InfoFacts4 InfoMain.
Import List ListNotations.
Open Scope R_scope.

Lemma ex_ends : ends_of [u01; u02] [Finite 0; Finite 1; Finite 2].
Proof.
  split; [repeat constructor; simpl; lra|]. intros y. split.
  - intros [<-|[<-|[<-|[]]]]; [exists u02; split; [simpl; auto|]; exists (ConstSeg 0 2 (1/2)); simpl; auto|exists u01; split; [simpl; auto|]; exists (ConstSeg 0 1 1); simpl; auto|exists u02; split; [simpl; auto|]; exists (ConstSeg 0 2 (1/2)); simpl; auto].
  - intros (l & [<-|[<-|[]]] & s & [<-|[]] & [-> | ->]); simpl; auto.
Qed.
Lemma ex_dom : dominated u01 u02.
Proof.
  split.
  - intros x N1 N2 H. unfold u01 in H. destruct (Rlt_dec 0 x) as [A|A]; [destruct (Rlt_dec x 1) as [B|B]|].
    + unfold u02. rewrite dens_const; lra.
    + destruct (Req_dec x 1) as [->|]; [exfalso; apply N1; exists (ConstSeg 0 1 1); simpl; auto|]. rewrite dens_const_out in H; lra.
    + destruct (Req_dec x 0) as [->|]; [exfalso; apply N1; exists (ConstSeg 0 1 1); simpl; auto|]. rewrite dens_const_out in H; lra.
  - intros x. split; intros (m & [K|[]]); discriminate.
Qed.
Lemma ex_rel1 (x : R) : 0 < x < 1 -> rel (dens u01 x) (dens u02 x) = ln 2.
Proof. intros X. unfold u01, u02. rewrite !dens_const by lra. unfold rel. destruct (Rlt_dec 0 1); [|lra]. replace (1 / (1 / 2)) with 2 by field. ring. Qed.
Lemma ex_rel2 (x : R) : 1 < x < 2 -> rel (dens u01 x) (dens u02 x) = 0.
Proof. intros X. unfold u01, u02. rewrite dens_const_out by lra. unfold rel. destruct (Rlt_dec 0 0); lra. Qed.
Lemma ex_cut : cut_integrable (fun x => rel (dens u01 x) (dens u02 x)) [Finite 0; Finite 1; Finite 2].
Proof.
  split; [|split; [|exact Logic.I]].
  - apply (integrable_ext (fun _ => ln 2)); [|apply integrable_const; lra]. intros x (X1 & X2). simpl in X1, X2. symmetry. apply ex_rel1. lra.
  - apply (integrable_ext (fun _ => 0)); [|apply integrable_const; lra]. intros x (X1 & X2). simpl in X1, X2. symmetry. apply ex_rel2. lra.
Qed.
Lemma ex_atoms : atoms_of [u01] [].
Proof. split; [constructor|]. intros x. split; [intros []|]. intros (l & m & [<-|[]] & [K|[]]); discriminate. Qed.

(** the distance from U(0,1) to U(0,2) is ln 2 *)
Example kl_ex : KL_distance (1/1000) 7 u01 u02 = Ok (ln 2) /\ exists d, KL_distance (1/1000) 7 u01 u02 = Ok d /\ 0 <= d.
Proof.
  split.
  - rewrite (kl_exact_main (1/1000) 7 u01 u02 _ _ ltac:(lra) (const_good _ 0 1 1 ltac:(lra)) (const_good _ 0 2 (1/2) ltac:(lra)) (proj1 (proj2 (const_prob 0 1 1 ltac:(lra) ltac:(lra) ltac:(lra)))) ltac:(intros a m [K|[]]; discriminate) ltac:(intros a m [K|[]]; discriminate) ex_dom ex_ends ex_atoms).
    f_equal. rewrite cut_int_pairs by apply ex_ends. cbn [pairs_up map fst snd]. rewrite !sumR_cons. simpl (sumR []).
    rewrite (Q_ext _ (fun _ => ln 2) 0 1), (Q_ext _ (fun _ => 0) 1 2), !Q_const; try (simpl; lra).
    + intros x (X1 & X2). simpl in X1, X2. apply ex_rel2. lra.
    + intros x (X1 & X2). simpl in X1, X2. apply ex_rel1. lra.
  - apply (kl_gibbs_main (1/1000) 7 u01 u02 [Finite 0; Finite 1; Finite 2]); try lra; try (apply const_good; lra); try (apply const_prob; lra).
    + apply ex_dom.
    + apply ex_ends.
    + apply ex_cut.
Qed.

(** a mixed distribution: half uniform on (0,1), half an atom at 3; both parts count *)
Definition mixed : list segment := [ConstSeg 0 1 (1/2); DiracSeg 3 (1/2)].
Lemma mixed_good : admissible (1/1000) mixed.
Proof.
  split; [|split]; repeat constructor; simpl; try lra. intros E. injection E. lra.
Qed.
Example mixed_ex : entropy (1/1000) 7 mixed = Ok (ln 2).
Proof.
  rewrite entropy_exact_main; [|lra|apply mixed_good|].
  - f_equal. unfold mixed. cbn [map]. rewrite !sumR_cons. simpl (sumR []).
    assert (P : eta (1 / 2) = ln 2 / 2). { rewrite eta_pos by lra. replace (1 / 2) with (/ 2) by lra. rewrite ln_Rinv by lra. lra. }
    assert (E : ent_piece (ConstSeg 0 1 (1 / 2)) = ln 2 / 2).
    { cbn [ent_piece sa sb]. rewrite <- Q_RInt_gen by (simpl; lra). change (Q (fun _ => eta (1 / 2)) 0 1 = ln 2 / 2). rewrite Q_const, P. lra. }
    rewrite E. cbn [ent_piece]. rewrite P. lra.
  - intros a m [K|[K|[]]]; [discriminate|]. injection K as <- <-. lra.
Qed.
Example discrete_ex : exists h, entropy (1/1000) 7 d01 = Ok h /\ 0 <= h <= ln (INR 2).
Proof.
  apply (entropy_discrete_bounds_main (1/1000) 7 d01); try lra.
  - split; [|split]; repeat constructor; simpl; try lra; try (intros H; injection H; lra). replace (0 - 1) with (- (1)) by ring. rewrite Rabs_Ropp, Rabs_R1. lra.
  - intros s [<-|[<-|[]]]; reflexivity.
  - intros x m [K|[K|[]]]; injection K as <- <-; lra.
  - unfold total_mass, d01. cbn [map mass]. rewrite !sumR_cons. simpl (sumR []). lra.
Qed.
Example interval_ex : exists h, entropy (1/1000) 7 u01 = Ok h /\ h <= ln (2 - 0).
Proof.
  apply (entropy_interval_bound_main (1/1000) 7 u01 0 2); try lra; try (apply const_good; lra); try (apply (const_prob 0 1 1); lra).
  - intros s [<-|[]]; reflexivity.
  - intros s [<-|[]]; simpl; lra.
  - intros s [<-|[]]. cbn [sa sb]. apply (integrable_ext (fun _ => eta 1)); [auto|apply integrable_const; lra].
Qed.
Example l2_ex : L2_distance (1/1000) u01 u02 = L2_distance (1/1000) u02 u01 /\ L2_distance (1/1000) u01 u01 = Ok 0.
Proof. apply l2_symmetric_main; try lra; try (apply const_good; lra). intros a m b k [K|[]]. discriminate. Qed.
