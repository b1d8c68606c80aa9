(** Concrete instances for the theorems in PropConvol.v. *)
From Coq Require Import Reals Lra List Bool Sorted.
From Coquelicot Require Import Coquelicot.
From Verif Require Import Base Seg Piecewise PiecewiseSpec Integral IntegralFacts IntParts IntPartsFacts SegInt SegIntSpec Indep IndepSpec IndepAsm ConvolFacts PropConvol ExAtom.
Import List ListNotations.
Open Scope R_scope.

(** 0 with probability 1/2, otherwise uniform on (0,1); and a uniform variable *)
Definition exU : list segment := [Seg 0 1 (fun _ => 1)].

Lemma bounded_open (a b : Rbar) (l u : R) : Rbar_lt a b ->
  (forall t : R, Rbar_lt a t -> Rbar_lt t b -> l < t < u) -> exists a' b' : R, a = a' /\ b = b' /\ a' < b'.
Proof.
  intros L H. destruct a as [a| |], b as [b| |]; simpl in L; try tauto.
  - eauto.
  - exfalso. pose proof (H (Rmax a u + 1)) as K. pose proof (Rmax_l a u). pose proof (Rmax_r a u). simpl in K. lra.
  - exfalso. pose proof (H (Rmin b l - 1)) as K. pose proof (Rmin_l b l). pose proof (Rmin_r b l). simpl in K. lra.
  - exfalso. pose proof (H (u + 1)) as K. simpl in K. lra.
Qed.
Lemma exMU_int x : sums_integrable exM exU x.
Proof.
  intros si sj a b [<-|[<-|[]]] [<-|[]] D1 D2 L H; try discriminate.
  destruct (bounded_open a b 0 1 L) as (a' & b' & -> & -> & L').
  - intros t T1 T2. pose proof (proj1 (H t) (conj T1 T2)) as K. simpl in K. lra.
  - simpl. apply integrable_const. auto.
Qed.
Lemma exMU_ends r : end_sum exM exU r -> r = 0 \/ r = 1 \/ r = 2.
Proof.
  intros (p & q & (s & Hs & Hp) & (t & Ht & Hq) & ->). simpl in Hs, Ht.
  destruct Hs as [<-|[<-|[]]]; destruct Ht as [<-|[]]; simpl in Hp, Hq;
  destruct Hp as [Hp|Hp]; destruct Hq as [Hq|Hq]; injection Hp as ->; injection Hq as ->; lra.
Qed.

Lemma exMU_conv : exists q, conv (1/10) (1/10) (1/10) exM exU = Ok q /\ call_vec (segs q) (1/2) = 3/4.
Proof.
  destruct (conv_exact (1/10) (1/10) (1/10) exM exU) as (q & E & _ & _ & _ & V & _); try lra.
  - repeat constructor; simpl; lra.
  - repeat constructor; simpl; lra.
  - simpl. auto.
  - simpl. auto.
  - exists 0, (DiracSeg 0 (1/2)). simpl. auto.
  - exists 0, (Seg 0 1 (fun _ => 1)). simpl. auto.
  - intros r r' H H'. apply exMU_ends in H, H'. unfold Rabs. destruct (Rcase_abs _); lra.
  - intros x m y k x' m' y' k' _ [H|[]]; discriminate.
  - exists q. split; auto. specialize (V (1/2)). destruct V as (I & HI & ->).
    + intros H. apply exMU_ends in H. lra.
    + apply exMU_int.
    + assert (K : I = 1/4).
      { apply (has_int_unique _ _ _ _ HI). replace (1/4) with (Q (fun _ => 1/2) 0 (1/2)) by (rewrite Q_const; lra).
        apply has_int_window; simpl; auto.
        - apply integrable_const; lra.
        - intros t (A & B). simpl in A, B. unfold dens, exM, exU. cbn [map isDirac sa sb sf sumR].
          repeat match goal with |- context [Rbar_lt_dec ?a ?b] => destruct (Rbar_lt_dec a b) end; simpl in *; lra.
        - intros t A. unfold dens, exM, exU. cbn [map isDirac sa sb sf sumR].
          repeat match goal with |- context [Rbar_lt_dec ?a ?b] => destruct (Rbar_lt_dec a b) end; simpl in *; lra. }
      rewrite K. unfold atom_sum, dens, exM, exU. cbn [map isDirac sa sb sf sumR].
      repeat match goal with |- context [Rbar_lt_dec ?a ?b] => destruct (Rbar_lt_dec a b) end; simpl in *; lra.
Qed.
(** the point 1/4 selects the right pieces for 1/2 *)
Lemma exMU_cell : same_sum_cell exM exU (1/4) (1/2).
Proof.
  intros p q Hp Hq. assert (E : end_sum exM exU (p + q)) by (exists p, q; auto). apply exMU_ends in E. unfold same_side. lra.
Qed.
