(** Concrete instances for functions of two dependent variables. *)
From Coq Require Import Reals Lra Psatz List Bool Sorted.
From Coquelicot Require Import Coquelicot.
From Verif Require Import Base Seg Piecewise PiecewiseSpec Integral IntParts IntegralFacts IntPartsFacts Indep IndepSpec IndepAsm TwoVars TwoVarsSpec TwoVarsFacts TwoVarsFacts3 PropTwoVars.
Import List ListNotations.
Open Scope R_scope.

Lemma window_finite L U (a b : R) : Rbar_lt L U -> (forall t : R, Rbar_lt L t /\ Rbar_lt t U -> a < t < b) -> exists l u : R, L = l /\ U = u /\ l < u.
Proof.
  intros LU W. destruct (lt_mid L U LU) as (t & T1 & T2).
  assert (FL : exists l : R, L = l).
  { destruct L as [l| |]; [eauto|destruct LU|]. exfalso. assert (K : Rbar_lt m_infty (Rmin t a) /\ Rbar_lt (Rmin t a) U).
    { split; [exact I|]. apply (Rbar_le_lt_trans _ t); auto. simpl. apply Rmin_l. }
    apply W in K. pose proof (Rmin_r t a). lra. }
  assert (FU : exists u : R, U = u).
  { destruct U as [u| |]; [eauto| |destruct L; destruct LU]. exfalso. assert (K : Rbar_lt L (Rmax t b) /\ Rbar_lt (Rmax t b) p_infty).
    { split; [|exact I]. apply (Rbar_lt_le_trans _ t); auto. simpl. apply Rmax_l. }
    apply W in K. pose proof (Rmax_r t b). lra. }
  destruct FL as (l & ->), FU as (u & ->). exists l, u. auto.
Qed.

(** The joint density x + y on the unit square: dependent variables, both with the density x + 1/2.  The density of the sum is z^2 on
    (0,1). *)
Definition exF : list segment := [Seg 0 1 (fun x => x + 1/2)].
Lemma exF_support (t : R) : on_support exF t = if Rlt_dec 0 t then (if Rlt_dec t 1 then 1 else 0) else 0.
Proof.
  unfold on_support, exF. cbn [existsb isDirac sa sb]. destruct (Rbar_lt_dec 0 t) as [A|A], (Rlt_dec 0 t) as [B|B]; simpl in A; try lra; auto.
  destruct (Rbar_lt_dec t 1) as [C|C], (Rlt_dec t 1) as [D|D]; simpl in C; try lra; auto.
Qed.
Example sum_dependent : exists q, convmodel op_add sum_alongx sum_cut (fun t z => z - t) (fun _ _ => 1) Rplus (1/10) exF exF = Ok q /\
  (forall z : R, 0 < z < 1 -> call_vec (segs q) z = z * z) /\ (forall z : R, 1 < z < 2 -> call_vec (segs q) z = z * (2 - z)).
Proof.
  assert (E : exists x : R, is_end exF x) by (exists 0, (Seg 0 1 (fun x => x + 1/2)); simpl; auto).
  destruct (two_vars_sum_exact Rplus (1/10) exF exF) as (q & A & _ & _ & D); auto.
  - repeat constructor.
  - repeat constructor.
  - repeat constructor; simpl; lra.
  - repeat constructor; simpl; lra.
  - intros s [<-|[]]; reflexivity.
  - intros s [<-|[]]; reflexivity.
  - assert (D' : forall z : R, z <> 0 -> z <> 1 -> z <> 2 -> curve_density exF exF Rplus (fun t z => z - t) (fun _ _ => 1) z (call_vec (segs q) z)).
    { intros z N0 N1 N2. apply D.
      - intros (x & y & (s & [<-|[]] & Hx) & (s' & [<-|[]] & Hy) & E'). simpl in Hx, Hy. destruct Hx as [-> | ->], Hy as [-> | ->]; simpl in E'; injection E'; lra.
      - intros si sj [<-|[]] [<-|[]] L U LU W. destruct (window_finite L U 0 1 LU) as (l & u & -> & -> & K).
        { intros t T. apply W in T. destruct T as (T & _). exact T. }
        apply (integrable_ext (fun _ => z)); [|apply integrable_const; auto]. intros t _. rewrite Rabs_R1. ring. }
    exists q. splits; auto; intros z Z; specialize (D' z ltac:(lra) ltac:(lra) ltac:(lra)); apply (has_int_unique _ _ _ _ D').
    + replace (z * z) with (Q (fun _ => z) 0 z) by (rewrite Q_const; ring). apply (has_int_window _ (fun _ => z)); simpl; auto.
      * apply integrable_const. lra.
      * intros t (T1 & T2). simpl in T1, T2. rewrite !exF_support. destruct (Rlt_dec 0 t), (Rlt_dec t 1), (Rlt_dec 0 (z - t)), (Rlt_dec (z - t) 1); try lra. rewrite Rabs_R1. ring.
      * intros t N. simpl in N. rewrite !exF_support. destruct (Rlt_dec 0 t), (Rlt_dec t 1), (Rlt_dec 0 (z - t)), (Rlt_dec (z - t) 1); lra.
    + replace (z * (2 - z)) with (Q (fun _ => z) (z - 1) 1) by (rewrite Q_const; ring). apply (has_int_window _ (fun _ => z)); simpl; auto.
      * apply integrable_const. lra.
      * intros t (T1 & T2). simpl in T1, T2. rewrite !exF_support. destruct (Rlt_dec 0 t), (Rlt_dec t 1), (Rlt_dec 0 (z - t)), (Rlt_dec (z - t) 1); try lra. rewrite Rabs_R1. ring.
      * intros t N. simpl in N. rewrite !exF_support. destruct (Rlt_dec 0 t), (Rlt_dec t 1), (Rlt_dec 0 (z - t)), (Rlt_dec (z - t) 1); lra.
Qed.

(** The product of variables on [1,2] x [-2,-1] with the joint density 2x/3: the density at z in (-2,-1) is 2/3 (-z - 1). *)
Definition exP : list segment := [ConstSeg 1 2 1].
Definition exN : list segment := [ConstSeg (-2) (-1) 1].
Example product_dependent : exists q, convmodel op_mul mul_alongx mul_cut (fun t z => z / t) (fun t _ => / t) (fun x y => 2 / 3 * x) (1/10) exP exN = Ok q /\
  (forall z : R, -2 < z < -1 -> call_vec (segs q) z = 2 / 3 * (- z - 1)).
Proof.
  destruct (two_vars_product_exact (fun x y => 2 / 3 * x) (1/10) exP exN) as (q & A & _ & _ & D); auto.
  - repeat constructor.
  - repeat constructor.
  - repeat constructor; simpl; lra.
  - repeat constructor; simpl; lra.
  - intros s [<-|[]]; reflexivity.
  - intros s [<-|[]]; reflexivity.
  - intros s [[<-|[]]|[<-|[]]]; [left|right]; simpl; lra.
  - exists 1, (ConstSeg 1 2 1). simpl; auto.
  - exists (-1), (ConstSeg (-2) (-1) 1). simpl; auto.
  - exists q. split; auto. intros z Z. specialize (D z).
    assert (D' : curve_density exP exN (fun x y => 2 / 3 * x) (fun t z => z / t) (fun t _ => / t) z (call_vec (segs q) z)).
    { apply D.
      - intros (x & y & (s & [<-|[]] & Hx) & (s' & [<-|[]] & Hy) & E'). simpl in Hx, Hy. destruct Hx as [-> | ->], Hy as [-> | ->]; simpl in E'; injection E'; lra.
      - intros si sj [<-|[]] [<-|[]] L U LU W.
        assert (IN : forall t : R, Rbar_lt L t /\ Rbar_lt t U -> 1 < t < 2). { intros t T. apply W in T. destruct T as (T & _). exact T. }
        destruct (window_finite L U 1 2 LU IN) as (l & u & -> & -> & K).
        apply (integrable_ext (fun _ => 2 / 3)); [|apply integrable_const; auto]. intros t T. destruct (IN t T). rewrite Rabs_inv, Rabs_pos_eq by lra. field. lra. }
    apply (has_int_unique _ _ _ _ D').
    assert (S1 : forall t : R, on_support exP t = if Rlt_dec 1 t then (if Rlt_dec t 2 then 1 else 0) else 0).
    { intros t. unfold on_support, exP. cbn [existsb isDirac sa sb]. destruct (Rbar_lt_dec 1 t) as [B|B], (Rlt_dec 1 t) as [B'|B']; simpl in B; try lra; auto.
      destruct (Rbar_lt_dec t 2) as [C|C], (Rlt_dec t 2) as [C'|C']; simpl in C; try lra; auto. }
    assert (S2 : forall t : R, on_support exN t = if Rlt_dec (-2) t then (if Rlt_dec t (-1) then 1 else 0) else 0).
    { intros t. unfold on_support, exN. cbn [existsb isDirac sa sb]. destruct (Rbar_lt_dec (-2) t) as [B|B], (Rlt_dec (-2) t) as [B'|B']; simpl in B; try lra; auto.
      destruct (Rbar_lt_dec t (-1)) as [C|C], (Rlt_dec t (-1)) as [C'|C']; simpl in C; try lra; auto. }
    replace (2 / 3 * (- z - 1)) with (Q (fun _ => 2 / 3) 1 (- z)) by (rewrite Q_const; ring). apply (has_int_window _ (fun _ => 2 / 3)); simpl; auto.
    + apply integrable_const. lra.
    + intros t (T1 & T2). simpl in T1, T2. rewrite S1, S2. assert (z / t = - (- z / t)) by (field; lra).
      assert (1 < - z / t) by (apply (Rmult_lt_reg_r t); [lra|]; field_simplify; lra).
      assert (- z / t < 2) by (apply (Rmult_lt_reg_r t); [lra|]; field_simplify; lra).
      destruct (Rlt_dec 1 t), (Rlt_dec t 2), (Rlt_dec (-2) (z / t)), (Rlt_dec (z / t) (-1)); try lra. rewrite Rabs_inv, Rabs_pos_eq by lra. field. lra.
    + intros t N. simpl in N. rewrite S1, S2. destruct (Rlt_dec 1 t) as [T1|]; [|ring]. destruct (Rlt_dec t 2) as [T2|]; [|ring].
      destruct (Rlt_dec (z / t) (-1)) as [T3|T3]; [|destruct (Rlt_dec (-2) (z / t)); ring]. exfalso.
      assert (z / t * t < -1 * t) by (apply Rmult_lt_compat_r; lra). replace (z / t * t) with z in * by (field; lra). lra.
Qed.
