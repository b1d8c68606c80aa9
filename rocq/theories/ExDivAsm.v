(** Concrete instances for the theorems in PropDivAsm.v. *)
From Coq Require Import Reals Lra List Bool Sorted.
From Coquelicot Require Import Coquelicot.
From Verif Require Import Base Seg Piecewise PiecewiseSpec Integral IntegralFacts IntParts IntPartsFacts SegInt SegIntSpec Indep IndepSpec AtomFacts AtomFacts3 QuotFacts DivAsm DivAsmSpec PropDivAsm ExProd.
Import List ListNotations.
Open Scope R_scope.

(** X uniform on (1,2), Y uniform on (-1,1): the quotient has two infinite tails *)
Definition exDX : list segment := [Seg 1 2 (fun _ => 1)].
Definition exDY : list segment := [Seg (-1) 1 (fun _ => 1/2)].
Lemma exDX_cut (p : R) : zero_cut exDX p -> p = 1 \/ p = 2.
Proof.
  intros [(s & [<-|[]] & E)|(K & s & [<-|[]] & A & B)]; simpl in *.
  - destruct E as [E|E]; injection E; auto.
  - exfalso. destruct K as [K|[K|[K|(e & (s & [<-|[]] & E) & K)]]]; injection K; intros K1; try lra. simpl in E. destruct E as [E|E]; injection E; intros E1; lra.
Qed.
Lemma exDY_cut (p : R) : zero_cut exDY p -> p = -1 \/ p = -1/2 \/ p = 0 \/ p = 1/2 \/ p = 1.
Proof.
  intros [(s & [<-|[]] & E)|(K & s & [<-|[]] & A & B)]; simpl in *.
  - destruct E as [E|E]; injection E; auto.
  - destruct K as [K|[K|[K|(e & (s & [<-|[]] & E) & K)]]]; injection K; intros K1; try lra. simpl in E. destruct E as [E|E]; injection E; intros E1; lra.
Qed.
Lemma exD_quot u : end_quot exDX exDY u -> u = 1 \/ u = 2 \/ u = 4 \/ u = -1 \/ u = -2 \/ u = -4.
Proof.
  intros (p & q & Hp & Hq & Z & ->). apply exDX_cut in Hp. apply exDY_cut in Hq.
  destruct Hp as [-> | ->], Hq as [->|[->|[->|[->| ->]]]]; try (exfalso; lra); lra.
Qed.
Lemma exD_sep : quots_sep (1/1000) exDX exDY.
Proof.
  assert (V : forall u, end_quot exDX exDY u \/ u = 0 -> u = 0 \/ u = 1 \/ u = 2 \/ u = 4 \/ u = -1 \/ u = -2 \/ u = -4).
  { intros u [K|K]; auto. right. apply exD_quot; auto. }
  intros u v Hu Hv L. apply V in Hu. apply V in Hv.
  assert (M : 1 <= Rmax 1 (Rabs v) <= 4). { split; [apply Rmax_l|]. apply Rmax_lub; [lra|]. apply Rabs_le. lra. }
  assert (D : 1 <= v - u) by lra. apply (Rlt_le_trans _ (1 / 4)); [lra|].
  unfold Rdiv. apply Rmult_le_compat; try lra. apply Rinv_le_contravar; lra.
Qed.
Lemma exD_quotient : exists q, convdiv (1/1000) (1/1000) true exDX exDY = Ok q /\ ordered (segs q) /\
  quot_density exDX exDY 3 (call_vec (segs q) 3) /\ quot_density exDX exDY (-1/3) (call_vec (segs q) (-1/3)).
Proof.
  assert (HI : forall x, x <> 0 -> quot_integrable exDX exDY x).
  { intros x X si sj a b [<-|[]] [<-|[]] D1 D2 L. cbn [sa sb sf]. split; intros IN.
    - destruct (sub_window a b (-1) 1 L) as (A & B); [intros t (T1 & T2); destruct (IN t T1 T2) as (_ & _ & K1 & K2); simpl in *; lra|].
      apply (integrable_sub _ (-1) 1); auto. apply integrable_scal. apply cont_integrable; [lra|]. intros t T. apply continuous_Rabs.
    - destruct (sub_window a b 1 2 L) as (A & B); [intros t (T1 & T2); destruct (IN t T1 T2) as (K1 & K2 & _); simpl in *; lra|].
      apply (integrable_sub _ 1 2); auto. apply (integrable_ext (fun t => 1 * (1/2) * (/ x * / x) * Rabs t)); [intros; field; auto|].
      apply integrable_scal. apply cont_integrable; [lra|]. intros t T. apply continuous_Rabs. }
  destruct (quot_exact (1/1000) (1/1000) true exDX exDY) as (q & Q1 & Q2 & Q3 & Q4 & Q5 & Q6); try lra; try discriminate; auto.
  - repeat constructor.
  - repeat constructor.
  - repeat constructor; simpl; lra.
  - repeat constructor; simpl; lra.
  - repeat constructor.
  - apply exD_sep.
  - exists q. splits; auto; apply Q5; try lra; try (apply HI; lra); intros K; apply exD_quot in K; lra.
Qed.
(** X is 1 or 2, Y is 1 or -2: P(X/Y = -1) = 1/4 *)
Lemma exD_discrete : exists q, convdiv (1/1000) (1/1000) false [DiracSeg 1 (1/2); DiracSeg 2 (1/2)] [DiracSeg (-2) (1/2); DiracSeg 1 (1/2)] = Ok q /\ pm (segs q) (-1) = 1/4 /\ pm (segs q) 0 = 0.
Proof.
  set (f := [DiracSeg 1 (1/2); DiracSeg 2 (1/2)]). set (g := [DiracSeg (-2) (1/2); DiracSeg 1 (1/2)]).
  assert (V : forall u, end_quot f g u \/ u = 0 -> u = 0 \/ u = 1 \/ u = 2 \/ u = -1 \/ u = -1/2).
  { intros u [(p & r & Hp & Hr & Z & ->)|K]; auto.
    assert (P : p = 1 \/ p = 2). { destruct Hp as [(s & [<-|[<-|[]]] & E)|(_ & s & [<-|[<-|[]]] & A & B)]; simpl in *; try lra; destruct E as [E|E]; injection E; auto. }
    assert (K : r = -2 \/ r = 1). { destruct Hr as [(s & [<-|[<-|[]]] & E)|(_ & s & [<-|[<-|[]]] & A & B)]; simpl in *; try lra; destruct E as [E|E]; injection E; auto. }
    destruct P as [-> | ->], K as [-> | ->]; lra. }
  destruct (quot_discrete_exact (1/1000) (1/1000) false f g) as (q & Q1 & Q2 & Q3 & Q4 & _); try lra; try discriminate; auto.
  - repeat constructor.
  - repeat constructor.
  - unfold f, ordered. repeat first [apply SSorted_cons | apply SSorted_nil | apply Forall_cons | apply Forall_nil]; unfold before; simpl; split; try lra; intros HH; injection HH; lra.
  - unfold g, ordered. repeat first [apply SSorted_cons | apply SSorted_nil | apply Forall_cons | apply Forall_nil]; unfold before; simpl; split; try lra; intros HH; injection HH; lra.
  - unfold f, dirac_sep. repeat constructor. rewrite Rabs_left; lra.
  - unfold g, dirac_sep. repeat constructor. rewrite Rabs_left; lra.
  - simpl. lra.
  - intros u v Hu Hv L. apply V in Hu, Hv.
    assert (M : 1 <= Rmax 1 (Rabs v) <= 2). { split; [apply Rmax_l|]. apply Rmax_lub; [lra|]. apply Rabs_le. lra. }
    assert (D : 1 / 2 <= v - u) by lra. apply (Rlt_le_trans _ (1 / 2 * / 2)); [lra|].
    unfold Rdiv. apply Rmult_le_compat; try lra. apply Rinv_le_contravar; lra.
  - intros x m y k x' m' y' k' Hx Hy Hx' Hy'. assert (E : forall x m y k, In (DiracSeg x m) f -> In (DiracSeg y k) g -> x / y = 1 \/ x / y = 2 \/ x / y = -1 \/ x / y = -1/2).
    { clear. intros x m y k [H|[H|[]]] [K|[K|[]]]; injection H as <- <-; injection K as <- <-; lra. }
    specialize (E x m y k Hx Hy) as E1. specialize (E x' m' y' k' Hx' Hy') as E2.
    destruct (Req_dec (x / y) (x' / y')); auto. right. destruct (Rle_dec (x / y) (x' / y')); [rewrite Rabs_left|rewrite Rabs_right]; lra.
  - exists q. splits; auto; rewrite Q4; unfold pm_op, pair_sum, f, g; cbn [map sumR fold_right]; repeat (destruct (Req_EM_T _ _); try lra).
Qed.
