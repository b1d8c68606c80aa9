(** Concrete instances for the theorems in PropProd.v. *)
From Coq Require Import Reals Lra List Bool Sorted.
From Coquelicot Require Import Coquelicot.
From Verif Require Import Base Seg Piecewise PiecewiseSpec Integral IntegralFacts IntParts IntPartsFacts SegInt SegIntSpec Indep IndepSpec ConvolFacts QuotFacts PropProd.
Import List ListNotations.
Open Scope R_scope.

(** X is uniform on (1,2) with probability 1/2 and 3 otherwise; Y is uniform on (-4,-1) *)
Definition exPX : list segment := [Seg 1 2 (fun _ => 1/2); DiracSeg 3 (1/2)].
Definition exPY : list segment := [Seg (-4) (-1) (fun _ => 1/3)].

Lemma exP_hyp : Forall wf_seg exPX /\ Forall wf_seg exPY /\ Forall one_sided exPX /\ Forall one_sided exPY /\ getDiracs exPY = [].
Proof.
  unfold exPX, exPY. splits; auto; repeat constructor; simpl; try lra; unfold one_sided; simpl; try (left; lra); right; lra.
Qed.
Lemma exP_pairs : exists l, findSegList exPX exPY (-7/2) op_mul = Ok l /\ In (DiracSeg 3 (1/2), Seg (-4) (-1) (fun _ => 1/3)) l /\
  In (Seg 1 2 (fun _ => 1/2), Seg (-4) (-1) (fun _ => 1/3)) l.
Proof.
  destruct exP_hyp as (W1 & W2 & O1 & O2 & _).
  destruct (prod_pairs_exact exPX exPY (-7/2) ltac:(lra) W1 W2 O1 O2) as (l & L & H). exists l. splits; auto.
  - apply H; unfold exPX, exPY; simpl; auto. exists 3, (-7/6). unfold takes. simpl. splits; auto; lra.
  - apply H; unfold exPX, exPY; simpl; auto. exists (7/4), (-2). unfold takes. simpl. splits; auto; lra.
Qed.
Lemma exP_quot_pairs : In (Seg 1 2 (fun _ => 1/2), Seg (-4) (-1) (fun _ => 1/3)) (findSegListDiv exPX exPY (-1)).
Proof.
  destruct exP_hyp as (W1 & W2 & _). apply (quot_pairs_exact exPX exPY (-1) ltac:(lra) W1 W2); unfold exPX, exPY; simpl; auto.
  exists (3/2), (-3/2). unfold takes. simpl. splits; auto; lra.
Qed.
Lemma sub_window a b (c d : R) : Rbar_lt a b -> (forall t : R, Rbar_lt a t /\ Rbar_lt t b -> c < t < d) -> Rbar_le c a /\ Rbar_le b d.
Proof.
  intros AB H. split; apply Rbar_not_lt; intros K.
  - destruct (common a b a c) as (t & T1 & T2 & T3 & T4); auto. simpl in T4. destruct (H t); auto. lra.
  - destruct (common a b d b) as (t & T1 & T2 & T3 & T4); auto. simpl in T3. destruct (H t); auto. lra.
Qed.
Lemma cont_integrable h (c d : R) : c < d -> (forall t, c <= t <= d -> continuous h t) -> integrable h c d.
Proof.
  intros CD H. apply proper_int; auto. apply (ex_RInt_continuous (V := R_CompleteNormedModule)).
  intros t. rewrite Rmin_left, Rmax_right by lra. auto.
Qed.
Lemma end_X p : is_end exPX p -> p = 1 \/ p = 2 \/ p = 3.
Proof. intros (s & [<-|[<-|[]]] & E); simpl in E; tauto. Qed.
Lemma end_Y p : is_end exPY p -> p = -4 \/ p = -1.
Proof. intros (s & [<-|[]] & E); simpl in E; tauto. Qed.
Lemma exP_prod : exists v, rbind (findSegList exPX exPY (-13/4) op_mul) (fun l => convprod_at_point l (-7/2)) = Ok v /\ prod_density exPX exPY (-7/2) v.
Proof.
  destruct exP_hyp as (W1 & W2 & O1 & O2 & _). apply prod_point_exact; auto; [lra| |].
  - split; [lra|]. intros p q Hp Hq. apply end_X in Hp. apply end_Y in Hq. unfold same_side.
    destruct Hp as [E|[E|E]]; injection E as ->; destruct Hq as [E'|E']; injection E' as ->; lra.
  - intros si sj a b Hi Hj Di Dj AB IN. destruct Hi as [<-|[<-|[]]]; try discriminate. destruct Hj as [<-|[]]. cbn [sa sb sf] in *.
    destruct (sub_window a b 1 2 AB) as (A & B); [intros t T; apply IN in T; simpl in T; lra|].
    apply (integrable_sub _ 1 2); auto. apply integrable_scal. apply cont_integrable; [lra|]. intros t T.
    apply (continuous_comp Rabs Rinv); [apply continuous_Rabs|]. apply continuous_Rinv. rewrite Rabs_right; lra.
Qed.
Lemma exP_quot : exists v v', convdiv_at_point (findSegListDiv exPX exPY (-3/5)) (-7/10) = Ok v /\ quot_density exPX exPY (-7/10) v /\
  convdiv2_at_point (findSegListDiv exPX exPY (-3/5)) (-7/10) = Ok v' /\ quot_density exPX exPY (-7/10) v'.
Proof.
  destruct exP_hyp as (W1 & W2 & O1 & O2 & D).
  destruct (quot_point_exact exPX exPY (-3/5) (-7/10)) as (H1 & H2); auto; [lra| |].
  - split; [lra|]. intros p q Hp Hq Q. apply end_X in Hp. apply end_Y in Hq. unfold same_side.
    destruct Hp as [E|[E|E]]; injection E as ->; destruct Hq as [E'|E']; injection E' as ->; lra.
  - destruct H1 as (v & V1 & V2).
    { intros si sj a b Hi Hj Di Dj AB IN. destruct Hi as [<-|[<-|[]]]; try discriminate. destruct Hj as [<-|[]]. cbn [sa sb sf] in *.
      destruct (sub_window a b (-4) (-1) AB) as (A & B); [intros t T; apply IN in T; simpl in T; lra|].
      apply (integrable_sub _ (-4) (-1)); auto. apply integrable_scal. apply cont_integrable; [lra|]. intros t T. apply continuous_Rabs. }
    destruct H2 as (v' & V3 & V4).
    { intros si sj a b Hi Hj Di Dj AB IN. destruct Hi as [<-|[<-|[]]]; try discriminate. destruct Hj as [<-|[]]. cbn [sa sb sf] in *.
      destruct (sub_window a b 1 2 AB) as (A & B); [intros t T; apply IN in T; simpl in T; lra|].
      apply (integrable_sub _ 1 2); auto. apply integrable_scal. apply cont_integrable; [lra|]. intros t T.
      apply (continuous_scal_l (V := R_NormedModule) (fun t => Rabs t / (-7/10)) (/ (-7/10))).
      apply (continuous_scal_l (V := R_NormedModule) Rabs (/ (-7/10))). apply continuous_Rabs. }
    exists v, v'. auto.
Qed.
Lemma exP_atom : wf_seg (Seg 0 4 (fun t => t / 8)) /\ takes (Seg 0 4 (fun t => t / 8)) (3/2 * 2).
Proof. unfold takes. simpl. lra. Qed.
