(** Concrete instances for the theorems on the inverse of a distribution function: the uniform law on [2,6] is sampled with the
    right law; a law with a thin last piece loses it; ten thousand equal pieces have no inverse. *)
From Coq Require Import Reals Lra Lia List Bool Arith Sorted.
From Coquelicot Require Import Coquelicot.
From Verif Require Import Base Seg Piecewise PiecewiseSpec Integral IntegralFacts SegInt SegIntSpec SegIntFacts CumintFacts CumintFacts2 Quant QuantSpec QuantFacts QuantFacts2
  QuantMain Inv InvSpec PropQuant PropInv ExSegInt ExQuant.
Import List ListNotations.
Open Scope R_scope.

(** the levels of a bounded density without atoms are the values of its distribution function at the ends *)
Lemma level_value l v : density l -> Forall (fun s => isDirac s = false) l -> level l v ->
  v = cdf_spec l 0 \/ exists (s : segment) (b : R), In s l /\ (sa s = b \/ sb s = b) /\ v = cdf_spec l b.
Proof.
  intros D NA [->|(s & b & Is & Hb & [->|L])]; [auto|right; exists s, b; auto|right; exists s, b]. split; auto. split; auto.
  destruct D as (_ & W & HI & _). rewrite cF_spec by auto.
  pose proof (cF_left_lim l W HI b) as K. rewrite InvFacts3.sum_no_atoms, Rminus_0_r in K by auto.
  eapply (filterlim_locally_unique (F := at_left b) (cF l)); [|exact K].
  eapply filterlim_ext; [|exact L]. intros x. apply cF_spec; auto.
Qed.

Lemma exU_cdf x : cdf_spec exU x = if Rle_dec x 2 then 0 else if Rle_dec x 6 then (x - 2) / 4 else 1.
Proof.
  destruct exU_ok as (D & _ & _). rewrite cF_spec by apply D. unfold cF, exU. cbn [map sumR fold_right cpart].
  change (sf (ConstSeg 2 6 (1/4))) with (fun _ : R => 1/4). cbn [sa].
  destruct (Rle_dec x 2) as [A|A]; [rewrite clamp_low; [cbn [sa]; rewrite Q_const; lra|simpl; lra..]|].
  destruct (Rle_dec x 6) as [B|B]; [rewrite clamp_id by (simpl; lra); rewrite Q_const; lra|].
  unfold SegIntFacts.clamp. cbn [sa sb]. destruct (bltP x 2) as [C|C]; [simpl in C; lra|]. destruct (bltP 6 x) as [C2|C2]; [|simpl in C2; lra]. rewrite Q_const. lra.
Qed.
Lemma exU_levels v : level exU v -> v = 1 \/ v < 1 - 1 / 10000.
Proof.
  destruct exU_ok as (D & _ & _). intros L. apply level_value in L; [|auto|repeat constructor].
  destruct L as [->|(s & b & [<-|[]] & Hb & ->)]; rewrite exU_cdf.
  - right. destruct (Rle_dec 0 2); lra.
  - simpl in Hb. destruct Hb as [Hb|Hb]; injection Hb as <-.
    + right. destruct (Rle_dec 2 2); lra.
    + left. destruct (Rle_dec 6 2); [lra|]. destruct (Rle_dec 6 6); lra.
Qed.
(** 2 + 4y is the inverse *)
Lemma exU_inverts : inverts lim_inf top_root (1/1000) exU (fun y => 2 + 4 * y).
Proof.
  destruct exU_ok as (D & NN & TM). intros y Y.
  destruct (quantile_brackets (1/1000) exU lim_inf top_root y D NN TM top_root_exact) as (N & H); auto.
  { intros q E. apply (lim_inf_ok (1/1000) exU); auto. }
  exists N. intros fuel Hf. destruct (H fuel Hf) as (x & X1 & X2 & X3). rewrite X1. do 3 f_equal. rewrite exU_cdf in X3.
  destruct (Rle_dec x 2) as [A|A]; [lra|]. destruct (Rle_dec x 6) as [B|B].
  - apply Rle_antisym; [|lra]. apply Rnot_lt_le. intros C. specialize (X2 (1 + 2 * y + x / 2) ltac:(lra)). rewrite exU_cdf in X2.
    destruct (Rle_dec (1 + 2 * y + x / 2) 2); [lra|]. destruct (Rle_dec (1 + 2 * y + x / 2) 6); lra.
  - exfalso. specialize (X2 6 ltac:(lra)). rewrite exU_cdf in X2. destruct (Rle_dec 6 2); [lra|]. destruct (Rle_dec 6 6); lra.
Qed.
Lemma exU_sampled : exists p, invcdf (1/1000) lim_inf (fun y => 2 + 4 * y) exU = Ok p /\ is_RInt (below (call_vec (segs p)) 3) 0 1 (1/4) /\
  call_scalar (segs p) (1/2) = Ok (2 + 4 * (1/2)).
Proof.
  destruct exU_ok as (D & NN & TM). assert (EL : forall c, cumint (1/1000) exU = Ok c -> end_limits lim_inf (segs c)) by (intros q E; apply (lim_inf_ok (1/1000) exU); auto).
  destruct (invcdf_law (1/1000) exU lim_inf top_root _ D NN TM EL top_root_exact exU_inverts exU_levels) as (p & P & L).
  destruct (invcdf_values (1/1000) exU lim_inf (fun y => 2 + 4 * y) D NN TM EL exU_levels) as (p' & P' & V). rewrite P in P'. injection P' as <-.
  exists p. split; auto. split.
  - evar_last; [apply (L 3)|]. rewrite exU_cdf. destruct (Rle_dec 3 2); [lra|]. destruct (Rle_dec 3 6); [|lra]. simpl. lra.
  - apply (V (1/2)). lra.
Qed.

(** a last piece of mass 1/20000: the samples for the highest levels are 0, outside the support [1,3] *)
Definition exThin : list segment := [ConstSeg 1 2 (19999/20000); ConstSeg 2 3 (1/20000)].
Lemma exThin_ok : density exThin /\ Forall nonneg_piece exThin /\ total_mass exThin = 1.
Proof.
  assert (W : Forall wf_seg exThin) by (repeat (apply Forall_cons; [simpl; lra|]); apply Forall_nil).
  split; [|split].
  - unfold density. split; [discriminate|]. split; [auto|]. split; [|split].
    + apply Forall_cons; [apply (integrable_const 1 2); lra|]. apply Forall_cons; [apply (integrable_const 2 3); lra|apply Forall_nil].
    + constructor; [repeat constructor|]. apply Forall_cons; [|apply Forall_nil]. split; [simpl; lra|]. cbn [sa sb]. intros K. injection K. lra.
    + simpl. auto.
  - repeat (apply Forall_cons; [simpl; intros; lra|]). apply Forall_nil.
  - rewrite (cmasses_spec exThin W). unfold cmasses, exThin. cbn [map sumR fold_right cmass].
    change (sf (ConstSeg 1 2 (19999/20000))) with (fun _ : R => 19999/20000). change (sf (ConstSeg 2 3 (1/20000))) with (fun _ : R => 1/20000). cbn [sa sb]. rewrite !Q_const. lra.
Qed.
Lemma exThin_cdf2 : cdf_spec exThin 2 = 19999/20000.
Proof.
  destruct exThin_ok as (D & _ & _). rewrite cF_spec by apply D. unfold cF, exThin. cbn [map sumR fold_right cpart].
  change (sf (ConstSeg 1 2 (19999/20000))) with (fun _ : R => 19999/20000). change (sf (ConstSeg 2 3 (1/20000))) with (fun _ : R => 1/20000). cbn [sa].
  rewrite !clamp_id by (simpl; lra). rewrite !Q_const. lra.
Qed.
Lemma exThin_lost q : invcdf (1/1000) lim_inf q exThin = Err EAssert \/
  exists p top, invcdf (1/1000) lim_inf q exThin = Ok p /\ 0 < top < 1 /\ (forall y, 0 <= y <= top -> call_scalar (segs p) y = Ok (q y)) /\
    forall y, top < y -> call_scalar (segs p) y = Ok 0 /\ call_vec (segs p) y = 0.
Proof.
  destruct exThin_ok as (D & NN & TM). apply (invcdf_lost (1/1000) exThin lim_inf q (19999/20000)); auto; [|right|lra].
  - intros c E. apply (lim_inf_ok (1/1000) exThin); auto.
  - exists (ConstSeg 2 3 (1/20000)), 2. rewrite exThin_cdf2. simpl; auto.
Qed.
(** the uniform law on [-19999,1], a single piece: the break value of the distribution function at 0 is what makes the last one disappear *)
Definition exNeg : list segment := [ConstSeg (-19999) 1 (1/20000)].
Lemma exNeg_ok : density exNeg /\ Forall nonneg_piece exNeg /\ total_mass exNeg = 1.
Proof.
  assert (W : Forall wf_seg exNeg) by (apply Forall_cons; [simpl; lra|apply Forall_nil]).
  split; [|split].
  - unfold density. split; [discriminate|]. split; [auto|]. split; [|split; [repeat constructor|simpl; auto]].
    apply Forall_cons; [apply (integrable_const (-19999) 1); lra|apply Forall_nil].
  - apply Forall_cons; [simpl; intros; lra|apply Forall_nil].
  - rewrite (cmasses_spec exNeg W). unfold cmasses, exNeg. cbn [map sumR fold_right cmass].
    change (sf (ConstSeg (-19999) 1 (1/20000))) with (fun _ : R => 1/20000). cbn [sa sb]. rewrite !Q_const. lra.
Qed.
Lemma exNeg_cdf0 : cdf_spec exNeg 0 = 19999/20000.
Proof.
  destruct exNeg_ok as (D & _ & _). rewrite cF_spec by apply D. unfold cF, exNeg. cbn [map sumR fold_right cpart].
  change (sf (ConstSeg (-19999) 1 (1/20000))) with (fun _ : R => 1/20000). cbn [sa].
  rewrite !clamp_id by (simpl; lra). rewrite !Q_const. lra.
Qed.
Lemma exNeg_lost q : invcdf (1/1000) lim_inf q exNeg = Err EAssert \/
  exists p top, invcdf (1/1000) lim_inf q exNeg = Ok p /\ 0 < top < 1 /\ (forall y, 0 <= y <= top -> call_scalar (segs p) y = Ok (q y)) /\
    forall y, top < y -> call_scalar (segs p) y = Ok 0 /\ call_vec (segs p) y = 0.
Proof.
  destruct exNeg_ok as (D & NN & TM). apply (invcdf_lost (1/1000) exNeg lim_inf q (19999/20000)); auto; [|left|lra].
  - intros c E. apply (lim_inf_ok (1/1000) exNeg); auto.
  - rewrite exNeg_cdf0. reflexivity.
Qed.

(** the uniform law on [0,10000] in ten thousand pieces *)
Definition steps (k n : nat) : list segment := map (fun i => ConstSeg (INR i) (INR i + 1) (1/10000)) (seq k n).
Lemma steps_in k n s : In s (steps k n) -> exists i, (k <= i)%nat /\ s = ConstSeg (INR i) (INR i + 1) (1/10000).
Proof. intros H. apply in_map_iff in H. destruct H as (i & <- & H). apply in_seq in H. exists i. split; auto. lia. Qed.
Lemma step_mass i : mass (ConstSeg (INR i) (INR i + 1) (1/10000)) = 1/10000.
Proof.
  rewrite <- cmass_mass by (simpl; lra). simpl. change (sf (ConstSeg (INR i) (INR i + 1) (1/10000))) with (fun _ : R => 1/10000). rewrite Q_const. lra.
Qed.
Lemma steps_mass n : forall k, total_mass (steps k n) = INR n / 10000.
Proof.
  induction n as [|n IH]; intros k; [unfold total_mass; simpl; lra|].
  change (total_mass (steps k (S n))) with (mass (ConstSeg (INR k) (INR k + 1) (1/10000)) + total_mass (steps (S k) n)). rewrite IH, step_mass, S_INR. lra.
Qed.
Lemma steps_density n k : density (steps k (S n)).
Proof.
  unfold density. split; [discriminate|]. split; [|split; [|split]].
  - apply Forall_forall. intros s Hs. destruct (steps_in _ _ _ Hs) as (i & _ & ->). simpl. lra.
  - apply Forall_forall. intros s Hs. destruct (steps_in _ _ _ Hs) as (i & _ & ->). apply (integrable_const (INR i) (INR i + 1)). simpl. lra.
  - generalize (S n). clear n. intros n. revert k. induction n as [|n IH]; intros k; [constructor|]. unfold ordered. cbn [steps seq map]. constructor; [apply IH|].
    apply Forall_forall. intros s Hs. destruct (steps_in _ _ _ Hs) as (i & Hi & ->). apply le_INR in Hi. rewrite S_INR in Hi. split; [simpl; lra|]. cbn [sa sb]. intros K. injection K. lra.
  - generalize (S n). clear n. intros n. revert k. induction n as [|[|n] IH]; intros k; [exact I|exact I|]. split; [|apply (IH (S k))]. cbn [sa sb]. rewrite S_INR. reflexivity.
Qed.
Lemma exSteps_none q : invcdf (1/1000) lim_inf q (steps 0 (100 * 100)) = Err EAssert.
Proof.
  assert (N : (100 * 100)%nat = S (Nat.pred (100 * 100))) by (symmetry; apply Nat.succ_pred; lia).
  assert (D : density (steps 0 (100 * 100))) by (rewrite N; apply steps_density).
  apply invcdf_fine; auto.
  - apply Forall_forall. intros s Hs. destruct (steps_in _ _ _ Hs) as (i & _ & ->). simpl. intros; lra.
  - rewrite steps_mass, mult_INR. replace (INR 100) with 100 by (simpl; lra). lra.
  - intros c E. apply (lim_inf_ok (1/1000) (steps 0 (100 * 100))); auto.
  - apply Forall_forall. intros s Hs. destruct (steps_in _ _ _ Hs) as (i & _ & ->). reflexivity.
  - intros s Hs. destruct (steps_in _ _ _ Hs) as (i & _ & ->). split; [reflexivity|]. split; [reflexivity|]. rewrite step_mass. lra.
Qed.

(** the complementary distribution function of a density with tails, atoms and singularities (ExSegInt.v) *)
Lemma exD_ccdf x : ccdf (1/1000) exD x = Ok (1 - cdf_spec exD x) /\ ccdf_value (1/1000) exD x = Ok (1 - cdf_spec exD x).
Proof. split; [apply ccdf_exact, exD_density|apply ccdf_value_exact; [apply exD_density|apply exD_mass]]. Qed.
