(** Concrete cases for the statements about discrete distributions. *)
From Coq Require Import Reals Lra List Bool Arith Sorted Permutation Lia.
From Coquelicot Require Import Coquelicot.
From Verif Require Import Base Seg Piecewise PiecewiseSpec Integral IntegralFacts SegInt SegIntSpec CumintFacts IndepSpec Discr DiscrSpec DiscrMain.
Import List ListNotations.
Open Scope R_scope.

Lemma ex_apart : values_apart (1/100) [3; 1; 2].
Proof.
  intros i j a b Hi Hj N.
  destruct i as [|[|[|i]]]; destruct j as [|[|[|j]]]; simpl in Hi, Hj; try (exfalso; apply N; reflexivity);
    try (destruct i; discriminate); try (destruct j; discriminate);
    injection Hi as <-; injection Hj as <-; unfold Rabs; destruct (Rcase_abs _); lra.
Qed.
Lemma ex_nodup : NoDup [3; 1; 2].
Proof. repeat constructor; simpl; lra. Qed.

(** three values given out of order *)
Example ex_discrete : exists d q c, disc_init [3; 1; 2] [1/2; 1/4; 1/4] = Ok d /\ disc_pdf d 3 = 1/2 /\ disc_pdf d 7 = 0 /\
  disc_pw (1/100) d = Ok q /\ cumint (1/100) (segs q) = Ok c /\ call_scalar (segs c) (5/2) = Ok (1/2) /\ total_mass (segs q) = 1.
Proof.
  destruct discrete_stored_main as (A & _). destruct (A [3; 1; 2] [1/2; 1/4; 1/4] eq_refl ex_nodup) as (d & Ed & _).
  destruct (discrete_pdf_main _ _ _ Ed) as (_ & B & C).
  destruct (discrete_density_main (1/100) _ _ _ ltac:(lra) ex_apart Ed) as (q & Eq & _ & _ & _ & _ & _ & T & D).
  destruct D as (_ & c & Ec & V); [discriminate|].
  exists d, q, c. split; auto. split; [apply C; [exact ex_nodup|simpl; auto]|]. split; [apply B; simpl; lra|].
  split; auto. split; auto. split.
  - rewrite V. f_equal. unfold p_le. simpl. repeat destruct (Rle_dec _ _); lra.
  - rewrite T. unfold p_all. simpl. lra.
Qed.

(** u = 3/5 falls in the interval of the value 3 *)
Example ex_sampling : exists d, disc_init [3; 1; 2] [1/2; 1/4; 1/4] = Ok d /\ disc_rand d (3/5) = Ok 3 /\ disc_rand d (1/4) = Ok 1 /\ disc_rand d 2 = Err EIndex.
Proof.
  destruct discrete_stored_main as (A & _). destruct (A [3; 1; 2] [1/2; 1/4; 1/4] eq_refl ex_nodup) as (d & Ed & _).
  exists d. split; auto.
  assert (F : Forall (fun p => 0 <= p) [1/2; 1/4; 1/4]) by (repeat constructor; lra).
  split; [|split].
  - apply (discrete_sampling_main _ _ _ (3/5) Ed ex_nodup F); [lra|]. split; [simpl; auto|].
    unfold p_lt, p_le. simpl. repeat destruct (Rlt_dec _ _); repeat destruct (Rle_dec _ _); lra.
  - apply (discrete_sampling_main _ _ _ (1/4) Ed ex_nodup F); [lra|]. split; [simpl; auto|].
    unfold p_lt, p_le. simpl. repeat destruct (Rlt_dec _ _); repeat destruct (Rle_dec _ _); lra.
  - apply (discrete_sampling_main _ _ _ 2 Ed ex_nodup F); [lra|]. unfold p_all. simpl. lra.
Qed.

(** a density with an atom at zero between two constant pieces *)
Definition ex_l : list segment := [ConstSeg (-1) 0 (1/4); DiracSeg 0 (1/4); ConstSeg 0 2 (1/4)].
Example ex_sign_hyps : density ex_l /\ Forall nonneg_piece ex_l /\ dirac_sep (1/100) ex_l /\ total_mass ex_l = 1.
Proof.
  split; [|split; [|split]].
  - split; [discriminate|]. split; [repeat constructor; simpl; lra|]. split.
    { constructor; [apply (integrable_const (-1) 0); lra|]. constructor; [exact I|]. constructor; [|constructor]. apply (integrable_const 0 2); lra. }
    split; [|simpl; auto].
    repeat constructor; simpl; try lra; intros E; injection E; lra.
  - repeat constructor; simpl; intros; lra.
  - repeat constructor.
  - assert (M : forall a b c, a < b -> mass (ConstSeg a b c) = c * (b - a)).
    { intros a b c H. rewrite mass_Q by (simpl; auto). change (Q (fun _ => c) a b = c * (b - a)). apply Q_const. }
    unfold total_mass, ex_l, sumR. cbn [map fold_right]. rewrite !M by lra. cbn [mass]. lra.
Qed.
Example ex_sign : exists d, sign_init (1/100) ex_l = Ok d /\ disc_pdf d 0 = 1/4.
Proof.
  destruct ex_sign_hyps as (D & N & S & T). destruct (sign_exact_main (1/100) ex_l ltac:(lra) D N S T) as (d & E & _ & P & _).
  exists d. split; auto. rewrite P. unfold pm, ex_l. simpl. destruct (Req_EM_T 0 0); lra.
Qed.
