(** Concrete instances: the hypotheses of the theorems in PropPiecewise.v are met by non-trivial
    functions. *)
From Coq Require Import Reals Lra Lia List Bool Arith Sorted Permutation.
From Coquelicot Require Import Coquelicot.
From Verif Require Import Base Bisect Seg Piecewise PiecewiseSpec PropPiecewise.
Import List ListNotations.
Open Scope R_scope.

(** a density on the whole line: tail, linear piece, constant piece, piece with a pole, tail *)
Definition exG : list segment :=
  [MInfSeg 0 exp; Seg 0 1 (fun x => x); ConstSeg 1 2 (1/4); PoleSeg 2 3 (fun x => / sqrt (x - 2)) true;
   PInfSeg 3 (fun x => exp (- x))].
(** the same with two atoms *)
Definition exA : list segment :=
  [MInfSeg 0 exp; Seg 0 1 (fun x => x); DiracSeg 1 (1/2); ConstSeg 1 2 (1/4); DiracSeg 2 (1/8);
   PoleSeg 2 3 (fun x => / sqrt (x - 2)) true; PInfSeg 3 (fun x => exp (- x))].
Definition exB : list segment :=
  [Seg (-1) (1/2) (fun x => 2); DiracSeg 1 (1/3); DiracSeg 5 (1/7); Seg 5 6 (fun x => x * x)].
Definition exeps : R := 1 / 1000.

Ltac crunch := repeat first [apply SSorted_cons | apply SSorted_nil | apply Forall_cons | apply Forall_nil | apply FOP_cons | apply FOP_nil | apply conj]; simpl; try lra; try (intros HH; injection HH; lra); try discriminate; auto.

Lemma exG_gap_free : exG <> [] /\ gap_free exG.
Proof. split; [discriminate|]. split; [crunch|]. simpl. splits; auto. Qed.
Lemma exA_ordered : ordered exA.
Proof. unfold exA. crunch. Qed.
Lemma exA_wf : Forall wf_seg exA.
Proof. unfold exA. crunch. Qed.
Lemma exA_sep : dirac_sep exeps exA.
Proof.
  unfold dirac_sep, exA, exeps. crunch. rewrite Rabs_left; lra.
Qed.
Lemma exB_ordered : ordered exB.
Proof. unfold exB. crunch. Qed.
Lemma exB_wf : Forall wf_seg exB.
Proof. unfold exB. crunch. Qed.
Lemma exB_sep : dirac_sep exeps exB.
Proof. unfold dirac_sep, exB, exeps. crunch. rewrite Rabs_left; lra. Qed.
Lemma exAB_cross : cross_sep exeps exA exB.
Proof.
  intros a m b k Ha Hb. unfold exA, exB, exeps in *. simpl in Ha, Hb.
  repeat match goal with H : _ \/ _ |- _ => destruct H end; try discriminate; try contradiction;
  injection H0; injection H; intros; subst; try (left; reflexivity);
  right; unfold Rabs; destruct (Rcase_abs _); lra.
Qed.

(** pieces added in a scrambled order *)
Definition exScrambled : list segment :=
  [DiracSeg 2 (1/8); PInfSeg 3 (fun x => exp (- x)); Seg 0 1 (fun x => x); DiracSeg 1 (1/2);
   ConstSeg 1 2 (1/4); MInfSeg 0 exp].
Lemma exScrambled_ok : Forall wf_seg exScrambled /\ all_compatible exeps exScrambled.
Proof.
  split; [unfold exScrambled; crunch|].
  unfold all_compatible, exScrambled, compatible, before, exeps.
  repeat first [apply FOP_cons | apply FOP_nil | apply Forall_cons | apply Forall_nil | apply conj]; cbn [sa sb];
  try (exact I);
  try (left; split; [simpl; lra|intros HH; try discriminate HH; injection HH; lra]; fail);
  try (right; split; [simpl; lra|intros HH; try discriminate HH; injection HH; lra]; fail);
  try (unfold Rabs; destruct (Rcase_abs _); lra).
Qed.

Example ex_add : exists q, addAll exeps empty_pwf exScrambled = Ok q /\ Permutation exScrambled (segs q) /\
  StronglySorted (fun s t => Rbar_le (sb s) (sa t)) (segs q).
Proof. destruct exScrambled_ok. apply addSegment_sorted_complete; auto. Qed.

Example ex_relocated : exists q, addSegment exeps (PW exA []) (DiracSeg (1/3) (1/5)) = Ok q /\ 0 <> 1/3 /\
  In (DiracSeg 0 (1/5)) (segs q) /\ (forall k, ~ In (DiracSeg (1/3) k) (segs q)) /\
  (forall t, In t exA -> In t (segs q)).
Proof.
  apply (addSegment_atom_relocated exeps (PW exA []) (Seg 0 1 (fun x => x)) (1/3) (1/5)).
  - exact exA_ordered.
  - exact exA_wf.
  - simpl; auto.
  - simpl; lra.
  - simpl; lra.
  - intros b k H. unfold exA, exeps in *. simpl in H.
    repeat match goal with H : _ \/ _ |- _ => destruct H end; try discriminate; try contradiction;
    injection H; intros; subst; unfold Rabs; destruct (Rcase_abs _); lra.
Qed.

Example ex_scalar_vector x : call_scalar exG x = Ok (call_vec exG x).
Proof. destruct exG_gap_free. apply scalar_vector_agree; auto. Qed.

Example ex_split : exists q, splitByPoints exeps exA [m_infty; Finite (-1); Finite (1/2); Finite 2; p_infty] = Ok q /\
  (forall x : R, call_vec (segs q) x = call_vec exA x).
Proof.
  destruct (split_same_function exeps exA [m_infty; Finite (-1); Finite (1/2); Finite 2; p_infty])
    as (q & H1 & _ & _ & H4 & _).
  - crunch.
  - exact exA_ordered.
  - exact exA_wf.
  - exact exA_sep.
  - eauto.
Qed.

Example ex_restrict : exists q, restrictToInterval exeps exA (Finite 1) (Finite 2) = Ok q /\
  In (DiracSeg 1 (1/2)) (segs q) /\ ~ In (DiracSeg 2 (1/8)) (segs q).
Proof.
  destruct (restrict_exact exeps exA (Finite 1) (Finite 2)) as (q & H1 & _ & H3 & _).
  - simpl; lra.
  - exact exA_ordered.
  - exact exA_wf.
  - exact exA_sep.
  - exists q. splits; auto.
    + apply H3. simpl. splits; try lra. auto.
    + intros C. apply H3 in C. simpl in C. lra.
Qed.

Example ex_operation : exists h, operation exeps Rplus exA exB = Ok h /\ ordered (segs h) /\
  In (DiracSeg 1 (1/2 + 1/3)) (segs h) /\ In (DiracSeg 2 (1/8)) (segs h) /\ In (DiracSeg 5 (1/7)) (segs h).
Proof.
  destruct (operation_atoms exeps Rplus exA exB) as (h & H1 & H2 & H3).
  - unfold exeps; lra.
  - exact exA_ordered.
  - exact exB_ordered.
  - exact exA_wf.
  - exact exB_wf.
  - exact exA_sep.
  - exact exB_sep.
  - exact exAB_cross.
  - exists h. splits; auto; apply H3.
    + left. exists (1/2), (1/3). simpl. splits; auto.
    + right; left. split; [simpl; auto 8|]. intros k C. simpl in C.
      repeat match goal with H : _ \/ _ |- _ => destruct H end; try discriminate; try contradiction;
      injection H; intros; lra.
    + right; right. split; [simpl; auto 8|]. intros k C. simpl in C.
      repeat match goal with H : _ \/ _ |- _ => destruct H end; try discriminate; try contradiction;
      injection H; intros; lra.
Qed.

Example ex_pointwise : exists h, operation exeps Rminus exA exB = Ok h /\
  call_vec (segs h) (1/4) = call_vec exA (1/4) - call_vec exB (1/4).
Proof.
  destruct (operation_pointwise exeps Rminus exA exB) as (h & H1 & H2).
  - unfold exeps; lra.
  - exact exA_ordered.
  - exact exB_ordered.
  - exact exA_wf.
  - exact exB_wf.
  - exact exA_sep.
  - exact exB_sep.
  - exact exAB_cross.
  - lra.
  - exists h. split; auto. apply H2; intros (s & Hs & Hx); simpl in Hs;
    repeat match goal with H : _ \/ _ |- _ => destruct H end; try contradiction; subst s; simpl in *;
    match goal with H : Finite _ = _ |- _ => try discriminate H; injection H; lra end.
Qed.

Example ex_numbers : number_op exA (sub_num exeps exA 7) (fun v => 7 - v).
Proof. apply number_operators; [exact exA_ordered|exact exA_wf|exact exA_sep]. Qed.
