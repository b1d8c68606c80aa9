(** Concrete instances for the theorems in PropAtom.v. *)
From Coq Require Import Reals Lra List Bool Sorted.
From Coquelicot Require Import Coquelicot.
From Verif Require Import Base Seg Piecewise PiecewiseSpec PiecewiseFacts PiecewiseFacts2 PiecewiseFacts3 PiecewiseFacts4 Integral IntegralFacts SegInt SegIntSpec SegIntFacts Indep IndepSpec PropAtom ExSegInt AtomFacts3.
Import List ListNotations.
Open Scope R_scope.

(** a coin and a loaded coin with values 1 and 2 *)
Definition exF : list segment := [DiracSeg 0 (1/2); DiracSeg 1 (1/2)].
Definition exG : list segment := [DiracSeg 1 (1/3); DiracSeg 2 (2/3)].

Ltac atoms := repeat match goal with
  | H : In _ (_ :: _) |- _ => destruct H as [H|H]
  | H : In _ [] |- _ => destruct H
  | H : DiracSeg _ _ = DiracSeg _ _ |- _ => injection H; clear H; intros; subst
  | H : _ = DiracSeg _ _ |- _ => discriminate H
  end.
Ltac ab := unfold Rabs; repeat match goal with |- context [Rcase_abs ?x] => destruct (Rcase_abs x) end; lra.

Lemma exFG_sep : values_sep (1/10) Rplus exF exG.
Proof.
  unfold values_sep, exF, exG. intros. atoms; try (left; lra); right; ab.
Qed.
Lemma exFG_sum : exists q, convdiracs (1/10) Rplus exF exG = Ok q /\ pm (segs q) 2 = 1/2 /\ atom_mass (segs q) = 1.
Proof.
  destruct (discrete_arith (1/10) Rplus exF exG) as (q & E & _ & _ & M & _ & S); [lra|].
  destruct (S exFG_sep) as (P & _). exists q. splits; auto.
  - rewrite P. unfold pm_op, pair_sum, exF, exG. simpl.
    repeat match goal with |- context [Req_EM_T ?a ?b] => destruct (Req_EM_T a b); try lra end.
  - rewrite M. unfold atom_mass, exF, exG. simpl. lra.
Qed.

Lemma exF_sep : dirac_sep (1/10) exF.
Proof. unfold exF. repeat constructor. ab. Qed.
Lemma exG_sep : dirac_sep (1/10) exG.
Proof. unfold exG. repeat constructor. ab. Qed.
Lemma exFG_cross : cross_sep (1/10) exF exG.
Proof. unfold cross_sep, exF, exG. intros. atoms; try (left; lra); right; ab. Qed.
(** the minimum is 1 with probability 1/2 and the maximum is 2 with probability 2/3 *)
Lemma exFG_extrema :
  (exists q, probDiracsInMin (1/10) exF exG = Ok q /\ pm (segs q) 1 = 1/2) /\
  (exists q, probDiracsInMax (1/10) exF exG = Ok q /\ pm (segs q) 2 = 2/3).
Proof.
  destruct (extrema_discrete (1/10) exF exG) as ((q & A1 & _ & _ & A2) & (r & B1 & _ & _ & B2)).
  - lra.
  - repeat constructor.
  - repeat constructor.
  - eapply sep_nodup; [|apply exF_sep]; lra.
  - eapply sep_nodup; [|apply exG_sep]; lra.
  - split; [exists q|exists r]; split; auto.
    + rewrite A2; auto using exF_sep, exG_sep, exFG_cross. unfold pm_op, pair_sum, exF, exG. simpl. unfold Rmin.
      repeat match goal with |- context [Rle_dec ?a ?b] => destruct (Rle_dec a b); try lra end;
      repeat match goal with |- context [Req_EM_T ?a ?b] => destruct (Req_EM_T a b); try lra end.
    + rewrite B2; auto using exF_sep, exG_sep, exFG_cross. unfold pm_op, pair_sum, exF, exG. simpl. unfold Rmax.
      repeat match goal with |- context [Rle_dec ?a ?b] => destruct (Rle_dec a b); try lra end;
      repeat match goal with |- context [Req_EM_T ?a ?b] => destruct (Req_EM_T a b); try lra end.
Qed.

(** a mixed distribution: 0 with probability 1/2, otherwise uniform on (0,1) *)
Definition exM : list segment := [DiracSeg 0 (1/2); Seg 0 1 (fun _ => 1/2)].
Lemma exM_wf : Forall wf_seg exM.
Proof. repeat constructor; simpl; lra. Qed.
Lemma exM_int : Forall integrable_piece exM.
Proof. constructor; [exact I|]. constructor; [|constructor]. apply integrable_const; lra. Qed.
Lemma exM_noc : no_const exM.
Proof. repeat constructor. Qed.
Lemma exM_sep : dirac_sep (1/10) exM.
Proof. unfold exM. repeat constructor. Qed.
Lemma exM_total : total_mass exM = 1.
Proof.
  unfold total_mass, exM. cbn [map mass sumR fold_right].
  rewrite <- Q_RInt_gen by (simpl; lra). change (sf (Seg 0 1 (fun _ => 1/2))) with (fun _ : R => 1/2). cbn [sa sb]. rewrite Q_const. simpl. lra.
Qed.
Lemma exM_cdf0 : cdf_spec exM 0 = 1/2.
Proof.
  unfold cdf_spec, exM. cbn [map mass_upto sumR fold_right]. destruct (Rle_dec 0 0); [|lra]. cbn [sa sb].
  destruct (Rbar_le_dec 0 0); [|exfalso; apply n; simpl; lra]. lra.
Qed.
(** the minimum of two independent copies is 0 with probability 3/4 *)
Lemma exM_min : exists q, probDiracsInMin (1/10) exM exM = Ok q /\ pm (segs q) 0 = 3/4.
Proof.
  destruct (min_atoms (1/10) exM exM) as (q & E & _ & _ & P); auto using exM_wf, exM_int, exM_noc, exM_sep; [lra| |].
  { unfold cross_sep, exM. intros. atoms. auto. }
  exists q. split; auto. rewrite P. unfold prob_above. rewrite exM_total, exM_cdf0.
  unfold pm, exM. simpl. destruct (Req_EM_T 0 0); lra.
Qed.
(** and the maximum with probability 1/4 *)
Lemma exM_max : exists q, probDiracsInMax (1/10) exM exM = Ok q /\ pm (segs q) 0 = 1/4.
Proof.
  destruct (max_atoms (1/10) exM exM) as (q & E & _ & _ & P); auto using exM_wf, exM_int, exM_noc, exM_sep; [lra| |].
  { unfold cross_sep, exM. intros. atoms. auto. }
  exists q. split; auto. rewrite P. unfold prob_below. rewrite exM_cdf0.
  unfold pm, exM. simpl. destruct (Req_EM_T 0 0); lra.
Qed.

(** the density of ExSegInt.v times a fair coin: zero with probability 1/8 + 1/2 - 1/16 *)
Definition exCoin : list segment := exF.
Definition exCont : pwf := PW (getSegments exD) [].
Lemma exD_times_coin : exists q, prod_diracs (1/10) exCont exD exCoin = Ok q /\ pm (segs q) 0 = 9/16.
Proof.
  assert (TF : total_mass exF = 1) by (unfold total_mass, exF; simpl; lra).
  assert (PD : pm exD 0 = 1/8) by (unfold pm, exD; simpl; destruct (Req_EM_T 0 0); lra).
  assert (PF : pm exF 0 = 1/2) by (unfold pm, exF; simpl; destruct (Req_EM_T 0 0); destruct (Req_EM_T 1 0); lra).
  assert (CD : cont_mass exD = 7/8).
  { pose proof (mass_split exD) as M. rewrite exD_mass in M. assert (A : atom_mass exD = 1/8) by (unfold atom_mass, exD; simpl; lra). lra. }
  assert (CF : cont_mass exF = 0) by reflexivity.
  assert (IN : forall (z : R) s, z = 0 -> In s (segs exCont) -> ~ inside s z).
  { intros z s -> Hs. unfold inside, exCont, exD, getSegments in *. simpl in Hs.
    decompose [or] Hs; try contradiction; subst; simpl; lra. }
  destruct (product_zero (1/10) exCont exD exCoin) as (q & E & _ & _ & _ & _ & P);
    rewrite ?PD, ?PF, ?CD, ?CF, ?exD_mass, ?TF; auto using exD_wf, exD_int; try lra; try discriminate.
  - assert (O := exD_ordered). unfold exCont, exD, getSegments in *. cbn [filter isSegment isDirac negb segs].
    inversion O as [|? ? O1 F1]; subst. inversion O1 as [|? ? O2 F2]; subst.
    constructor; auto. inversion F1; subst; auto.
  - assert (W := exD_wf). rewrite Forall_forall in *. intros s Hs. apply filter_In in Hs. apply W; tauto.
  - repeat constructor.
  - repeat constructor.
  - change (0 <= cont_mass exF). rewrite CF. lra.
  - change (0 <= pm exF 0). rewrite PF. lra.
  - unfold values_sep, exCoin, exD, exF. intros. atoms; left; ring.
  - intros x m y k s Hx Hy. apply IN. unfold exCoin, exD, exF in *. atoms; ring.
  - intros _. split; [intros s; apply IN; auto|]. intros x m y k Hx Hy. left. unfold exCoin, exD, exF in *. atoms; ring.
  - exists q. split; auto. change (pm exCoin 0) with (pm exF 0) in P. rewrite P, PD, PF. lra.
Qed.
