(** Main lemmas about conditional distributions (X | Gt, Lt, Between). *)
From Coq Require Import Reals Lra Lia List Bool Sorted.
From Coquelicot Require Import Coquelicot.
From Verif Require Import Base Seg Piecewise PiecewiseSpec PiecewiseFacts4 Integral IntegralFacts SegInt SegIntSpec IntParts Indep IndepSpec AtomFacts TransformFacts ExtrFacts3 DensLaw Cond CondSpec CondFacts CondFacts2 CondFacts3 CondFacts4 CondFacts5.
From Verif Require TransformSpec.
Import List ListNotations.
Open Scope R_scope.

Lemma cond_spec eps d r lo hi : conditional eps d r lo hi -> cond_law d r lo hi.
Proof.
  intros (G & _ & P & T & A). unfold cond_law. splits; auto; try apply G. intros z. rewrite A. destruct (ind_in lo hi z) eqn:E.
  - split; [auto|]. intros K. exfalso. apply K. apply ind_in_true in E. exact E.
  - split; [|auto]. intros K. apply ind_false in E. exfalso. apply E. exact K.
Qed.

(** C29: X | Gt(L) is the law of X given X > L, whenever that event has positive probability; atoms of X below, at and
    above L are allowed.  (If the event leaves nothing but an atom at zero the product with 1/p is not covered.) *)
Lemma cond_gt_exact_main : forall eps ueps L d, 0 <= eps ->
  ordered d -> Forall wf_seg d -> Forall integrable_piece d -> dirac_sep eps d -> (exists p : R, is_end d p) ->
  nonneg_law d -> total_mass d = 1 -> atoms_apart eps d L -> marks_sep ueps d [L] ->
  0 < TransformSpec.pprob d L p_infty -> (L < 0 -> pm d 0 < TransformSpec.pprob d L p_infty) ->
  exists r, or_gt eps ueps L d = Ok r /\ cond_law d (segs r) L p_infty.
Proof.
  intros eps ueps L d He Od Wd Id Sd Ed NN TM AA MS PP P0. destruct (cond_gt_ok eps ueps d) with (L := L) as (r & R1 & R2); auto.
  exists r. split; [|eapply cond_spec; eauto]. unfold or_gt. destruct (range_ok d Ed) as (a & b & -> & _ & _ & F). cbn [rbind snd].
  destruct (bltP L b) as [K|K]; auto. exfalso. rewrite pprob_outside in PP; auto; [lra|]. intros s Hs. left. apply (Rbar_le_trans _ b); [apply F, end_sb; auto|]. apply Rbar_not_lt_le; auto.
Qed.

(** C29: X | Lt(U) is the law of X given X < U, when X has no atom above U. *)
Lemma cond_lt_exact_main : forall eps ueps U d, 0 <= eps ->
  ordered d -> Forall wf_seg d -> Forall integrable_piece d -> dirac_sep eps d -> (exists p : R, is_end d p) ->
  nonneg_law d -> total_mass d = 1 -> atoms_apart eps d U -> marks_sep ueps d [U] ->
  (forall a m, In (DiracSeg a m) d -> a <= U) ->
  0 < TransformSpec.pprob d m_infty U -> (0 < U -> pm d 0 < TransformSpec.pprob d m_infty U) ->
  exists r, or_lt eps ueps U d = Ok r /\ cond_law d (segs r) m_infty U.
Proof.
  intros eps ueps U d He Od Wd Id Sd Ed NN TM AA MS NA PP P0. destruct (cond_lt_ok eps ueps d) with (U := U) as (r & R1 & R2); auto.
  exists r. split; [|eapply cond_spec; eauto]. unfold or_lt. destruct (range_ok d Ed) as (a & b & -> & _ & _ & F). cbn [rbind fst].
  destruct (bltP a U) as [K|K]; auto. exfalso. rewrite pprob_outside in PP; auto; [lra|]. intros s Hs. right. apply (Rbar_le_trans _ a); [|apply F, end_sa; auto]. apply Rbar_not_lt_le; auto.
Qed.

(** C29: X | Between(L, U) is the law of X given L < X < U, when X has no atom outside [L, U]. *)
Lemma cond_between_exact_main : forall eps ueps L U d, 0 <= eps -> L < U -> eps < U - L ->
  ordered d -> Forall wf_seg d -> Forall integrable_piece d -> dirac_sep eps d -> (exists p : R, is_end d p) ->
  nonneg_law d -> total_mass d = 1 ->
  (forall a m, In (DiracSeg a m) d -> (a = L \/ eps < a - L) /\ (a = U \/ eps < U - a)) -> marks_sep ueps d [L; U] ->
  0 < TransformSpec.pprob d L U -> (L < 0 -> 0 < U -> pm d 0 < TransformSpec.pprob d L U) ->
  exists r, or_between eps ueps L U d = Ok r /\ cond_law d (segs r) L U.
Proof.
  intros eps ueps L U d He LU EU Od Wd Id Sd Ed NN TM AA MS PP P0. destruct (cond_between_ok eps ueps d) with (L := L) (U := U) as (r & R1 & R2); auto.
  exists r. split; auto. eapply cond_spec; eauto.
Qed.

(** C29: the assertions of the operator: conditioning on X > L raises AssertionError when no piece reaches above L, and
    conditioning on X < U when none reaches below U. *)
Lemma cond_assert_main : forall eps ueps (c : R) d, (exists p : R, is_end d p) ->
  ((forall s, In s d -> Rbar_le (sa s) c /\ Rbar_le (sb s) c) -> or_gt eps ueps c d = Err EAssert) /\
  ((forall s, In s d -> Rbar_le c (sa s) /\ Rbar_le c (sb s)) -> or_lt eps ueps c d = Err EAssert).
Proof.
  intros eps ueps c d Ed. unfold or_gt, or_lt. destruct (range_ok d Ed) as (a & b & -> & A & B & F). cbn [rbind fst snd]. split; intros H.
  - destruct (bltP c b) as [K|K]; auto. exfalso. destruct B as (s & Hs & B). destruct (H s Hs) as (H1 & H2). apply (Rbar_lt_not_le b c K). destruct B as [-> | ->]; auto.
  - destruct (bltP a c) as [K|K]; auto. exfalso. destruct A as (s & Hs & A). destruct (H s Hs) as (H1 & H2). apply (Rbar_lt_not_le c a K). destruct A as [-> | ->]; auto.
Qed.

(** C29: if X has an atom above U, X | Lt(U) keeps the atom that min(X,U) has at U and does not rescale: the result
    is the law of min(X,U). *)
Lemma cond_lt_atom_main : forall eps ueps U d, 0 <= eps ->
  ordered d -> Forall wf_seg d -> Forall integrable_piece d -> dirac_sep eps d -> nonneg_law d ->
  atoms_apart eps d U -> marks_sep ueps d [U] -> U <> 0 -> (exists a m, In (DiracSeg a m) d /\ U < a) ->
  exists r, cond_lt eps ueps U d = Ok r /\ pm (segs r) U = prob_above d U + pm d U /\ (forall z, z < U -> pm (segs r) z = pm d z).
Proof.
  intros eps ueps U d He Od Wd Id Sd NN AA MS U0 HA. apply cond_lt_atom_ok; auto. destruct HA as (a & m & HA & _). exists a. exists (DiracSeg a m). simpl; auto.
Qed.
(** C29: if X has an atom below L (and none above U), X | Between(L, U) keeps an atom at L of mass P(X <= L)/P(X < U). *)
Lemma cond_between_atom_main : forall eps ueps L U d, 0 <= eps -> L < U -> eps < U - L ->
  ordered d -> Forall wf_seg d -> Forall integrable_piece d -> dirac_sep eps d -> nonneg_law d -> total_mass d = 1 ->
  atoms_apart eps d L -> atoms_apart eps d U -> marks_sep ueps d [L; U] -> L <> 0 ->
  (forall a m, In (DiracSeg a m) d -> a <= U) -> (exists a m, In (DiracSeg a m) d /\ a < L) -> 0 < TransformSpec.pprob d m_infty U ->
  exists r, cond_between eps ueps L U d = Ok r /\ pm (segs r) L = cdf_spec d L / TransformSpec.pprob d m_infty U /\
    (forall z, L < z < U -> pm (segs r) z = pm d z / TransformSpec.pprob d m_infty U).
Proof.
  intros eps ueps L U d He LU EU Od Wd Id Sd NN TM AL AU MS L0 NA HA PP. apply cond_between_atom_ok; auto. destruct HA as (a & m & HA & _). exists a. exists (DiracSeg a m). simpl; auto.
Qed.

Definition cx_d : list segment := [DiracSeg 1 (/2); DiracSeg 3 (/2)].
Lemma cx_hyp : ordered cx_d /\ Forall wf_seg cx_d /\ Forall integrable_piece cx_d /\ dirac_sep 0 cx_d /\ nonneg_law cx_d /\ total_mass cx_d = 1.
Proof.
  unfold cx_d. splits.
  - repeat first [apply SSorted_cons | apply SSorted_nil | apply Forall_cons | apply Forall_nil | apply conj]; simpl; try lra; try (intros HH; injection HH; lra); auto.
  - repeat constructor.
  - repeat constructor.
  - repeat constructor; simpl. rewrite Rabs_left; lra.
  - repeat constructor; lra.
  - unfold total_mass. simpl. lra.
Qed.
Lemma cx_end (p : R) : is_end cx_d p -> p = 1 \/ p = 3.
Proof. intros (s & [<-|[<-|[]]] & [E|E]); simpl in E; injection E; auto. Qed.
Lemma cx_marks pts : (forall p, In p pts -> p = 2) -> marks_sep (/10) cx_d pts.
Proof.
  intros HP p q Hp Hq L.
  assert (A : forall x, marked cx_d pts x -> x = -1 \/ x = 0 \/ x = 1 \/ x = 2 \/ x = 3).
  { intros x [K|[K|[K|[K|K]]]]; auto; [apply cx_end in K; tauto|apply HP in K; auto 6]. }
  apply A in Hp. apply A in Hq. assert (M0 : 0 < Rmax 1 (Rabs q)) by (apply (Rlt_le_trans _ 1); [lra|apply Rmax_l]). apply (proj1 (Rlt_div_r _ _ _ M0)).
  assert (B : Rmax 1 (Rabs q) <= 3). { apply Rmax_lub; [lra|]. apply Rabs_le. lra. }
  assert (1 <= q - p) by lra. lra.
Qed.
Lemma cx_mass z : pm cx_d z = if Req_EM_T 1 z then /2 else if Req_EM_T 3 z then /2 else 0.
Proof. unfold cx_d, pm. simpl. destruct (Req_EM_T 1 z), (Req_EM_T 3 z); lra. Qed.
(** C29: P(X=1) = P(X=3) = 1/2; X | Lt(2) should be 1 with certainty, but is 1 or 2 with probability 1/2 each. *)
Lemma cond_lt_atom_refuted_main :
  exists eps ueps U d, 0 <= eps /\ ordered d /\ Forall wf_seg d /\ Forall integrable_piece d /\ dirac_sep eps d /\ nonneg_law d /\
    total_mass d = 1 /\ atoms_apart eps d U /\ marks_sep ueps d [U] /\ 0 < TransformSpec.pprob d m_infty U /\
    exists r, or_lt eps ueps U d = Ok r /\ pm (segs r) 1 = /2 /\ pm (segs r) 2 = /2 /\ ~ cond_law d (segs r) m_infty U.
Proof.
  destruct cx_hyp as (H1 & H2 & H3 & H4 & H5 & H6). exists 0, (/10), 2, cx_d.
  assert (AA : atoms_apart 0 cx_d 2). { intros a m [E|[E|[]]]; injection E as <- <-; right; [rewrite Rabs_left|rewrite Rabs_right]; lra. }
  assert (MS : marks_sep (/10) cx_d [2]). { apply cx_marks. intros p [<-|[]]; auto. }
  assert (PP : TransformSpec.pprob cx_d m_infty 2 = /2).
  { unfold TransformSpec.pprob, cx_d. simpl. destruct (Rbar_lt_dec m_infty 1) as [_|K]; [|simpl in K; tauto]. destruct (Rbar_lt_dec m_infty 3) as [_|K]; [|simpl in K; tauto].
    destruct (Rbar_lt_dec 1 2) as [_|K]; [|simpl in K; lra]. destruct (Rbar_lt_dec 3 2) as [K|_]; [simpl in K; lra|]. lra. }
  splits; auto; try lra.
  destruct (cond_lt_atom_main 0 (/10) 2 cx_d) as (r & R1 & R2 & R3); auto; try lra.
  { exists 3, (/2). split; [simpl; auto|lra]. }
  assert (V1 : pm (segs r) 1 = /2). { rewrite R3, cx_mass by lra. destruct (Req_EM_T 1 1); [auto|congruence]. }
  assert (V2 : pm (segs r) 2 = /2).
  { rewrite R2, cx_mass. destruct (Req_EM_T 1 2); [lra|]. destruct (Req_EM_T 3 2); [lra|]. unfold prob_above. rewrite H6. unfold cdf_spec, cx_d. simpl. destruct (Rle_dec 1 2); [|lra]. destruct (Rle_dec 3 2); lra. }
  exists r. splits; auto.
  - unfold or_lt. destruct (range_ok cx_d) as (a & b & -> & _ & _ & F). { exists 1. exists (DiracSeg 1 (/2)). simpl; auto. } cbn [rbind fst]. destruct (bltP a 2) as [K|K]; auto. exfalso. apply K.
    apply (Rbar_le_lt_trans a 1); [|simpl; lra]. apply F. exists (DiracSeg 1 (/2)). simpl; auto.
  - intros (_ & _ & _ & _ & A). destruct (A 2) as (_ & A2). rewrite V2 in A2. assert (K : ~ TransformSpec.betw m_infty 2 2) by (intros (_ & K); simpl in K; lra). apply A2 in K. lra.
Qed.
(** C29: with the same X, X | Between(2, 4) should be 3 with certainty, but is 2 or 3 with probability 1/2 each. *)
Lemma cond_between_atom_refuted_main :
  exists eps ueps L U d, 0 <= eps /\ L < U /\ ordered d /\ Forall wf_seg d /\ Forall integrable_piece d /\ dirac_sep eps d /\ nonneg_law d /\
    total_mass d = 1 /\ 0 < TransformSpec.pprob d L U /\
    exists r, or_between eps ueps L U d = Ok r /\ pm (segs r) 2 = /2 /\ pm (segs r) 3 = /2 /\ ~ cond_law d (segs r) L U.
Proof.
  destruct cx_hyp as (H1 & H2 & H3 & H4 & H5 & H6). exists 0, (/10), 2, 4, cx_d.
  assert (P4 : TransformSpec.pprob cx_d m_infty 4 = 1).
  { unfold TransformSpec.pprob, cx_d. simpl. destruct (Rbar_lt_dec m_infty 1) as [_|K]; [|simpl in K; tauto]. destruct (Rbar_lt_dec m_infty 3) as [_|K]; [|simpl in K; tauto].
    destruct (Rbar_lt_dec 1 4) as [_|K]; [|simpl in K; lra]. destruct (Rbar_lt_dec 3 4) as [_|K]; [|simpl in K; lra]. lra. }
  assert (PP : TransformSpec.pprob cx_d 2 4 = /2).
  { unfold TransformSpec.pprob, cx_d. simpl. destruct (Rbar_lt_dec 2 1) as [K|_]; [simpl in K; lra|]. destruct (Rbar_lt_dec 2 3) as [_|K]; [|simpl in K; lra].
    destruct (Rbar_lt_dec 3 4) as [_|K]; [|simpl in K; lra]. lra. }
  splits; auto; try lra.
  destruct (cond_between_atom_main 0 (/10) 2 4 cx_d) as (r & R1 & R2 & R3); auto; try lra.
  { intros a m [E|[E|[]]]; injection E as <- <-; right; [rewrite Rabs_left|rewrite Rabs_right]; lra. }
  { intros a m [E|[E|[]]]; injection E as <- <-; right; rewrite Rabs_left; lra. }
  { intros p q Hp Hq L.
    assert (A : forall x, marked cx_d [2; 4] x -> x = -1 \/ x = 0 \/ x = 1 \/ x = 2 \/ x = 3 \/ x = 4).
    { intros x [K|[K|[K|[K|[K|[K|[]]]]]]]; auto 8. apply cx_end in K. tauto. }
    apply A in Hp. apply A in Hq. assert (M0 : 0 < Rmax 1 (Rabs q)) by (apply (Rlt_le_trans _ 1); [lra|apply Rmax_l]). apply (proj1 (Rlt_div_r _ _ _ M0)).
    assert (B : Rmax 1 (Rabs q) <= 4). { apply Rmax_lub; [lra|]. apply Rabs_le. lra. }
    assert (1 <= q - p) by lra. lra. }
  { intros a m [E|[E|[]]]; injection E as <- <-; lra. }
  { exists 1, (/2). split; [simpl; auto|lra]. }
  assert (V2 : pm (segs r) 2 = /2).
  { rewrite R2, P4. unfold cdf_spec, cx_d. simpl. destruct (Rle_dec 1 2); [|lra]. destruct (Rle_dec 3 2); lra. }
  assert (V3 : pm (segs r) 3 = /2). { rewrite R3, cx_mass, P4 by lra. destruct (Req_EM_T 1 3); [lra|]. destruct (Req_EM_T 3 3); [lra|congruence]. }
  exists r. splits; auto.
  intros (_ & _ & _ & _ & A). destruct (A 2) as (_ & A2). rewrite V2 in A2. assert (K : ~ TransformSpec.betw 2 4 2) by (intros (K & _); simpl in K; lra). apply A2 in K. lra.
Qed.
