(** Proofs about functions of one variable, part 4: powers. *)
From Coq Require Import Reals Lra List Bool Sorted Permutation FunctionalExtensionality.
From Coquelicot Require Import Coquelicot.
From Verif Require Import Base Bisect Seg Piecewise PiecewiseSpec PiecewiseFacts PiecewiseFacts2 PiecewiseFacts3 PiecewiseFacts4
  Integral IntegralFacts SegInt SegIntSpec SegIntFacts SubstFacts Transform TransformSpec TransformFacts TransformFacts2
  TransformFacts3 OperationFacts TransformFacts4 TransformFacts5 TransformMain Func FuncSpec FuncFacts FuncFacts2 FuncFacts3.
Import List ListNotations.
Open Scope R_scope.

Lemma FOP_in {X} (P Q : X -> X -> Prop) l : (forall x y, In x l -> In y l -> P x y -> Q x y) -> ForallOrdPairs P l -> ForallOrdPairs Q l.
Proof.
  intros H F. induction F as [|a r HF F IH]; [constructor|]. constructor.
  - rewrite Forall_forall in *. intros y Hy. apply H; simpl; auto.
  - apply IH. intros; apply H; simpl; auto.
Qed.

Lemma affine_m scale : scale <> 0 -> lo_end (rlt 0 scale) (affine 0 scale) m_infty p_infty = m_infty.
Proof. intros N. unfold lo_end. simpl. destruct (rltP 0 scale); destruct (Rlt_dec 0 scale); auto; tauto. Qed.
Lemma affine_p scale : scale <> 0 -> hi_end (rlt 0 scale) (affine 0 scale) m_infty p_infty = p_infty.
Proof. intros N. unfold hi_end. simpl. destruct (rltP 0 scale); destruct (Rlt_dec 0 scale); auto; tauto. Qed.

(** exp(d X) *)
Lemma exp_scale_law eps l d : d <> 0 -> smooth eps l -> image_sep eps (affine 0 d) l ->
  image_sep eps (fun x => exp_f (affine 0 d x)) l ->
  exists p2 p3, copyShiftedAndScaled eps l 0 d = Ok p2 /\ exp_distr eps (segs p2) = Ok p3 /\ smooth eps (segs p3) /\
    image_law (rlt 0 d) (fun x => exp_f (affine 0 d x)) m_infty p_infty l (segs p3).
Proof.
  intros N G S1 S2. destruct (affine_law eps 0 d l N G S1) as (p2 & E2 & G2 & L2).
  destruct (exp_law eps (segs p2) G2) as (p3 & E3 & G3 & L3 & _).
  { destruct L2 as (_ & P2 & _). apply (sep_map eps (affine 0 d) l); auto.
    apply image_sep_pos in S2. exact S2. }
  exists p2, p3. splits; auto.
  replace (rlt 0 d) with (Bool.eqb (rlt 0 d) true) by (destruct (rlt 0 d); auto).
  apply (law_comp (rlt 0 d) (affine 0 d) (fun y => (y - 0) * (1 / d)) true exp_f m_infty p_infty l (segs p2)); auto.
  - apply affine_ip; auto.
  - intros a _. reflexivity.
  - rewrite affine_m, affine_p by auto. exact L3.
Qed.

Lemma power_eq d x : d <> 0 -> Rbar_le 0 x -> exp_f (affine 0 d (ln_ext x)) = power d x.
Proof.
  intros N X. destruct x as [x| |]; [|cbn; destruct (Rlt_dec 0 d); reflexivity|destruct X].
  cbn [ln_ext power]. destruct (Rlt_dec 0 x) as [P|P].
  - cbn. unfold Rpower. f_equal. f_equal. ring.
  - cbn. destruct (Rlt_dec 0 d); reflexivity.
Qed.

Lemma pow_law eps p d : d <> 0 -> d <> 1 -> d <> Ropp 1 -> d <> 2 -> smooth eps (segs p) ->
  (forall s, In s (segs p) -> if isDirac s then Rbar_lt 0 (sa s) else Rbar_le 0 (sa s)) ->
  image_sep eps ln_ext (segs p) -> image_sep eps (fun x => affine 0 d (ln_ext x)) (segs p) -> image_sep eps (power d) (segs p) ->
  exists q, pow_distr eps p d = Ok (PDistr q) /\ smooth eps (segs q) /\ image_law (rlt 0 d) (power d) 0 p_infty (segs p) (segs q).
Proof.
  intros N0 N1 N2 N3 G NN S1 S2 S3. unfold pow_distr.
  destruct (reqP d 0); [tauto|]. destruct (reqP d 1); [tauto|]. destruct (reqP d (Ropp 1)); [tauto|]. destruct (reqP d 2); [tauto|].
  destruct (log_law eps (segs p) G NN S1) as (p1 & E1 & G1 & L1). rewrite E1. cbn [rbind].
  assert (AP : forall a, In a (dirac_pos (segs p)) -> 0 < a).
  { intros a Ha. apply dirac_pos_In in Ha. destruct Ha as (m & Hm). apply (NN _ Hm). }
  assert (LF : forall a, 0 < a -> ln_ext (Finite a) = Finite (ln a)) by (intros a Ha; cbn; destruct (Rlt_dec 0 a); tauto).
  assert (P1 := proj1 (proj2 L1)).
  destruct (exp_scale_law eps (segs p1) d N0 G1) as (p2 & p3 & E2 & E3 & G3 & L3).
  - apply (sep_map eps ln_ext (segs p)); auto. apply image_sep_pos in S2. revert S2. apply FOP_in.
    intros a b Ha Hb. rewrite !LF by auto. auto.
  - apply (sep_map eps ln_ext (segs p)); auto. apply image_sep_pos in S3. revert S3. apply FOP_in.
    intros a b Ha Hb. pose proof (AP a Ha). pose proof (AP b Hb).
    rewrite <- !power_eq; auto; try (simpl; lra). rewrite !LF by auto. auto.
  - rewrite E2. cbn [rbind]. rewrite E3. cbn [rmap rbind]. exists p3. split; [reflexivity|]. split; auto.
    assert (K : image_law (Bool.eqb true (rlt 0 d)) (fun x => exp_f (affine 0 d (ln_ext x))) 0 p_infty (segs p) (segs p3)).
    { apply (law_comp true ln_ext exp (rlt 0 d) (fun x => exp_f (affine 0 d x)) 0 p_infty (segs p) (segs p1)); auto.
      - apply ln_ip. simpl; auto.
      - intros a Ha. rewrite LF; auto. reflexivity.
      - replace (lo_end true ln_ext 0 p_infty) with m_infty by (unfold lo_end; cbn; destruct (Rlt_dec 0 0); [lra|auto]). exact L3. }
    replace (rlt 0 d) with (Bool.eqb true (rlt 0 d)) by (destruct (rlt 0 d); auto).
    destruct K as (K1 & K2 & K3). split; [|split].
    + unfold lo_end, hi_end in *. destruct (Bool.eqb true (rlt 0 d)); rewrite !power_eq in K1; auto; simpl; auto; lra.
    + replace (map (fun a : R => real (power d a)) (dirac_pos (segs p))) with (map (fun a : R => real (exp_f (affine 0 d (ln_ext a)))) (dirac_pos (segs p))); auto.
      apply map_ext_in. intros a Ha. rewrite power_eq; auto. simpl. pose proof (AP a Ha). lra.
    + intros u v U UV V. rewrite <- K3 by auto. assert (V0 : Rbar_le 0 v) by (apply (Rbar_le_trans _ u); auto; apply Rbar_lt_le; auto).
      unfold lo_end, hi_end. destruct (Bool.eqb true (rlt 0 d)); rewrite !power_eq; auto.
Qed.

Lemma ln_gt1 x : 1 < x -> 0 < ln x.
Proof. intros H. rewrite <- ln_1. apply ln_increasing; lra. Qed.
Lemma ln_lt1 x : 0 < x -> x < 1 -> ln x < 0.
Proof. intros H. rewrite <- ln_1. apply ln_increasing; lra. Qed.
Lemma expo_eq c x : 0 < c -> c <> 1 -> exp_f (affine 0 (ln c) x) = expo c x.
Proof.
  intros P N. assert (D : 0 < ln c <-> 1 < c).
  { split; [|apply ln_gt1]. intros H. destruct (Rlt_le_dec 1 c) as [|H']; auto. assert (c < 1) by lra. pose proof (ln_lt1 c P H0). lra. }
  destruct x as [x| |]; cbn.
  - unfold Rpower. f_equal. f_equal. ring.
  - destruct (Rlt_dec 0 (ln c)); destruct (Rlt_dec 1 c); auto; tauto.
  - destruct (Rlt_dec 0 (ln c)); destruct (Rlt_dec 1 c); auto; tauto.
Qed.
Lemma rpow_law eps p c : 0 < c -> c <> 1 -> smooth eps (segs p) ->
  image_sep eps (affine 0 (ln c)) (segs p) -> image_sep eps (expo c) (segs p) ->
  exists q, rpow_distr eps p c = Ok (PDistr q) /\ smooth eps (segs q) /\ image_law (rlt 1 c) (expo c) m_infty p_infty (segs p) (segs q).
Proof.
  intros P N G S1 S2. unfold rpow_distr.
  destruct (reqP c 0); [lra|]. destruct (reqP c 1); [tauto|]. destruct (rltP c 0); [lra|].
  assert (N0 : ln c <> 0). { destruct (Rlt_le_dec 1 c) as [H|H]; [pose proof (ln_gt1 c H); lra|]. assert (H' : c < 1) by lra. pose proof (ln_lt1 c P H'). lra. }
  assert (EE : (fun x => exp_f (affine 0 (ln c) x)) = expo c) by (extensionality x; apply expo_eq; auto).
  destruct (exp_scale_law eps (segs p) (ln c) N0 G S1) as (p2 & p3 & E2 & E3 & G3 & L3); [rewrite EE; auto|].
  rewrite E2. cbn [rbind]. rewrite E3. exists p3. splits; auto. rewrite EE in L3.
  replace (rlt 1 c) with (rlt 0 (ln c)); auto.
  destruct (rltP 1 c) as [H|H].
  - apply rlt_true, ln_gt1; auto.
  - apply rlt_false. assert (H' : c < 1) by lra. pose proof (ln_lt1 c P H'). lra.
Qed.
