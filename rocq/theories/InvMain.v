(** Main statements about the inverse of a distribution function as a piecewise function, sampling by inversion, and the
    complementary distribution function (C73). *)
From Coq Require Import Reals Lra Lia List Bool Arith Sorted Permutation.
From Coquelicot Require Import Coquelicot.
From Verif Require Import Base Bisect Seg Piecewise PiecewiseSpec PiecewiseFacts PiecewiseFacts2 PiecewiseMain Integral IntegralFacts SegInt SegIntSpec SegIntFacts CumintFacts CumintFacts2
  Quant QuantSpec QuantFacts QuantFacts2 QuantMain Wide WideMain Std StdSpec StdFacts StdFacts2 StdMain Inv InvSpec InvFacts InvFacts2 InvFacts3.
Import List ListNotations.
Open Scope R_scope.

(** C73: when no value of the distribution function at an end of a piece lies within 1/10000 below one, the inverse is built,
    and it has the values of the inversion on [0,1] and 0 outside, called with a number or with an array. *)
Lemma invcdf_values_main :
  forall eps l vinf q, density l -> Forall nonneg_piece l -> total_mass l = 1 -> (forall c, cumint eps l = Ok c -> end_limits vinf (segs c)) ->
  (forall v, level l v -> v = 1 \/ v < 1 - 1 / 10000) ->
  exists p, invcdf eps vinf q l = Ok p /\
    forall y, (0 <= y <= 1 -> call_scalar (segs p) y = Ok (q y) /\ call_vec (segs p) y = q y) /\
              (y < 0 \/ 1 < y -> call_scalar (segs p) y = Ok 0 /\ call_vec (segs p) y = 0).
Proof.
  intros eps l vinf q D NN TM EL LV. destruct (cumint_cdf eps l D) as (c & E & _). specialize (EL c E).
  pose proof (top_one eps l c vinf D NN TM E EL LV) as T1.
  destruct (invcdf_cases eps l c vinf D NN TM E EL q) as [(_ & K)|(p & top & P1 & P2 & P3 & P4 & P5)].
  - exfalso. rewrite K in T1. destruct T1 as [T1|[]]. injection T1. lra.
  - apply P4 in T1. simpl in T1. assert (top = 1) by lra. subst top. exists p. split; auto.
Qed.

(** C73: numbers sampled by inversion have the law they are sampled from: if U is uniformly distributed on [0,1] then the
    probability of rand_invcdf(U) <= x is the distribution function at x, for a root finder without rounding. *)
Lemma invcdf_law_main :
  forall eps l vinf solve q, density l -> Forall nonneg_piece l -> total_mass l = 1 -> (forall c, cumint eps l = Ok c -> end_limits vinf (segs c)) ->
  exact_solver solve -> inverts vinf solve eps l q -> (forall v, level l v -> v = 1 \/ v < 1 - 1 / 10000) ->
  exists p, invcdf eps vinf q l = Ok p /\ forall x, is_RInt (below (call_vec (segs p)) x) 0 1 (cdf_spec l x).
Proof.
  intros eps l vinf solve q D NN TM EL HS HQ LV. destruct (invcdf_values_main eps l vinf q D NN TM EL LV) as (p & P & V).
  exists p. split; auto. intros x. assert (W : Forall wf_seg l) by apply D.
  apply quantile_law.
  - rewrite cF_spec by auto. apply cq_bounds; auto.
  - intros y Y. rewrite (proj2 (proj1 (V y) ltac:(lra))). destruct (HQ y Y) as (N1 & H1). destruct (quantile_get eps l vinf solve D NN TM HS EL y Y) as (N2 & H2).
    destruct (H2 (Nat.max N1 N2) ltac:(lia)) as (r & R1 & R2). rewrite H1 in R1 by lia. injection R1 as ->. exact R2.
  - intros u v H. rewrite !cF_spec by auto. apply cq_mono; auto.
Qed.

(** C73: when the distribution function at 0 or at the left end of a piece lies within 1/10000 below one, the levels above some
    top < 1 are lost whatever the inversion computes: the value there is 0, or no inverse can be built at all. *)
Lemma invcdf_lost_main :
  forall eps l vinf q v, density l -> Forall nonneg_piece l -> total_mass l = 1 -> (forall c, cumint eps l = Ok c -> end_limits vinf (segs c)) ->
  (v = cdf_spec l 0 \/ exists s (a : R), In s l /\ isDirac s = false /\ sa s = a /\ v = cdf_spec l a) -> 1 - 1 / 10000 <= v < 1 ->
  invcdf eps vinf q l = Err EAssert \/
  exists p top, invcdf eps vinf q l = Ok p /\ 0 < top < 1 /\ (forall y, 0 <= y <= top -> call_scalar (segs p) y = Ok (q y)) /\
    forall y, top < y -> call_scalar (segs p) y = Ok 0 /\ call_vec (segs p) y = 0.
Proof.
  intros eps l vinf q v D NN TM EL HV LV. destruct (cumint_cdf eps l D) as (c & E & _). specialize (EL c E).
  destruct (invcdf_cases eps l c vinf D NN TM E EL q) as [(K & _)|(p & top & P1 & P2 & P3 & P4 & P5)]; [auto|right].
  exists p, top. split; auto. assert (W : Forall wf_seg l) by apply D.
  assert (IV : In v (inv_tab (getSegVals vinf (segs c)) (cF l 0))).
  { destruct HV as [->|(s & a & Is & Ds & Ea & ->)]; rewrite cF_spec by auto; [apply (tab_in l c vinf); auto|eapply left_value; eauto]. }
  assert (N : top <> 1).
  { intros ->. revert P3. apply (lost l c vinf v 1); auto; lra. }
  split; [lra|]. split; [intros y Y; apply (P5 y); lra|intros y Y; apply (P5 y); auto].
Qed.

(** C73: a density on a bounded support without atoms, cut into pieces of mass at most 1/10000, has no inverse: all break
    values but 0 are dropped and an assertion fails. *)
Lemma invcdf_fine_main :
  forall eps l vinf q, density l -> Forall nonneg_piece l -> total_mass l = 1 -> (forall c, cumint eps l = Ok c -> end_limits vinf (segs c)) ->
  Forall (fun s => isDirac s = false) l -> (forall s, In s l -> is_finite (sa s) /\ is_finite (sb s) /\ mass s <= 1 / 10000) ->
  invcdf eps vinf q l = Err EAssert.
Proof.
  intros eps l vinf q D NN TM EL NA BD. destruct (cumint_cdf eps l D) as (c & E & _). specialize (EL c E).
  pose proof (fine_ub eps l c vinf D NN TM E EL NA BD) as U.
  destruct (invcdf_cases eps l c vinf D NN TM E EL q) as [(K & _)|(p & top & P1 & P2 & P3 & P4 & P5)]; [auto|exfalso].
  rewrite U in P3. destruct P3 as [P3|[]]. injection P3. lra.
Qed.

(** C73: the complementary distribution function is one minus the distribution function, everywhere. *)
Lemma ccdf_exact_main :
  forall eps l x, density l -> ccdf eps l x = Ok (1 - cdf_spec l x).
Proof.
  intros eps l x D. destruct (cumint_cdf eps l D) as (c & E & G & P & _ & V). unfold ccdf. rewrite E. cbn [rbind].
  assert (W : Forall wf_seg l) by apply D. destruct G as (C & CH).
  assert (G : gap_free (segs c)) by (split; auto).
  destruct (roperation_ok eps op_rsub (segs c) 1 (gap_free_ordered _ G) (gap_free_wf _ G) (cont_sep eps _ C)) as (p & EP & SP & OP & WP).
  unfold rsub_num. rewrite EP. cbn [rbind].
  destruct (path_cover m_infty (segs c) p_infty x) as (l1 & s & l2 & ES & CV); auto using cont_wf, cont_nodirac; [exact I|exact I|].
  assert (Is : In s (segs c)) by (rewrite ES; apply in_or_app; simpl; auto).
  destruct (gap_free_covers (segs c) s x G Is CV) as (K & _). rewrite (proj1 (V x)) in K. injection K as K.
  assert (Ds : isDirac s = false) by (rewrite Forall_forall in C; apply (C s Is)).
  destruct (rop_seg_props op_rsub 1 s) as (A1 & A2 & A3 & _ & A5).
  assert (Gp : gap_free (segs p)).
  { split.
    - apply Forall_forall. intros t Ht. rewrite Forall_forall in WP. split; [|auto]. rewrite SP in Ht. apply in_map_iff in Ht. destruct Ht as (u & <- & Hu).
      destruct (rop_seg_props op_rsub 1 u) as (_ & _ & -> & _). rewrite Forall_forall in C. apply (C u Hu).
    - rewrite SP. clear - CH. revert CH. induction (segs c) as [|u [|v L] IH]; intros CH; [exact I|exact I|].
      destruct CH as (C1 & C2). specialize (IH C2). destruct (rop_seg_props op_rsub 1 u) as (_ & B & _). destruct (rop_seg_props op_rsub 1 v) as (A & _).
      split; [rewrite A, B; auto|exact IH]. }
  destruct (gap_free_covers (segs p) (rop_seg op_rsub 1 s) x Gp) as (-> & _).
  - rewrite SP. apply in_map. auto.
  - split; rewrite ?A1, ?A2; apply CV.
  - rewrite (A5 Ds x). unfold op_rsub. rewrite cF_spec, K; auto.
Qed.

(** C73: the method ccdf_value, which integrates the last piece when x lies on an unbounded one, gives the same value. *)
Lemma ccdf_value_exact_main :
  forall eps l x, density l -> total_mass l = 1 -> ccdf_value eps l x = Ok (1 - cdf_spec l x).
Proof.
  intros eps l x D TM. unfold ccdf_value. assert (W : Forall wf_seg l) by apply D.
  destruct (cumint_cdf eps l D) as (c & E & _ & _ & _ & V).
  destruct l as [|s l' _] eqn:El using rev_ind; [destruct D; congruence|]. rewrite rev_unit.
  destruct (ble (Finite x) (sa s) || negb (isPInf s))%bool eqn:K.
  - rewrite E. cbn [rbind]. rewrite (proj1 (V x)). cbn [rmap]. rewrite cF_spec; auto.
  - apply orb_false_iff in K. destruct K as (K1 & K2). apply negb_false_iff in K2. destruct (isP s K2) as (a & f & ->).
    destruct (bleP (Finite x) (sa (PInfSeg a f))) as [K|K]; [discriminate|]. simpl in K. f_equal.
    assert (Is : In (PInfSeg a f) (l' ++ [PInfSeg a f])) by (apply in_or_app; simpl; auto).
    assert (HI : integrable_piece (PInfSeg a f)) by (destruct D as (_ & _ & H & _); rewrite Forall_forall in H; auto).
    assert (Ws : wf_seg (PInfSeg a f)) by (rewrite Forall_forall in W; auto).
    rewrite cF_spec by auto. rewrite (cmasses_spec _ W) in TM. unfold cmasses in TM. rewrite map_app, sumR_app in TM.
    unfold cF. rewrite map_app, sumR_app.
    assert (LX : sumR (map (fun s => cpart s x) l') = sumR (map cmass l')).
    { apply (cF_left l' x).
      - apply Forall_app in W. apply W.
      - intros t Ht. destruct (cumint_pieces eps _ D) as (q1 & lead & tail & a0 & b0 & _ & P1 & _).
        apply path_app_inv in P1. destruct P1 as (u & P1 & P2). destruct P2 as (P2 & _). simpl in P2. subst u.
        apply Forall_app in W. eapply Rbar_le_trans; [apply (path_In _ _ _ t (proj1 W) P1 Ht)|]. simpl. lra. }
    rewrite LX. destruct (cpart_G (PInfSeg a f) eq_refl Ws HI) as (G & PG & HG). cbn [map sumR] in *. rewrite HG. rewrite (cmass_G (PInfSeg a f) G eq_refl Ws PG) in TM.
    rewrite clamp_id by (simpl; auto; lra).
    rewrite seg_integrate_clamp by (simpl; auto). rewrite !clamp_id by (simpl; auto; lra).
    rewrite (prim_Q _ _ _ G x p_infty PG); [|simpl; auto; lra..]. cbn [sa sb sf sumR fold_right] in *. lra.
Qed.
