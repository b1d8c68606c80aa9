(** Functions of two dependent variables: sum, difference and product. *)
From Coq Require Import Reals Lra Psatz List Bool Sorted Permutation.
From Coquelicot Require Import Coquelicot.
From Verif Require Import Base Bisect Seg Piecewise PiecewiseSpec PiecewiseFacts PiecewiseFacts2 Integral SegInt IntParts IntegralFacts IntPartsFacts Indep IndepSpec AtomFacts Wide IndepAsm PairFacts ConvolFacts ExtrFacts ProdFacts ProdFacts2 AsmFacts TwoVars TwoVarsSpec TwoVarsFacts TwoVarsFacts2.
Import List ListNotations.
Open Scope R_scope.

Ltac rbx := repeat match goal with x : Rbar |- _ => destruct x as [?x| |] end; cbn in *; try tauto; try (split; split; intros; try tauto; lra).

(** ** sum *)
Lemma sum_crosses z a b y : crosses false (fun t => sum_alongx t z) a b y (Rbar_minus z y).
Proof.
  intros t _ _. unfold sum_alongx. eexists. split; [reflexivity|]. unfold Rbar_minus. destruct t as [t| |], y as [y| |]; simpl; split; split; intros; try tauto; lra.
Qed.
Lemma sum_curve z si sj : monotone_curve sum_alongx sum_cut (fun t z => z - t) z si sj.
Proof.
  split.
  - exists false, (Rbar_minus z (sa sj)), (Rbar_minus z (sb sj)). splits; try reflexivity; apply sum_crosses.
  - intros t _. reflexivity.
Qed.
Lemma plus_lt (a b : Rbar) (x y : R) : Rbar_lt a x -> Rbar_lt b y -> exists r, op_add a b = Some r /\ Rbar_lt r (x + y).
Proof. intros A B. destruct a as [a| |], b as [b| |]; simpl in *; try tauto; eexists; (split; [reflexivity|]); simpl; auto; lra. Qed.
Lemma plus_gt (a b : Rbar) (x y : R) : Rbar_lt x a -> Rbar_lt y b -> exists r, op_add a b = Some r /\ Rbar_lt (x + y) r.
Proof. intros A B. destruct a as [a| |], b as [b| |]; simpl in *; try tauto; eexists; (split; [reflexivity|]); simpl; auto; lra. Qed.
Lemma seg_lt s : wf_seg s -> isDirac s = false -> Rbar_lt (sa s) (sb s).
Proof. intros W D. destruct s; try discriminate; auto. Qed.
Lemma lt_mid (a b : Rbar) : Rbar_lt a b -> exists t : R, Rbar_lt a t /\ Rbar_lt t b.
Proof.
  intros L. destruct a as [a| |], b as [b| |]; simpl in *; try tauto.
  - exists ((a + b) / 2). lra.
  - exists (a + 1). split; auto; lra.
  - exists (b - 1). split; auto; lra.
  - exists 0. auto.
Qed.
Lemma sum_surrounded z si sj : wf_seg si -> wf_seg sj -> isDirac si = false -> isDirac sj = false -> surrounded op_add (fun t z => z - t) z si sj.
Proof.
  intros Wi Wj Di Dj. split.
  - destruct (lt_mid _ _ (seg_lt si Wi Di)) as (t & T & _). destruct (lt_mid _ _ (seg_lt sj Wj Dj)) as (u & U & _).
    destruct (plus_lt _ _ _ _ T U) as (r & E & _). exists (sa si), (sa sj), r. auto.
  - intros t (A & B) (C & D). destruct (plus_lt _ _ _ _ A C) as (r & E & L). destruct (plus_gt _ _ _ _ B D) as (r' & E' & L').
    exists (sa si), (sa sj), (sb si), (sb sj), r, r'. replace (t + (z - t)) with z in * by ring. splits; auto.
Qed.

(** ** difference *)
Lemma sub_crosses z a b y : crosses true (fun t => sub_alongx t z) a b y (Rbar_plus z y).
Proof.
  intros t _ _. unfold sub_alongx. eexists. split; [reflexivity|]. unfold Rbar_minus. destruct t as [t| |], y as [y| |]; simpl; split; split; intros; try tauto; lra.
Qed.
Lemma sub_curve z si sj : monotone_curve sub_alongx sub_cut (fun t z => t - z) z si sj.
Proof.
  split.
  - exists true, (Rbar_plus z (sa sj)), (Rbar_plus z (sb sj)). splits; try reflexivity; apply sub_crosses.
  - intros t _. reflexivity.
Qed.
Lemma sub_surrounded z si sj : wf_seg si -> wf_seg sj -> isDirac si = false -> isDirac sj = false -> surrounded op_sub (fun t z => t - z) z si sj.
Proof.
  assert (O : forall (a : Rbar) (x : R), Rbar_lt a x -> Rbar_lt (- x) (Rbar_opp a)) by (intros [a| |] x; simpl; auto; lra).
  assert (O' : forall (a : Rbar) (x : R), Rbar_lt x a -> Rbar_lt (Rbar_opp a) (- x)) by (intros [a| |] x; simpl; auto; lra).
  intros Wi Wj Di Dj. split.
  - destruct (lt_mid _ _ (seg_lt si Wi Di)) as (t & T & _). destruct (lt_mid _ _ (seg_lt sj Wj Dj)) as (u & _ & U).
    destruct (plus_lt _ _ _ _ T (O' _ _ U)) as (r & E & _). exists (sa si), (sb sj), r. auto.
  - intros t (A & B) (C & D). destruct (plus_lt _ _ _ _ A (O' _ _ D)) as (r & E & L). destruct (plus_gt _ _ _ _ B (O _ _ C)) as (r' & E' & L').
    exists (sa si), (sb sj), (sb si), (sa sj), r, r'. replace (t + - (t - z)) with z in * by ring. splits; auto.
Qed.

(** ** product *)
Lemma quot_cmp (z t y : R) : t * y > 0 -> (t < z / y <-> y < z / t) /\ (z / y < t <-> z / t < y).
Proof.
  intros P. assert (T : t <> 0) by (intros ->; lra). assert (Y : y <> 0) by (intros ->; lra).
  assert (E1 : z / y = (z / (t * y)) * t) by (field; auto). assert (E2 : z / t = (z / (t * y)) * y) by (field; auto).
  rewrite E1, E2. set (u := z / (t * y)). destruct (Rlt_dec 0 t).
  - assert (0 < y) by nra. split; split; intros; nra.
  - assert (t < 0) by lra. assert (y < 0) by nra. split; split; intros; nra.
Qed.
Definition side (s : segment) : bool := blt 0 (sa s).
Lemma mul_crosses z si sj y : wf_seg si -> wf_seg sj -> isDirac si = false -> isDirac sj = false -> off_zero si -> off_zero sj -> y = sa sj \/ y = sb sj ->
  exists c, mul_cut y z = Ok (Some c) /\ crosses (xorb (side si) (side sj)) (fun t => mul_alongx t z) (sa si) (sb si) y c.
Proof.
  intros Wi Wj Di Dj Oi Oj Hy. pose proof (seg_lt si Wi Di) as Li. pose proof (seg_lt sj Wj Dj) as Lj.
  assert (Y : (side sj = true /\ Rbar_lt 0 y) \/ (side sj = false /\ Rbar_lt y 0)).
  { unfold side. destruct (bltP 0 (sa sj)) as [K|K]; [left|right]; split; auto.
    - destruct Hy as [-> | ->]; auto. apply (Rbar_lt_trans _ (sa sj)); auto.
    - destruct Oj as [Oj|Oj]; [tauto|]. destruct Hy as [-> | ->]; auto. apply (Rbar_lt_trans _ (sb sj)); auto. }
  assert (T : forall t, Rbar_le (sa si) t -> Rbar_le t (sb si) -> (side si = true /\ Rbar_lt 0 t) \/ (side si = false /\ Rbar_lt t 0)).
  { intros t T1 T2. unfold side. destruct (bltP 0 (sa si)) as [K|K]; [left|right]; split; auto.
    - apply (Rbar_lt_le_trans _ (sa si)); auto.
    - destruct Oi as [Oi|Oi]; [tauto|]. apply (Rbar_le_lt_trans _ (sb si)); auto. }
  clear Hy. exists (match y with Finite y => Finite (z / y) | _ => Finite 0 end). split.
  - unfold mul_cut. destruct y as [y| |]; auto. destruct (reqP y 0) as [->|]; auto. exfalso. destruct Y as [(_ & Y)|(_ & Y)]; simpl in Y; lra.
  - intros t T1 T2. specialize (T t T1 T2). exists (match t with Finite t => Finite (z / t) | _ => Finite 0 end). split.
    + unfold mul_alongx. destruct t as [t| |]; auto. destruct (reqP t 0) as [->|]; auto. exfalso. destruct T as [(_ & T)|(_ & T)]; simpl in T; lra.
    + clear - T Y. destruct T as [(Es & T)|(Es & T)], Y as [(Ey & Y)|(Ey & Y)]; rewrite Es, Ey; cbn [xorb];
      destruct t as [t| |], y as [y| |]; cbn in T, Y; try contradiction; cbn [Rbar_lt];
      try (destruct (quot_cmp z t y) as (A & B); [nra|]; tauto);
      try (destruct (quot_cmp (-z) t (-y)) as (A & B); [nra|]; replace (- z / - y) with (z / y) in * by (field; lra); replace (- z / t) with (- (z / t)) in * by (field; lra);
           split; split; intros; try tauto; try (apply Ropp_lt_cancel; tauto); try (apply A; lra); try (apply B; lra); apply Ropp_lt_cancel; (apply A; lra) || (apply B; lra));
      try (split; split; intros; try tauto; lra).
Qed.
Lemma mul_curve z si sj : wf_seg si -> wf_seg sj -> isDirac si = false -> isDirac sj = false -> off_zero si -> off_zero sj ->
  monotone_curve mul_alongx mul_cut (fun t z => z / t) z si sj.
Proof.
  intros Wi Wj Di Dj Oi Oj. split.
  - destruct (mul_crosses z si sj (sa sj)) as (c & C1 & C2); auto. destruct (mul_crosses z si sj (sb sj)) as (d & D1 & D2); auto.
    exists (xorb (side si) (side sj)), c, d. splits; auto.
  - intros t (A & B). unfold mul_alongx. destruct (reqP t 0) as [->|]; auto. exfalso. destruct Oi as [O|O]; rewrite !em_lt in *; lra.
Qed.
Lemma mul_surrounded z si sj : wf_seg si -> wf_seg sj -> isDirac si = false -> isDirac sj = false -> off_zero si -> off_zero sj ->
  surrounded op_mul (fun t z => z / t) z si sj.
Proof.
  intros Wi Wj Di Dj Oi Oj.
  assert (S1 : one_sided si) by (destruct Oi; [left|right]; apply Rbar_lt_le; auto).
  assert (S2 : one_sided sj) by (destruct Oj; [left|right]; apply Rbar_lt_le; auto).
  split.
  - pose proof (corners_ne si sj Wi Wj S1 S2) as N. destruct (corners op_mul si sj) as [|r l] eqn:E; [congruence|].
    assert (H : In r (corners op_mul si sj)) by (rewrite E; simpl; auto). apply corners_In in H. destruct H as (p & q & Hp & Hq & H). exists p, q, r. auto.
  - intros t I1 I2.
    assert (N0 : t <> 0) by (intros ->; destruct I1, Oi as [O|O]; rewrite !em_lt in *; lra).
    assert (N1 : z / t <> 0) by (intros K; rewrite K in I2; destruct I2, Oj as [O|O]; rewrite !em_lt in *; lra).
    assert (Z : z <> 0) by (intros ->; apply N1; field; auto).
    assert (M : rel4 (sa si) (sb si) (sa sj) (sb sj) z).
    { apply rel4_meet; auto.
      - apply wf_endsok; auto.
      - apply wf_endsok; auto.
      - left. apply seg_lt; auto.
      - exists t, (z / t). splits; [left; auto|left; auto|field; auto]. }
    destruct M as ((r & (p & q & Hp & Hq & E) & L) & r' & (p' & q' & Hp' & Hq' & E') & L'). exists p, q, p', q', r, r'. splits; auto.
Qed.

(** ** independence *)
Lemma dens_support l t : no_atoms l -> on_support l t * dens l t = dens l t.
Proof.
  intros N. unfold on_support. destruct (existsb _ l) eqn:E; [ring|]. rewrite Rmult_0_l. symmetry. unfold dens.
  induction l as [|s l IH]; auto. cbn [map]. rewrite sumR_cons. cbn [existsb] in E. apply orb_false_iff in E. destruct E as (E1 & E2).
  rewrite IH by (auto; intros x Hx; apply N; simpl; auto). rewrite (N s) in * by (simpl; auto).
  destruct (Rbar_lt_dec (sa s) t); [|ring]. destruct (Rbar_lt_dec t (sb s)); [discriminate|ring].
Qed.
Lemma atom_sum_none w l : no_atoms l -> atom_sum w l = 0.
Proof.
  intros N. unfold atom_sum. induction l as [|s l IH]; auto. cbn [map]. rewrite sumR_cons, IH by (intros x Hx; apply N; simpl; auto).
  pose proof (N s (or_introl eq_refl)) as D. destruct s; try discriminate; ring.
Qed.
Lemma curve_sum f g z v : no_atoms f -> no_atoms g -> curve_density f g (fun x y => dens f x * dens g y) (fun t z => z - t) (fun _ _ => 1) z v -> sum_density f g z v.
Proof.
  intros Nf Ng H. exists v. rewrite !atom_sum_none by auto. split; [|ring]. eapply has_int_ext; [exact H|]. intros t. cbv beta.
  rewrite <- (dens_support f t Nf) at 2. rewrite <- (dens_support g (z - t) Ng) at 2. rewrite Rabs_R1. ring.
Qed.
Lemma curve_prod f g z v : no_atoms f -> no_atoms g -> curve_density f g (fun x y => dens f x * dens g y) (fun t z => z / t) (fun t _ => / t) z v -> prod_density f g z v.
Proof.
  intros Nf Ng H. exists v. rewrite !atom_sum_none by auto. split; [|ring]. eapply has_int_ext; [exact H|]. intros t. cbv beta.
  rewrite <- (dens_support f t Nf) at 2. rewrite <- (dens_support g (z / t) Ng) at 2. rewrite Rabs_inv. ring.
Qed.
