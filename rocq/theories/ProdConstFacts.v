(** Proofs about products with a constant. *)
From Coq Require Import Reals Lra Lia List Bool Sorted Permutation.
From Coquelicot Require Import Coquelicot.
From Verif Require Import Base Bisect Seg Piecewise PiecewiseSpec PiecewiseFacts PiecewiseFacts2 PiecewiseFacts3 PiecewiseFacts4 Integral IntegralFacts SubstFacts SegInt SegIntSpec IntParts IntPartsFacts Wide WideMain Indep IndepSpec AtomFacts AtomFacts2 AtomFacts3 ConvolFacts IndepAsm AsmFacts ExtrFacts ExtrFacts2 ExtrFacts3 ProdFacts ProdFacts2 QuotFacts QuotFacts2 ProdAsm ProdAsmSpec ProdAsmFacts DensLaw.
From Verif Require TransformSpec SegIntFacts.
Import List ListNotations.
Open Scope R_scope.

(** between two neighbouring ends the density is the function of one piece or zero *)
Lemma dens_between l a b : Rbar_lt a b -> ordered l -> Forall wf_seg l -> (forall p : R, is_end l p -> ~ (Rbar_lt a p /\ Rbar_lt p b)) ->
  (exists s, In s l /\ isDirac s = false /\ Rbar_le (sa s) a /\ Rbar_le b (sb s) /\ forall t : R, RbarIn a b t -> dens l t = sf s t) \/
  (forall t : R, RbarIn a b t -> dens l t = 0).
Proof.
  intros L O W N.
  assert (IN : forall s (x t : R), In s l -> RbarIn a b x -> RbarIn a b t -> Rbar_lt (sa s) x -> Rbar_lt x (sb s) -> Rbar_lt (sa s) t /\ Rbar_lt t (sb s)).
  { intros s x t Hs (X1 & X2) (T1 & T2) A B. split.
    - destruct (Rbar_lt_dec a (sa s)) as [K|K].
      + exfalso. pose proof (Rbar_lt_trans (sa s) x b A X2) as K2. destruct (sa s) as [p| |] eqn:E; simpl in A; try tauto; [apply (N p); [exists s; rewrite E; auto|split; auto]|destruct a; simpl in K; auto].
      + apply Rbar_not_lt in K. apply (Rbar_le_lt_trans (sa s) a t); auto.
    - destruct (Rbar_lt_dec (sb s) b) as [K|K].
      + exfalso. pose proof (Rbar_lt_trans a x (sb s) X1 B) as K2. destruct (sb s) as [p| |] eqn:E; simpl in B; try tauto; apply (N p); [exists s; rewrite E; auto|split; auto].
      + apply Rbar_not_lt in K. apply (Rbar_lt_le_trans t b (sb s)); auto. }
  destruct (between a b L) as (x & X1 & X2).
  destruct (Exists_dec (fun s => isDirac s = false /\ Rbar_lt (sa s) x /\ Rbar_lt x (sb s)) l) as [E|E].
  { intros s. destruct (Bool.bool_dec (isDirac s) false), (Rbar_lt_dec (sa s) x), (Rbar_lt_dec x (sb s)); auto; right; tauto. }
  - left. apply Exists_exists in E. destruct E as (s & Hs & D & A & B). exists s.
    assert (IS : forall t : R, RbarIn a b t -> Rbar_lt (sa s) t /\ Rbar_lt t (sb s)) by (intros; apply (IN s x t); auto; split; auto).
    splits; auto.
    + destruct (Rbar_lt_dec a (sa s)) as [K|K]; [|apply Rbar_not_lt; auto]. exfalso. pose proof (Rbar_lt_trans (sa s) x b A X2) as K2. 
      destruct (sa s) as [p| |] eqn:E; simpl in A; try tauto; [apply (N p); [exists s; rewrite E; auto|split; auto]|destruct a; simpl in K; auto].
    + destruct (Rbar_lt_dec (sb s) b) as [K|K]; [|apply Rbar_not_lt; auto]. exfalso. pose proof (Rbar_lt_trans a x (sb s) X1 B) as K2.
      destruct (sb s) as [p| |] eqn:E; simpl in B; try tauto; apply (N p); [exists s; rewrite E; auto|split; auto].
    + intros t T. rewrite dens_sum. destruct (IS t T) as (T1 & T2).
      destruct (in_split _ _ Hs) as (l1 & l2 & ->). rewrite map_app, sumR_app. cbn [map]. rewrite sumR_cons.
      assert (Z : forall s', In s' l1 \/ In s' l2 -> dens1 s' t = 0).
      { intros s' Hs'. unfold dens1. destruct (isDirac s') eqn:D'; auto. destruct (Rbar_lt_dec (sa s') t) as [A'|A']; auto. destruct (Rbar_lt_dec t (sb s')) as [B'|B']; auto. exfalso.
        unfold ordered in O. 
        assert (K : before s' s \/ before s s').
        { apply SS_app in O. destruct O as (_ & O2 & O3). apply StronglySorted_inv in O2. destruct O2 as (_ & F). rewrite Forall_forall in F.
          destruct Hs' as [H|H]; [left; apply O3; simpl; auto|right; apply F; auto]. }
        destruct K as [(K & _)|(K & _)].
        - pose proof (Rbar_lt_le_trans _ _ _ B' K) as M. apply (Rbar_lt_not_eq t t (Rbar_lt_trans t (sa s) t M T1)); auto.
        - pose proof (Rbar_lt_le_trans _ _ _ T2 K) as M. apply (Rbar_lt_not_eq t t (Rbar_lt_trans t (sa s') t M A')); auto. }
      assert (S0 : forall k, (forall s', In s' k -> dens1 s' t = 0) -> sumR (map (fun s => dens1 s t) k) = 0).
      { intros k. induction k as [|s' k IH]; intros K; auto. cbn [map]. rewrite sumR_cons, K, IH; simpl; auto; [ring|]. intros; apply K; simpl; auto. }
      rewrite !S0 by auto. unfold dens1. rewrite D. destruct (Rbar_lt_dec (sa s) t); [|tauto]. destruct (Rbar_lt_dec t (sb s)); [ring|tauto].
  - right. intros t T. rewrite dens_sum. assert (S0 : forall k, (forall s', In s' k -> dens1 s' t = 0) -> sumR (map (fun s => dens1 s t) k) = 0).
    { intros k. induction k as [|s' k IH]; intros K; auto. cbn [map]. rewrite sumR_cons, K, IH; simpl; auto; [ring|]. intros; apply K; simpl; auto. }
    apply S0. intros s Hs. unfold dens1. destruct (isDirac s) eqn:D; auto. destruct (Rbar_lt_dec (sa s) t) as [A|A]; auto. destruct (Rbar_lt_dec t (sb s)) as [B|B]; auto.
    exfalso. apply E. apply Exists_exists. exists s. split; [auto|split; [auto|]]. apply (IN s t x); auto. split; auto.
Qed.

Lemma integrable_zero h a b : Rbar_lt a b -> (forall t : R, RbarIn a b t -> h t = 0) -> integrable h a b.
Proof. intros L E. pose proof (SegIntFacts.prim_zero h a b L E) as P. eapply prim_integrable; eauto. Qed.
Lemma integrable_lin k h a b : k <> 0 -> integrable h a b ->
  integrable (fun s => h (k * s) * Rabs k) (if Rlt_dec 0 k then Rbar_mult a (/ k) else Rbar_mult b (/ k))
                                          (if Rlt_dec 0 k then Rbar_mult b (/ k) else Rbar_mult a (/ k)).
Proof.
  intros K H1. destruct (integrable_prim _ _ _ H1) as (G & P).
  assert (L : Rbar_lt a b) by apply H1. destruct (lin_onto k a b L) as (L1 & L2).
  destruct (Rlt_dec 0 k) as [Kp|Kn].
  - destruct (subst_lin h a b G k 0 _ _ P K (or_introl (conj Kp (L1 Kp)))) as (S1 & S2).
    eapply integrable_ext; [|exact S1]. intros t _. simpl. rewrite Rplus_0_r. ring.
  - assert (Kn' : k < 0) by lra. destruct (subst_lin h a b G k 0 _ _ P K (or_intror (conj Kn' (L2 Kn')))) as (S1 & S2).
    eapply integrable_ext; [|exact S1]. intros t _. simpl. rewrite Rplus_0_r. ring.
Qed.
Lemma mult_back (c : R) a : c <> 0 -> Rbar_mult (Rbar_mult a (/ c)) c = a.
Proof. intros C. rewrite Rbar_mult_comm. apply mul_inv; auto. Qed.
Lemma mult_back' (c : R) a : c <> 0 -> Rbar_mult (Rbar_mult a c) (/ c) = a.
Proof. intros C. pose proof (mult_back (/ c) a (Rinv_neq_0_compat c C)) as H. rewrite Rinv_inv in H. auto. Qed.
Lemma scale_in (c : R) a b (x : R) : c <> 0 -> Rbar_lt a b ->
  RbarIn a b (x * c) <-> RbarIn (if Rlt_dec 0 c then Rbar_mult a (/ c) else Rbar_mult b (/ c)) (if Rlt_dec 0 c then Rbar_mult b (/ c) else Rbar_mult a (/ c)) x.
Proof.
  intros C L. rewrite <- (mul_inv c a C) at 1. rewrite <- (mul_inv c b C) at 1. unfold RbarIn.
  assert (E : Finite (x * c) = Rbar_mult c x) by (simpl; f_equal; ring). rewrite E. destruct (Rlt_dec 0 c).
  - rewrite !(mul_pos_lt c) by auto. tauto.
  - rewrite !(mul_neg_lt c) by lra. tauto.
Qed.

Section Const.
Variables (eps ueps : R) (f : list segment) (c w : R).
Hypothesis He : 0 <= eps.
Hypothesis Of : ordered f.
Hypothesis Wf : Forall wf_seg f.
Hypothesis If : Forall integrable_piece f.
Hypothesis Sf : dirac_sep eps f.
Hypothesis Ef : not_zero f.
Hypothesis C0 : c <> 0.
Let g := [DiracSeg c w].
Hypothesis PS : prods_sep ueps f g.

Lemma cg_wf : Forall wf_seg g. Proof. repeat constructor. Qed.
Lemma cg_nz : not_zero g. Proof. exists (DiracSeg c w). split; [simpl; auto|]. intros m H. injection H; auto. Qed.
Lemma cg_end (p : Rbar) : cut_end g p <-> p = Finite c.
Proof.
  split.
  - intros [(s & [<-|[]] & K)|(_ & s & [<-|[]] & K1 & K2)]; simpl in *; [destruct K; auto|]. destruct p; simpl in *; try tauto; lra.
  - intros ->. left. exists (DiracSeg c w). simpl; auto.
Qed.
Lemma c_prod (r : R) : end_prod f g r <-> cut_end f (r / c).
Proof.
  split.
  - intros (p & q & Hp & Hq & ->). apply cg_end in Hq. injection Hq as ->. replace (p * c / c) with p by (field; auto). auto.
  - intros H. exists (r / c), c. splits; auto; [apply cg_end; auto|field; auto].
Qed.
(** density of the product *)
Lemma c_density x v : prod_density f g x v -> v = w * (dens f (x / c) * / Rabs c).
Proof.
  intros (I & HI & ->). assert (I = 0).
  { assert (Z : forall t, dens g t = 0) by (intros; unfold dens, g; simpl; ring). apply (has_int_unique _ _ _ _ HI). apply has_int_zero; simpl; auto. intros t _. rewrite Z. ring. }
  subst I. unfold atom_sum at 2. cbn [map g]. rewrite sumR_cons. destruct (Req_EM_T c 0); [contradiction|].
  assert (Z : atom_sum (fun a => if Req_EM_T a 0 then 0 else dens g (x / a) * / Rabs a) f = 0).
  { unfold atom_sum. rewrite (sumR_ext _ (fun _ => 0 * 0)); [rewrite sumR_scal; ring|]. intros s _. destruct s; try ring. destruct (Req_EM_T a 0); try ring. unfold dens, g. simpl. ring. }
  rewrite Z. simpl. ring.
Qed.
Lemma c_integrable x : prod_integrable f g x.
Proof. intros si sj a b _ [<-|[]] _ D. discriminate. Qed.

Lemma cut_const : cut g = g.
Proof.
  unfold cut, split_all, g. cbn [flat_map]. rewrite app_nil_r.
  destruct (split_seg_spec cut_points (DiracSeg c w) cut_sorted) as (_ & _ & _ & E & _); [simpl; auto|]. apply E. auto.
Qed.
Lemma cut_lt s : In s (cut f) -> Rbar_le (sa s) (sb s).
Proof. intros H. destruct (cut_part f s Wf H) as (_ & _ & W & _). destruct s; simpl in *; auto; lra. Qed.
(** a cell that contains zero carries no density *)
Lemma cell_zero a b (z x : R) : In (a, b) (pairs_up (pub ueps f g)) -> Rbar_lt a z -> Rbar_lt z b -> Rbar_lt a x -> Rbar_lt x b -> Rbar_lt a 0 -> Rbar_lt 0 b ->
  pval f g z x = 0.
Proof.
  intros H A1 B1 A2 B2 A0 B0. rewrite (pval_cell ueps f g) with (a := a) (b := b); auto using cg_wf, cg_nz; try (repeat constructor; fail).
  assert (E : filter (fun p => prodrel x (fst p) (snd p)) (seg_pairs (cut f) (cut g)) = []).
  { destruct (filter _ _) as [|p l] eqn:E; auto. exfalso. assert (Hp : In p (p :: l)) by (simpl; auto). rewrite <- E in Hp. apply filter_In in Hp. destruct Hp as (Hp & R).
    apply seg_pairs_In in Hp. destruct Hp as (Hi & Hj).
    rewrite (prodrel_same ueps f g) with (a := a) (b := b) (x := 0) in R; auto using cg_wf, cg_nz; try (repeat constructor; fail).
    pose proof (cut_one_sided f Wf) as O1. rewrite Forall_forall in O1. specialize (O1 _ Hi).
    rewrite cut_const in Hj. destruct Hj as [Hj|[]]. rewrite <- Hj in R. apply prodrel_true in R. destruct R as ((r & (p1 & q1 & P1 & Q1 & E1) & L1) & r' & (p2 & q2 & P2 & Q2 & E2) & L2).
    assert (q1 = Finite c) by (simpl in Q1; destruct Q1; auto). assert (q2 = Finite c) by (simpl in Q2; destruct Q2; auto). subst q1 q2.
    rewrite op_mul_some in E1, E2 by auto. injection E1 as <-. injection E2 as <-. rewrite Rbar_mult_comm in L1, L2.
    assert (Z : Rbar_mult c 0 = Finite 0) by (simpl; f_equal; ring). rewrite <- Z in L1, L2.
    destruct (Rlt_dec 0 c) as [Cp|Cn].
    - apply mul_pos_lt in L1; auto. apply mul_pos_lt in L2; auto.
      destruct O1 as [O1|O1].
      + assert (K : Rbar_le 0 p1) by (destruct P1 as [->| ->]; auto; apply Rbar_le_trans with (sa (fst p)); auto; apply cut_lt; auto).
        apply (Rbar_lt_not_eq 0 0 (Rbar_le_lt_trans 0 p1 0 K L1)); auto.
      + assert (K : Rbar_le p2 0) by (destruct P2 as [->| ->]; auto; apply Rbar_le_trans with (sb (fst p)); auto; apply cut_lt; auto).
        apply (Rbar_lt_not_eq 0 0 (Rbar_lt_le_trans 0 p2 0 L2 K)); auto.
    - apply mul_neg_lt in L1; [|lra]. apply mul_neg_lt in L2; [|lra].
      destruct O1 as [O1|O1].
      + assert (K : Rbar_le 0 p2) by (destruct P2 as [->| ->]; auto; apply Rbar_le_trans with (sa (fst p)); auto; apply cut_lt; auto).
        apply (Rbar_lt_not_eq 0 0 (Rbar_le_lt_trans 0 p2 0 K L2)); auto.
      + assert (K : Rbar_le p1 0) by (destruct P1 as [->| ->]; auto; apply Rbar_le_trans with (sb (fst p)); auto; apply cut_lt; auto).
        apply (Rbar_lt_not_eq 0 0 (Rbar_lt_le_trans 0 p1 0 L1 K)); auto. }
  rewrite E. reflexivity.
Qed.
(** in a cell the value is that of one piece, scaled *)
Lemma cell_value a b : In (a, b) (pairs_up (pub ueps f g)) -> let a' := Rbar_mult a (/ c) in let b' := Rbar_mult b (/ c) in
  forall z x : R, RbarIn a b z -> RbarIn a b x -> (Rbar_lt a 0 -> Rbar_lt 0 b -> False) -> pval f g z x = w * (dens f (x / c) * / Rabs c).
Proof.
  intros H a' b' z x (Z1 & Z2) (X1 & X2) N0. apply c_density. apply (pval_density ueps f g) with (a := a) (b := b); auto using cg_wf, cg_nz, c_integrable; try (repeat constructor; fail).
  intros ->. auto.
Qed.

Lemma cell_integrable a b (z : R) : In (a, b) (pairs_up (pub ueps f g)) -> RbarIn a b z -> integrable (pval f g z) a b.
Proof.
  intros H Z. assert (PG : good_ub (pub ueps f g)) by (apply pub_good; auto using cg_wf, cg_nz; repeat constructor).
  pose proof H as H'. apply pairs_up_In in H'; [|apply PG]. destruct H' as (_ & _ & L & N).
  destruct (Rbar_lt_dec a 0) as [A0|A0]; [destruct (Rbar_lt_dec 0 b) as [B0|B0]|].
  { apply integrable_zero; auto. intros t (T1 & T2). destruct Z. apply (cell_zero a b); auto. }
  all: assert (N0 : Rbar_lt a 0 -> Rbar_lt 0 b -> False) by tauto; clear A0; try clear B0.
  all: assert (V : forall x : R, RbarIn a b x -> w * (dens f (x / c) * / Rabs c) = pval f g z x) by (intros; symmetry; eapply cell_value; eauto).
  all: apply (integrable_ext _ _ a b V).
  all: set (lo := if Rlt_dec 0 c then Rbar_mult a (/ c) else Rbar_mult b (/ c)); set (hi := if Rlt_dec 0 c then Rbar_mult b (/ c) else Rbar_mult a (/ c)).
  all: assert (LH : Rbar_lt lo hi) by (unfold lo, hi; destruct (Rlt_dec 0 c); [apply (mul_pos_lt c)|apply (mul_neg_lt c)]; try lra; rewrite !mul_inv; auto).
  all: assert (NE : forall p : R, is_end f p -> ~ (Rbar_lt lo p /\ Rbar_lt p hi)).
  1,3: intros p Hp Hin; apply (scale_in c a b p C0 L) in Hin; apply (N (Finite (p * c))); [|exact Hin]; apply (pub_fin ueps f g); auto using cg_wf, cg_nz; try (repeat constructor; fail);
    apply c_prod; left; replace (p * c / c) with p by (field; auto); auto.
  all: destruct (dens_between f lo hi LH Of Wf NE) as [(s & Hs & D & A & B & E)|E].
  2,4: apply integrable_zero; auto; intros t T; rewrite E; [ring|]; apply (scale_in c a b (t / c) C0 L); replace (t / c * c) with t by (field; auto); auto.
  all: assert (I1 : integrable (sf s) lo hi) by (apply (integrable_sub _ (sa s) (sb s)); auto; rewrite Forall_forall in If; apply piece_has_int; auto).
  all: assert (KN : / c <> 0) by (apply Rinv_neq_0_compat; auto).
  all: pose proof (integrable_lin (/ c) (sf s) lo hi KN I1) as I2; rewrite Rinv_inv in I2.
  all: assert (EA : (if Rlt_dec 0 (/ c) then Rbar_mult lo c else Rbar_mult hi c) = a /\ (if Rlt_dec 0 (/ c) then Rbar_mult hi c else Rbar_mult lo c) = b).
  1,3: (unfold lo, hi; destruct (Rlt_dec 0 c) as [K|K]; destruct (Rlt_dec 0 (/ c)) as [K'|K']; rewrite ?mult_back by auto; auto; exfalso;
    [apply K'; apply Rinv_0_lt_compat; auto|apply K; rewrite <- (Rinv_inv c); apply Rinv_0_lt_compat; auto]).
  all: destruct EA as (E1 & E2); rewrite E1, E2 in I2.
  all: apply (integrable_ext (fun x => w * (sf s (/ c * x) * Rabs (/ c)))); [|apply integrable_scal; auto].
  all: intros x X; rewrite E; [rewrite Rabs_inv; replace (/ c * x) with (x / c) by (unfold Rdiv; ring); ring|].
  all: apply (scale_in c a b (x / c) C0 L); replace (x / c * c) with x by (field; auto); auto.
Qed.
(** law of the product with a constant *)
Lemma const_law : 0 <= cont_mass f -> 0 <= pm f 0 -> values_sep eps Rmult f g ->
  exists q, convprod eps ueps f g = Ok q /\ good eps (segs q) /\ Forall integrable_piece (segs q) /\
    (forall z, pm (segs q) z = w * pm f (z / c)) /\
    (forall x : R, x <> 0 -> ~ cut_end f (x / c) -> call_vec (segs q) x = w * (dens f (x / c) * / Rabs c)) /\
    (forall y : R, is_end (segs q) y -> cut_end f (y / c)) /\
    (forall u v, Rbar_lt u v -> (0 < c -> pprob (segs q) (Rbar_mult u c) (Rbar_mult v c) = w * pprob f u v) /\
                               (c < 0 -> pprob (segs q) (Rbar_mult v c) (Rbar_mult u c) = w * pprob f u v)).
Proof.
  intros Cf Zf VS.
  assert (Og : ordered g) by (repeat constructor). assert (Sg : dirac_sep eps g) by (repeat constructor). pose proof cg_wf as Wg. pose proof cg_nz as Eg.
  assert (Ig : Forall integrable_piece g) by (repeat constructor).
  assert (Z1 : cont_mass g = 0) by (unfold cont_mass, g; simpl; ring).
  assert (Z2 : pm g 0 = 0) by (unfold pm, g; simpl; destruct (Req_EM_T c 0); [contradiction|ring]).
  destruct (convprod_struct eps ueps f g) as (q & Q1 & (G1 & G2 & G3) & Q3 & Q4 & Q5 & Q6); auto; try lra.
  assert (PG : good_ub (pub ueps f g)) by (apply pub_good; auto).
  assert (PO : forall z, pm_op Rmult f g z = w * pm f (z / c)).
  { intros z. unfold pm_op, pair_sum, pm, g. rewrite <- sumR_scal. apply sumR_ext. intros s _. cbn [map]. rewrite sumR_cons. destruct s as [| | | |a m|]; simpl; try ring.
    destruct (Req_EM_T (a * c) z) as [E|E], (Req_EM_T a (z / c)) as [E'|E']; try ring; exfalso; [apply E'; rewrite <- E; field; auto|apply E; rewrite E'; field; auto]. }
  assert (PM : forall z, pm (segs q) z = w * pm f (z / c)).
  { intros z. destruct (Req_EM_T z 0) as [->|N]; [rewrite Q5, Z1, Z2, PO; ring|rewrite Q4, PO; auto]. }
  assert (IQ : Forall integrable_piece (segs q)).
  { apply Forall_forall. intros s Hs. destruct (isDirac s) eqn:D; [destruct s; try discriminate; exact I|].
    assert (C : In s (cells (pval f g) (pub ueps f g))) by (rewrite <- Q3; apply filter_In; split; auto; unfold isSegment; rewrite D; auto).
    unfold cells in C. apply in_map_iff in C. destruct C as ((a, b) & <- & H).
    destruct (cell_ends (pval f g) (pub ueps f g) (a, b) PG H) as (E1 & E2 & _ & _ & (p & P1 & P2 & P3) & E3).
    cbn [fst snd] in *. rewrite <- P1 in *.
    assert (K : integrable (sf (cell_piece (pval f g) (a, b))) (sa (cell_piece (pval f g) (a, b))) (sb (cell_piece (pval f g) (a, b)))).
    { rewrite E1, E2, E3. apply cell_integrable; auto. split; auto. }
    destruct a as [a| |], b as [b| |]; cbn [cell_piece] in *; exact K. }
  assert (EN : forall y : R, is_end (segs q) y -> cut_end f (y / c)).
  { intros y (s & Hs & E). apply c_prod. destruct (isDirac s) eqn:D.
    - apply Q6. destruct s; try discriminate. simpl in E. assert (K : Finite a = Finite y) by (destruct E; auto). injection K as ->. apply dirac_pos_In. eauto.
    - assert (C : In s (cells (pval f g) (pub ueps f g))) by (rewrite <- Q3; apply filter_In; split; auto; unfold isSegment; rewrite D; auto).
      unfold cells in C. apply in_map_iff in C. destruct C as (ab & <- & H).
      destruct (cell_ends (pval f g) (pub ueps f g) ab PG H) as (E1 & E2 & _). rewrite E1, E2 in E.
      destruct ab as (a, b). cbn [fst snd] in E. apply pairs_up_In in H; [|apply PG]. destruct H as (H1 & H2 & _).
      apply (pub_fin ueps f g); auto. destruct E as [->| ->]; auto. }
  assert (CV : forall x : R, x <> 0 -> ~ cut_end f (x / c) -> call_vec (segs q) x = w * (dens f (x / c) * / Rabs c)).
  { intros x X N. apply c_density.
    assert (N' : ~ end_prod f g x) by (rewrite c_prod; auto).
    destruct (asm_value (pval f g) (pub ueps f g) (segs q) x) as [(a & b & H & A & B & A' & B' & ->)|(S & ->)]; auto.
    - intros K. apply pub_fin in K; auto.
    - eapply pval_density; eauto using c_integrable.
    - eapply outside_density; eauto using c_integrable. }
  assert (LW : forall u v, Rbar_lt u v -> forall u' v', u' = (if Rlt_dec 0 c then Rbar_mult u c else Rbar_mult v c) -> v' = (if Rlt_dec 0 c then Rbar_mult v c else Rbar_mult u c) ->
     pprob (segs q) u' v' = w * pprob f u v).
  { intros u v L u' v' Eu Ev.
    assert (KN : / c <> 0) by (apply Rinv_neq_0_compat; auto).
    assert (SG : (if Rlt_dec 0 (/ c) then true else false) = if Rlt_dec 0 c then true else false).
    { destruct (Rlt_dec 0 c) as [K|K], (Rlt_dec 0 (/ c)) as [K'|K']; auto; exfalso; [apply K'; apply Rinv_0_lt_compat; auto|apply K; rewrite <- (Rinv_inv c); apply Rinv_0_lt_compat; auto]. }
    assert (HF : Forall TransformSpec.has_int f) by (eapply Forall_impl; [|exact If]; intros; apply piece_has_int; auto).
    assert (HQ : Forall TransformSpec.has_int (segs q)) by (eapply Forall_impl; [|exact IQ]; intros; apply piece_has_int; auto).
    pose proof (cont_law f u v L Wf HF) as C1.
    pose proof (has_int_lin (/ c) _ _ _ _ KN C1) as C2. rewrite Rinv_inv in C2.
    replace (if Rlt_dec 0 (/ c) then Rbar_mult u c else Rbar_mult v c) with u' in C2 by (rewrite Eu; destruct (Rlt_dec 0 c), (Rlt_dec 0 (/ c)); auto; discriminate).
    replace (if Rlt_dec 0 (/ c) then Rbar_mult v c else Rbar_mult u c) with v' in C2 by (rewrite Ev; destruct (Rlt_dec 0 c), (Rlt_dec 0 (/ c)); auto; discriminate).
    pose proof (has_int_lt _ _ _ _ C2) as L'.
    apply (has_int_scal _ _ _ _ w) in C2.
    pose proof (cont_law (segs q) u' v' L' G2 HQ) as C3.
    assert (CE : pprob (getSegments (segs q)) u' v' = w * pprob (getSegments f) u v).
    { apply (has_int_unique _ _ _ _ C3). apply (has_int_ext_fin _ _ (0 :: map (fun p => p * c) (fin_pts (getBreaks (cut f)))) _ _ _ C2).
      intros t _ NI. assert (T0 : t <> 0) by (intros ->; apply NI; simpl; auto).
      assert (NC : ~ cut_end f (t / c)). { intros K. apply NI. right. apply in_map_iff. exists (t / c). split; [field; auto|]. apply fin_pts_In, getBreaks_end, cut_ends; auto. }
      rewrite (dens_call_vec (segs q)); auto. rewrite CV, Rabs_inv by auto. replace (/ c * t) with (t / c) by (unfold Rdiv; ring). auto. }
    rewrite (pprob_parts (segs q)), (pprob_parts f), CE, (watom_scaled _ _ f w c C0 PM), Rmult_plus_distr_l. f_equal. f_equal.
    unfold watom. apply sumR_ext. intros s _. destruct s as [| | | |a m|]; auto. f_equal. unfold between_ind.
    pose proof (scale_in c u' v' a C0 L') as SI. unfold RbarIn in SI.
    assert (E1 : (if Rlt_dec 0 c then Rbar_mult u' (/ c) else Rbar_mult v' (/ c)) = u) by (rewrite Eu, Ev; destruct (Rlt_dec 0 c); apply mult_back'; auto).
    assert (E2 : (if Rlt_dec 0 c then Rbar_mult v' (/ c) else Rbar_mult u' (/ c)) = v) by (rewrite Eu, Ev; destruct (Rlt_dec 0 c); apply mult_back'; auto).
    rewrite E1, E2 in SI. destruct (Rbar_lt_dec u' (a * c)), (Rbar_lt_dec (a * c) v'), (Rbar_lt_dec u a), (Rbar_lt_dec a v); auto; tauto. }
  exists q. unfold good. splits; auto.
  intros u v L. split; intros K; apply (LW u v L); destruct (Rlt_dec 0 c); auto; exfalso; lra.
Qed.
End Const.
