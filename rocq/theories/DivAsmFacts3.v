(** Proofs about whole quotients: values and atoms. *)
From Coq Require Import Reals Lra Lia List Bool Sorted Permutation.
From Coquelicot Require Import Coquelicot.
From Verif Require Import Base Bisect BisectFacts Seg Piecewise PiecewiseSpec PiecewiseFacts PiecewiseFacts2 PiecewiseFacts3 PiecewiseFacts4 Integral IntegralFacts SegInt SegIntSpec IntParts IntPartsFacts Wide WideMain Indep IndepSpec AtomFacts AtomFacts2 AtomFacts3 ConvolFacts IndepAsm AsmFacts ExtrFacts ExtrFacts2 ExtrFacts3 QuotFacts QuotFacts2 ProdFacts ProdFacts2 ProdMain ProdAsm ProdAsmSpec ProdAsmFacts DivAsm DivAsmSpec DivAsmFacts DivAsmFacts2.
Import List ListNotations.
Open Scope R_scope.

Lemma atom_sum_diracs w l l' : getDiracs l' = getDiracs l -> atom_sum w l' = atom_sum w l.
Proof.
  intros E. assert (G : forall t, atom_sum w t = sumR (map (fun s => match s with DiracSeg a m => m * w a | _ => 0 end) (getDiracs t))).
  { intros t. unfold atom_sum, getDiracs. induction t as [|s t IH]; auto. cbn [map filter]. rewrite sumR_cons, IH. destruct s; cbn [isDirac map]; rewrite ?sumR_cons; ring. }
  rewrite !G, E. auto.
Qed.
Lemma atom_In l a m : In (DiracSeg a m) l <-> In (DiracSeg a m) (getDiracs l).
Proof. unfold getDiracs. rewrite filter_In. simpl. tauto. Qed.
Lemma atom_In_eq l l' a m : getDiracs l' = getDiracs l -> In (DiracSeg a m) l' <-> In (DiracSeg a m) l.
Proof. intros E. rewrite atom_In, E, <- atom_In. tauto. Qed.

Section Quotient.
Variables (eps ueps : R) (nz : bool) (f g f' g' : list segment).
Hypothesis He : 0 <= eps.
Hypothesis Rf : refines f f'.
Hypothesis Rg : refines g g'.
Hypothesis Wf : Forall wf_seg f.
Hypothesis Wg : Forall wf_seg g.
Hypothesis QS : quots_sep ueps f g.
Notation dub := (dub ueps nz f' g').

Definition dval (z x : R) : R := val (fun_div (findSegListDiv f' g' z) x).
Lemma ref_quot_density x v : x <> 0 -> ~ end_quot f g x -> getDiracs g = [] -> quot_density f' g' x v -> quot_density f g x v.
Proof.
  intros X N Gd (I & HI & ->).
  destruct Rf as (_ & _ & Df & _ & Ef & _ & _ & Nf), Rg as (_ & _ & Dg & _ & Eg & _ & _ & Ng). exists I. split.
  - apply (has_int_ext_fin _ _ (map (fun p => p / x) (fin_pts (getBreaks f')) ++ fin_pts (getBreaks g')) _ _ _ HI).
    intros t _ NI. rewrite (Nf (x * t)), (Ng t); auto.
    + intros K. apply NI. apply in_app_iff. right. apply fin_pts_In, getBreaks_end; auto.
    + intros K. apply NI. apply in_app_iff. left. apply in_map_iff. exists (x * t). split; [field; auto|]. apply fin_pts_In, getBreaks_end; auto.
  - rewrite !(atom_sum_diracs _ f f'), !(atom_sum_diracs _ g g') by auto. f_equal; [f_equal|].
    + unfold atom_sum. f_equal. apply map_ext_in. intros s Hs. destruct s as [| | | |a m|]; auto. destruct (Req_dec a 0) as [->|Na].
      * rewrite Rabs_R0. ring.
      * rewrite (Ng (a / x)); auto. intros K. apply N. exists a, (a / x). splits; auto.
        -- left. exists (DiracSeg a m). simpl; auto.
        -- unfold Rdiv. apply Rmult_integral_contrapositive_currified; auto. apply Rinv_neq_0_compat; auto.
        -- field. auto.
    + rewrite <- (atom_sum_diracs _ g (getDiracs g)), <- (atom_sum_diracs (fun b => dens f (x * b) * Rabs b) g (getDiracs g)), Gd; auto;
      unfold getDiracs; clear; induction g as [|s l IH]; auto; simpl; destruct (isDirac s) eqn:D; simpl; rewrite ?D, IH; auto.
Qed.
Lemma ref_kernel x : x <> 0 -> quot_integrable f g x ->
  kernel_integrable (fun t => x * t) (fun t => t) Rabs f' g' /\ kernel_integrable (fun t => t) (fun t => t / x) (fun t => Rabs t / x / x) f' g'.
Proof.
  intros X HI. destruct Rf as (_ & _ & _ & _ & _ & _ & Pf & _), Rg as (_ & _ & _ & _ & _ & _ & Pg & _).
  split; intros si sj a b Hi Hj Di Dj L H; destruct (Pf si Hi) as (ti & Ti & Ei & Fi & Ai & Bi), (Pg sj Hj) as (tj & Tj & Ej & Fj & Aj & Bj); rewrite Fi, Fj; rewrite Ei in Di; rewrite Ej in Dj;
  destruct (HI ti tj a b Ti Tj Di Dj L) as (H1 & H2); [apply H1|apply H2]; intros t T1 T2; destruct (proj1 (H t) (conj T1 T2)) as (K1 & K2 & K3 & K4);
  (split; [exact (Rbar_le_lt_trans _ _ _ Ai K1)|split; [exact (Rbar_lt_le_trans _ _ _ K2 Bi)|split; [exact (Rbar_le_lt_trans _ _ _ Aj K3)|exact (Rbar_lt_le_trans _ _ _ K4 Bj)]]]).
Qed.
Lemma ref_gd : getDiracs g = [] -> getDiracs g' = [].
Proof. intros H. destruct Rg as (_ & _ & -> & _). auto. Qed.
Lemma dval_density a b (z x : R) : In (a, b) (pairs_up dub) -> Rbar_lt a z -> Rbar_lt z b -> Rbar_lt a x -> Rbar_lt x b -> x <> 0 -> ~ end_quot f g x ->
  getDiracs g = [] -> quot_integrable f g x -> quot_density f g x (dval z x).
Proof.
  intros H A1 B1 A2 B2 X N Gd HI. apply ref_quot_density; auto. destruct (ref_kernel x X HI) as (K1 & K2).
  assert (SC : same_quot_cell f' g' z x) by (eapply cell_same; eauto).
  destruct (quot_point_exact_main f' g' z x X) as (P1 & P2); auto using ref_gd; try apply Rf; try apply Rg.
  unfold dval, fun_div. destruct (rlt (Rabs x) 1).
  - destruct (P1 K1) as (v & -> & D). auto.
  - destruct (P2 K2) as (v & -> & D). auto.
Qed.
Lemma outside_quot (x : R) : x <> 0 -> ~ end_quot f g x -> getDiracs g = [] -> quot_integrable f g x ->
  (forall y, In y dub -> Rbar_lt x y) \/ (forall y, In y dub -> Rbar_lt y x) -> quot_density f g x 0.
Proof.
  intros X N Gd HI S. destruct (ref_kernel x X HI) as (K1 & K2).
  assert (SC : same_quot_cell f' g' x x).
  { split; [nra|]. intros p q Hp Hq Q. assert (K : In (Finite (p / q)) dub). { eapply quots_dub; eauto. apply (quots_quot nz f' g' p q); auto. unfold op_div. destruct (reqP q 0); auto; congruence. }
    unfold same_side. destruct S as [S|S]; specialize (S _ K); simpl in S; auto. }
  destruct (quot_point_exact_main f' g' x x X) as (P1 & _); auto using ref_gd; try apply Rf; try apply Rg. destruct (P1 K1) as (v & V & D).
  assert (E : findSegListDiv f' g' x = []).
  { destruct (findSegListDiv f' g' x) as [|(si, sj) l] eqn:E; auto. exfalso. assert (Hp : In (si, sj) (findSegListDiv f' g' x)) by (rewrite E; simpl; auto).
    assert (HS : In si f' /\ In sj g'). { apply (seg_pairs_In f' g' (si, sj)). unfold findSegListDiv in Hp. apply filter_In in Hp. tauto. }
    destruct HS as (Hi & Hj). pose proof (g_cont g' (ref_gd Gd) sj Hj) as Dj.
    destruct Rf as (_ & W1 & _), Rg as (_ & W2 & _ & O2 & _).
    destruct (quot_pairs_exact_main f' g' x X W1 W2 si sj Hi Hj) as (PE & _). apply PE in Hp; auto. destruct Hp as (u & t & Tu & Tt & Eq).
    rewrite Forall_forall in W1, W2, O2.
    assert (CU : Rbar_le (sa si) u /\ Rbar_le u (sb si)).
    { unfold takes in Tu. destruct (isDirac si) eqn:Di. - destruct si; try discriminate. simpl in Tu |- *. injection Tu as ->. split; apply Rle_refl. - split; apply Rbar_lt_le; apply Tu. }
    assert (CT : Rbar_le (sa sj) t /\ Rbar_le t (sb sj)) by (unfold takes in Tt; rewrite Dj in Tt; split; apply Rbar_lt_le; apply Tt).
    assert (T0 : t <> 0).
    { intros ->. unfold takes in Tt; rewrite Dj in Tt. destruct (O2 sj Hj) as [O|O].
      - pose proof (Rbar_le_lt_trans 0 (sa sj) 0 O (proj1 Tt)) as Z. simpl in Z. lra.
      - pose proof (Rbar_lt_le_trans 0 (sb sj) 0 (proj2 Tt) O) as Z. simpl in Z. lra. }
    assert (EX : u / t = x) by (rewrite Eq; field; auto).
    destruct S as [S|S].
    - destruct (quot_lower nz f' g' si sj u t) as (r & R1 & R2); auto; try tauto. rewrite EX in R2. eapply quots_dub in R1; eauto. specialize (S _ R1).
      apply (Rbar_lt_not_eq x x); auto. eapply Rbar_lt_le_trans; eauto.
    - destruct (quot_upper nz f' g' si sj u t) as (r & R1 & R2); auto; try tauto. rewrite EX in R2. eapply quots_dub in R1; eauto. specialize (S _ R1).
      apply (Rbar_lt_not_eq x x); auto. eapply Rbar_le_lt_trans; eauto. }
  rewrite E in V. simpl in V. injection V as <-. apply ref_quot_density; auto.
Qed.
End Quotient.

Lemma fin_end l : Forall wf_seg l -> l <> [] -> exists p : R, is_end l p.
Proof.
  intros W N. destruct l as [|s l]; [congruence|]. unfold is_end. destruct s as [a b h|a b c|b h|a h|a m|a b h lf]; eexists; eexists; (split; [left; reflexivity|]); simpl; eauto.
Qed.
Lemma nz_end l : Forall wf_seg l -> l <> [] -> ~ In 0 (dirac_pos l) -> exists q : Rbar, is_end l q /\ q <> Finite 0.
Proof.
  intros W N Z. destruct l as [|s l]; [congruence|]. inversion W as [|? ? Ws Wl]; subst. destruct (Rbar_eq_dec (sa s) 0) as [E|E]; [|exists (sa s); split; auto; exists s; simpl; auto].
  exists (sb s). split; [exists s; simpl; auto|]. intros E'. assert (D : isDirac s = true) by (apply wf_degenerate; auto; congruence).
  destruct s; try discriminate. simpl in E. injection E as ->. apply Z. simpl. auto.
Qed.
Lemma convdiv_struct eps ueps nz f g : 0 <= eps -> ordered f -> ordered g -> Forall wf_seg f -> Forall wf_seg g -> dirac_sep eps f -> dirac_sep eps g ->
  f <> [] -> g <> [] -> ~ In 0 (dirac_pos g) -> quots_sep ueps f g -> values_sep eps Rdiv f g ->
  exists f' g' q, refines f f' /\ refines g g' /\ good_ub (dub ueps nz f' g') /\ convdiv eps ueps nz f g = Ok q /\ good eps (segs q) /\
    getSegments (segs q) = cells (dval f' g') (dub ueps nz f' g') /\ (forall z, pm (segs q) z = pm_op Rdiv f g z) /\
    (forall b, In b (dirac_pos (segs q)) <-> exists x m y k, In (DiracSeg x m) f /\ In (DiracSeg y k) g /\ b = x / y).
Proof.
  intros He Of Og Wf Wg Sf Sg Nf Ng Z QS VS.
  destruct (split_zero_ok eps f Of Wf Sf Nf) as (f' & F1 & Rf). destruct (split_zero_ok eps g Og Wg Sg Ng) as (g' & G1 & Rg).
  assert (GU : good_ub (dub ueps nz f' g')).
  { eapply dub_good; eauto.
    - destruct (fin_end f Wf Nf) as (p & Hp). exists p. destruct Rf as (_ & _ & _ & _ & _ & E & _). auto.
    - destruct (nz_end g Wg Ng Z) as (q & Hq & Q). exists q. destruct Rg as (_ & _ & _ & _ & _ & E & _). auto. }
  destruct (convdiracs_ok eps Rdiv f' g' He) as (d & h & D1 & D2 & D3 & D4 & D5 & D6).
  assert (Df : getDiracs f' = getDiracs f) by apply Rf. assert (Dg : getDiracs g' = getDiracs g) by apply Rg.
  assert (VS' : values_sep eps Rdiv f' g').
  { intros x m y k x' m' y' k' H1 H2 H3 H4. apply (atom_In_eq f f') in H1, H3; auto. apply (atom_In_eq g g') in H2, H4; auto. eapply VS; eauto. }
  destruct (D6 VS') as (D7 & D8).
  assert (NZ : forall y k, In (DiracSeg y k) g' -> y <> 0).
  { intros y k H ->. apply Z. apply dirac_pos_In. exists k. apply (atom_In_eq g g'); auto. }
  destruct (asm_atoms eps (dval f' g') (dub ueps nz f' g') (segs d) He GU D3) as (q & Q1 & Q2 & Q3 & Q4 & Q5).
  { intros a Ha. apply D8 in Ha. destruct Ha as (x & m & y & k & Hx & Hy & ->). eapply quots_dub; eauto. apply (quots_quot nz f' g' x y).
    - exists (DiracSeg x m); simpl; auto.
    - exists (DiracSeg y k); simpl; auto.
    - unfold op_div. destruct (reqP y 0) as [E|E]; auto. exfalso. eapply NZ; eauto. }
  { intros a b Ha Hb. apply D8 in Ha, Hb. destruct Ha as (x & m & y & k & Hx & Hy & ->). destruct Hb as (x' & m' & y' & k' & Hx' & Hy' & ->). eapply VS'; eauto. }
  exists f', g', q. splits; auto.
  - unfold convdiv. rewrite F1, G1. cbn [rbind]. fold (dub ueps nz f' g').
    assert (HF : has_fin (dub ueps nz f' g') = true). { destruct GU as (_ & r & Hr). unfold has_fin. apply existsb_exists. exists (Finite r). auto. }
    rewrite HF. change (fun z x => val (fun_div (findSegListDiv f' g' z) x)) with (dval f' g').
    assert (DZ : divides_zero f' g' = false).
    { unfold divides_zero. apply andb_false_iff. right. apply Bool.not_true_is_false. intros K. apply existsb_exists in K. destruct K as (s & Hs & K). apply andb_true_iff in K. destruct K as (K1 & K2).
      destruct s; try discriminate. destruct (beqP (sa (DiracSeg a m)) 0) as [E|E]; [|discriminate]. simpl in E. injection E as ->. eapply NZ; eauto. }
    rewrite DZ, D1. cbn [rbind]. rewrite (discrete_getDiracs _ D3). exact Q1.
  - intros z. rewrite Q4, D5. unfold pm_op. rewrite <- (pair_sum_diracs _ f g), <- Df, <- Dg, pair_sum_diracs. apply pair_sum_ext. intros. rewrite D7. auto.
  - intros b. rewrite Q5, D8. split; intros (x & m & y & k & H1 & H2 & ->); exists x, m, y, k; splits; auto;
      solve [apply (atom_In_eq f f'); auto | apply (atom_In_eq g g'); auto | apply (atom_In_eq f f') in H1; auto | apply (atom_In_eq g g') in H2; auto].
Qed.
