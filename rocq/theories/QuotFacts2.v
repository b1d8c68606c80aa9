(** The values of the density of a quotient. *)
From Coq Require Import Reals Lra Lia List Bool Sorted Permutation.
From Coquelicot Require Import Coquelicot.
From Verif Require Import Base Bisect Seg Piecewise PiecewiseSpec PiecewiseFacts Integral IntegralFacts SubstFacts SegInt SegIntSpec IntParts IntPartsFacts Indep IndepSpec AtomFacts AtomFacts2 AtomFacts3 ConvolFacts PairFacts ExtrFacts QuotFacts.
Import List ListNotations.
Open Scope R_scope.

(** ** Scaling the variable of integration *)
Lemma lin_onto (k : R) a b : Rbar_lt a b ->
  (0 < k -> inc_onto (fun y => k * y + 0) (Rbar_mult a (/ k)) (Rbar_mult b (/ k)) a b) /\
  (k < 0 -> dec_onto (fun y => k * y + 0) (Rbar_mult b (/ k)) (Rbar_mult a (/ k)) a b).
Proof.
  intros AB.
  assert (M : forall y : R, k <> 0 -> Rbar_mult k (Finite y) = Finite (k * y + 0)) by (intros; simpl; f_equal; ring).
  split; intros K; assert (K0 : k <> 0) by lra.
  - assert (CD : Rbar_lt (Rbar_mult a (/ k)) (Rbar_mult b (/ k))) by (apply (mul_pos_lt k); auto; rewrite !mul_inv; auto).
    unfold inc_onto. splits; auto.
    + intros y (Y1 & Y2). rewrite <- (mul_inv k a K0), <- (mul_inv k b K0). split; rewrite <- (M y K0); apply mul_pos_lt; auto.
    + intros y z _ _ H. nra.
    + intros x (X1 & X2). exists (x / k). split; [|field; auto].
      split; apply (mul_pos_lt k); auto; rewrite mul_inv, M by auto; replace (k * (x / k) + 0) with x by (field; auto); auto.
  - assert (CD : Rbar_lt (Rbar_mult b (/ k)) (Rbar_mult a (/ k))) by (apply (mul_neg_lt k); auto; rewrite !mul_inv; auto).
    unfold dec_onto. splits; auto.
    + intros y (Y1 & Y2). rewrite <- (mul_inv k a K0), <- (mul_inv k b K0). split; rewrite <- (M y K0); apply mul_neg_lt; auto.
    + intros y z _ _ H. nra.
    + intros x (X1 & X2). exists (x / k). split; [|field; auto].
      split; apply (mul_neg_lt k); auto; rewrite mul_inv, M by auto; replace (k * (x / k) + 0) with x by (field; auto); auto.
Qed.
Lemma has_int_lin k h a b I : k <> 0 -> has_int h a b I ->
  has_int (fun s => h (k * s) * Rabs k) (if Rlt_dec 0 k then Rbar_mult a (/ k) else Rbar_mult b (/ k))
                                       (if Rlt_dec 0 k then Rbar_mult b (/ k) else Rbar_mult a (/ k)) I.
Proof.
  intros K H. induction H as [a b I H1 H2|a b c I J H1 IH1 H2 IH2].
  - destruct (integrable_prim _ _ _ H1) as (G & P).
    assert (E : I = G b - G a). { rewrite <- (prim_Q h a b G a b P); auto using Rbar_le_refl, Rbar_lt_le; try (apply Rbar_lt_le, H1). eapply has_int_one_unique; [apply has_int_one; eauto|auto]. }
    assert (L : Rbar_lt a b) by apply H1. destruct (lin_onto k a b L) as (L1 & L2).
    destruct (Rlt_dec 0 k) as [Kp|Kn].
    + destruct (subst_lin h a b G k 0 _ _ P K (or_introl (conj Kp (L1 Kp)))) as (S1 & S2).
      rewrite E, <- S2. eapply has_int_ext; [apply has_int_Q; exact S1|]. intros t. simpl. rewrite Rplus_0_r. ring.
    + assert (Kn' : k < 0) by lra. destruct (subst_lin h a b G k 0 _ _ P K (or_intror (conj Kn' (L2 Kn')))) as (S1 & S2).
      rewrite E, <- S2. eapply has_int_ext; [apply has_int_Q; exact S1|]. intros t. simpl. rewrite Rplus_0_r. ring.
  - destruct (Rlt_dec 0 k); [eapply has_int_cat; eauto|]. rewrite Rplus_comm. eapply has_int_cat; eauto.
Qed.
Lemma has_int_line k h I : k <> 0 -> has_int h m_infty p_infty I -> has_int (fun s => h (k * s) * Rabs k) m_infty p_infty I.
Proof.
  intros K H. pose proof (has_int_lin k h _ _ I K H) as P. rewrite (Rbar_mult_comm m_infty), (Rbar_mult_comm p_infty) in P. destruct (Rlt_dec 0 k).
  - assert (H0 : 0 < / k) by (apply Rinv_0_lt_compat; auto). rewrite (proj1 (mul_p_inf _ H0)), (proj2 (mul_p_inf _ H0)) in P. auto.
  - assert (H0 : / k < 0) by (apply Rinv_lt_0_compat; lra). rewrite (proj1 (mul_n_inf _ H0)), (proj2 (mul_n_inf _ H0)) in P. auto.
Qed.

(** ** Cells *)
Lemma div_cell1 f g z x p q : same_quot_cell f g z x -> is_end f p -> is_end g q ->
  (Rbar_lt p (Rbar_mult z q) <-> Rbar_lt p (Rbar_mult x q)) /\ (Rbar_lt (Rbar_mult z q) p <-> Rbar_lt (Rbar_mult x q) p).
Proof.
  intros (S & C) Hp Hq. assert (SG : (0 < z /\ 0 < x) \/ (z < 0 /\ x < 0)) by (destruct (Rtotal_order z 0) as [|[|]], (Rtotal_order x 0) as [|[|]]; try lra; nra).
  destruct q as [q| |].
  - rewrite !mul_fin. destruct p as [p| |]; simpl; try tauto. destruct (Req_dec q 0) as [->|Q0]; [rewrite !Rmult_0_r; tauto|].
    assert (K := C p q Hp Hq Q0). unfold same_side in K. assert (E : p = p / q * q) by (field; auto).
    set (r := p / q) in *. rewrite E. destruct (Rlt_dec 0 q); assert (q < 0 \/ 0 < q) by lra; destruct K as [(K1 & K2)|(K1 & K2)]; split; split; intros; nra.
  - destruct SG as [(S1 & S2)|(S1 & S2)]; [rewrite (proj1 (mul_p_inf z S1)), (proj1 (mul_p_inf x S2))|rewrite (proj1 (mul_n_inf z S1)), (proj1 (mul_n_inf x S2))]; tauto.
  - destruct SG as [(S1 & S2)|(S1 & S2)]; [rewrite (proj2 (mul_p_inf z S1)), (proj2 (mul_p_inf x S2))|rewrite (proj2 (mul_n_inf z S1)), (proj2 (mul_n_inf x S2))]; tauto.
Qed.
Lemma divrel_cell f g z x si sj : same_quot_cell f g z x -> In si f -> In sj g -> divrel z si sj = divrel x si sj.
Proof.
  intros C Hi Hj. apply eq_true_iff_eq. rewrite !divrel_true.
  assert (E : is_end f (sa si) /\ is_end f (sb si) /\ is_end g (sa sj) /\ is_end g (sb sj)) by (unfold is_end; splits; eauto).
  destruct E as (E1 & E2 & E3 & E4).
  destruct (div_cell1 f g z x _ _ C E1 E3) as (A1 & _). destruct (div_cell1 f g z x _ _ C E2 E4) as (_ & A2).
  destruct (div_cell1 f g z x _ _ C E2 E3) as (_ & A3). destruct (div_cell1 f g z x _ _ C E1 E4) as (A4 & _). tauto.
Qed.
Lemma findDiv_rel f g z x : same_quot_cell f g z x -> findSegListDiv f g z = filter (fun p => divrel x (fst p) (snd p)) (seg_pairs f g).
Proof.
  intros C. unfold findSegListDiv. apply filter_ext_in. intros p Hp. apply seg_pairs_In in Hp. destruct Hp.
  apply (divrel_cell f g z x (fst p) (snd p)); auto.
Qed.

(** an atom and a piece: the pair is selected exactly when the piece contains the point *)
Lemma rel_atom_l x a m sj : x <> 0 -> wf_seg sj -> isDirac sj = false ->
  divrel x (DiracSeg a m) sj = true <-> Rbar_lt (sa sj) (a / x) /\ Rbar_lt (a / x) (sb sj).
Proof.
  intros X W D. rewrite (divrel_takes x (DiracSeg a m) sj X I W (or_intror D)). unfold takes. rewrite D. cbn [isDirac sa]. split.
  - intros (u & y & U & Y & ->). injection U as ->. replace (x * y / x) with y by (field; auto). auto.
  - intros H. exists a, (a / x). splits; auto; try tauto. field; auto.
Qed.
Lemma rel_atom_r x b k si : x <> 0 -> wf_seg si -> isDirac si = false ->
  divrel x si (DiracSeg b k) = true <-> Rbar_lt (sa si) (x * b) /\ Rbar_lt (x * b) (sb si).
Proof.
  intros X W D. rewrite (divrel_takes x si (DiracSeg b k) X W I (or_introl D)). unfold takes. rewrite D. cbn [isDirac sa]. split.
  - intros (u & y & U & Y & ->). injection Y as ->. auto.
  - intros H. exists (x * b), b. splits; auto; try tauto.
Qed.

Definition div_pv (x : R) (si sj : segment) : R := match div_pair x si sj with Ok v => v | Err _ => 0 end.
Definition div2_pv (x : R) (si sj : segment) : R := match div2_pair x si sj with Ok v => v | Err _ => 0 end.

Section Quot.
Variables f g : list segment.
Variable x : R.
Hypothesis X : x <> 0.
Hypothesis Wf : Forall wf_seg f.
Hypothesis Wg : Forall wf_seg g.
Hypothesis G1 : Forall one_sided g.
Hypothesis Gd : getDiracs g = [].

Lemma g_cont sj : In sj g -> isDirac sj = false.
Proof.
  intros H. destruct (isDirac sj) eqn:D; auto. exfalso. assert (K : In sj (getDiracs g)) by (apply filter_In; auto). rewrite Gd in K. auto.
Qed.
Lemma zero_atom m sj : In sj g -> divrel x (DiracSeg 0 m) sj = false.
Proof.
  intros H. destruct (divrel x (DiracSeg 0 m) sj) eqn:E; auto. exfalso. rewrite Forall_forall in Wg, G1.
  apply rel_atom_l in E; auto using g_cont. replace (0 / x) with 0 in E by (field; auto). destruct E as (A & B).
  destruct (G1 sj H) as [K|K].
  - apply (Rbar_lt_not_le _ _ A). auto.
  - apply (Rbar_lt_not_le _ _ B). auto.
Qed.

Lemma quot_value F pv (u v w : R -> R) :
  (forall t, u t = x * v t) ->
  (forall si sj, In si f -> In sj g -> isDirac si = false -> exists h L U, F si sj = Ok (segint h L U false false) /\
     (forall t : R, Rbar_lt L t /\ Rbar_lt t U <-> Rbar_lt (sa si) (u t) /\ Rbar_lt (u t) (sb si) /\ Rbar_lt (sa sj) (v t) /\ Rbar_lt (v t) (sb sj)) /\
     (forall t, h t = sf si (u t) * sf sj (v t) * w t)) ->
  (forall si sj, pv si sj = match F si sj with Ok v => v | Err _ => 0 end) ->
  (forall a m sj, isDirac sj = false -> a <> 0 -> F (DiracSeg a m) sj = Ok (m * sf sj (a / x) * Rabs a / x / x)) ->
  kernel_integrable u v w f g ->
  exists val, sum_pairs F (filter (fun p => divrel x (fst p) (snd p)) (seg_pairs f g)) 0 = Ok val /\
    exists I, has_int (fun t => dens f (u t) * dens g (v t) * w t) m_infty p_infty I /\
    val = I + atom_sum (fun a => dens g (a / x) * (Rabs a * / x * / x)) f + atom_sum (fun b => dens f (x * b) * Rabs b) g.
Proof.
  intros UV HF PV HA HI. pose proof Wf as Wf'. pose proof Wg as Wg'. rewrite Forall_forall in Wf', Wg'.
  destruct (pairs_value u v w (fun a => Rabs a * / x * / x) (fun a => a / x) (fun b => Rabs b) (fun b => x * b) f g (divrel x) F pv) as (val & V1 & I & V2 & V3).
  - intros si sj Hi Hj R. rewrite PV. destruct (isDirac si) eqn:Di.
    + destruct si as [| | | |a m|]; try discriminate. destruct (Req_dec a 0) as [->|A0]; [rewrite zero_atom in R; auto; discriminate|].
      rewrite HA; auto using g_cont.
    + destruct (HF si sj Hi Hj Di) as (h & L & U & -> & _). auto.
  - intros si sj Hi Hj Di Dj. destruct (HF si sj Hi Hj Di) as (h & L & U & E & IN & EH). rewrite PV, E.
    assert (W : has_int (fun t => dens1 si (u t) * dens1 sj (v t) * w t) m_infty p_infty (segint h L U false false)).
    { apply window_int; auto. }
    destruct (divrel x si sj) eqn:R; auto.
    assert (Z : has_int (fun t => dens1 si (u t) * dens1 sj (v t) * w t) m_infty p_infty 0); auto.
    replace 0 with (segint h L U false false); auto. unfold segint. cbn [andb]. destruct (bltP U L) as [K|K]; auto. destruct (beqP L U) as [K'|K']; auto.
    exfalso. apply Rbar_not_lt in K. destruct (Rbar_le_lt_or_eq_dec _ _ K) as [LU|LU]; [|contradiction].
    destruct (between L U LU) as (t & T1 & T2). destruct (proj1 (IN t) (conj T1 T2)) as (B1 & B2 & B3 & B4).
    assert (R' : divrel x si sj = true); [|congruence]. apply divrel_takes; auto. exists (u t), (v t). unfold takes. rewrite Di, Dj. splits; auto.
  - intros a m sj Hi Hj Dj. rewrite PV. destruct (Req_dec a 0) as [->|A0].
    + rewrite zero_atom by auto. rewrite Rabs_R0. ring.
    + rewrite HA by auto. destruct (divrel x (DiracSeg a m) sj) eqn:R.
      * apply rel_atom_l in R; auto. rewrite dens1_in by tauto. unfold Rdiv. ring.
      * rewrite dens1_out; [ring|]. intros K. apply (proj2 (rel_atom_l x a m sj X (Wg' sj Hj) Dj)) in K. congruence.
  - intros b k si Hi Hj Di. pose proof (g_cont _ Hj) as K. simpl in K. discriminate K.
  - intros a m b k Hi Hj. pose proof (g_cont _ Hj) as K. simpl in K. discriminate K.
  - exists val. split; auto. exists I. split; auto. rewrite V3. f_equal; [f_equal|]; unfold atom_sum; apply sumR_ext; intros s _; destruct s; auto; ring.
Qed.

Lemma div_value : kernel_integrable (fun t => x * t) (fun t => t) Rabs f g ->
  exists val, sum_pairs (div_pair x) (filter (fun p => divrel x (fst p) (snd p)) (seg_pairs f g)) 0 = Ok val /\ quot_density f g x val.
Proof.
  intros HI. apply (quot_value (div_pair x) (div_pv x) (fun t => x * t) (fun t => t) Rabs); auto.
  - intros si sj Hi Hj Di. pose proof (g_cont _ Hj) as Dj. unfold div_pair, isSegment. rewrite Di, Dj. cbn [negb andb].
    replace (req x 0) with false by (symmetry; apply req_false; auto).
    eexists _, _, _. split; [reflexivity|]. split; [|intros t; unfold div_fun; ring].
    intros t. rewrite bmax_lt, bmin_lt.
    assert (A : Rbar_lt (sa si) (sb si)) by (rewrite Forall_forall in Wf; specialize (Wf si Hi); destruct si; auto; discriminate).
    pose proof (minmax_in x (sa si) (sb si) t X A) as M. cbv zeta in M. tauto.
  - intros a m sj D A. unfold div_pair, isSegment. rewrite D. cbn [isDirac negb andb]. unfold spos. cbn [sa real smass].
    replace (req a 0) with false by (symmetry; apply req_false; auto). reflexivity.
Qed.
Lemma div2_value : kernel_integrable (fun t => t) (fun t => t / x) (fun t => Rabs t / x / x) f g ->
  exists val, sum_pairs (div2_pair x) (filter (fun p => divrel x (fst p) (snd p)) (seg_pairs f g)) 0 = Ok val /\ quot_density f g x val.
Proof.
  intros HI. destruct (quot_value (div2_pair x) (div2_pv x) (fun t => t) (fun t => t / x) (fun t => Rabs t / x / x)) as (val & V1 & J & V2 & V3); auto.
  - intros t. field. auto.
  - intros si sj Hi Hj Di. pose proof (g_cont _ Hj) as Dj. unfold div2_pair, isSegment. rewrite Di, Dj. cbn [negb andb].
    eexists _, _, _. split; [reflexivity|]. split; [|intros t; unfold div2_fun, Rdiv; ring].
    intros t. rewrite bmax_lt, bmin_lt.
    assert (A : Rbar_lt (sa sj) (sb sj)) by (rewrite Forall_forall in Wg; specialize (Wg sj Hj); destruct sj; auto; discriminate).
    pose proof (minmax_in (/ x) (sa sj) (sb sj) t (Rinv_neq_0_compat x X) A) as M. cbv zeta in M. rewrite Rinv_inv in M.
    replace (/ x * t) with (t / x) in M by (unfold Rdiv; ring). tauto.
  - intros a m sj D A. unfold div2_pair, isSegment. rewrite D. cbn [isDirac negb andb]. unfold spos. cbn [sa real smass].
    replace (req a 0) with false by (symmetry; apply req_false; auto). reflexivity.
  - exists val. split; auto. exists J. split; auto.
    eapply has_int_ext; [exact (has_int_line x _ J X V2)|]. intros t. simpl. replace (x * t / x) with t by (field; auto).
    rewrite Rabs_mult. assert (E : Rabs x * Rabs x = x * x) by (rewrite <- Rabs_mult; apply Rabs_right; nra).
    replace (dens f (x * t) * dens g t * (Rabs x * Rabs t / x / x) * Rabs x) with (dens f (x * t) * dens g t * Rabs t * ((Rabs x * Rabs x) / (x * x))) by (field; auto).
    rewrite E. field. auto.
Qed.
End Quot.
