(** Proofs about whole quotients: break points of the result. *)
From Coq Require Import Reals Lra Lia List Bool Sorted Permutation.
From Coquelicot Require Import Coquelicot.
From Verif Require Import Base Bisect BisectFacts Seg Piecewise PiecewiseSpec PiecewiseFacts PiecewiseFacts2 PiecewiseFacts3 PiecewiseFacts4 Integral IntegralFacts SegInt SegIntSpec IntParts IntPartsFacts Wide WideMain Indep IndepSpec AtomFacts AtomFacts2 AtomFacts3 ConvolFacts IndepAsm AsmFacts ExtrFacts ExtrFacts2 ExtrFacts3 QuotFacts QuotFacts2 ProdFacts ProdFacts2 ProdMain ProdAsm ProdAsmSpec ProdAsmFacts DivAsm DivAsmSpec DivAsmFacts.
Import List ListNotations.
Open Scope R_scope.

Lemma drop_nan_In l r : In r (drop_nan l) <-> In (Some r) l.
Proof.
  unfold drop_nan. rewrite in_flat_map. split.
  - intros ([x|] & H & K); simpl in K; [destruct K as [<-|[]]; auto|tauto].
  - intros H. exists (Some r). simpl; auto.
Qed.
Lemma last_some (u : list Rbar) (x d : Rbar) : last (map Some (x :: u)) None = Some (last (x :: u) d).
Proof. revert x. induction u as [|y u IH]; intros x; auto. change (last (map Some (x :: y :: u)) None) with (last (map Some (y :: u)) None). rewrite IH. auto. Qed.
Lemma widen_spec u : StronglySorted Rbar_lt u ->
  StronglySorted Rbar_lt (widen u) /\ (forall r, In r u -> In r (widen u)) /\
  (forall r, In r (widen u) -> In r u \/ r = Finite 0 \/ r = Finite 1 \/ r = Finite (-1)) /\
  (forall y y', In y (widen u) -> In y' (widen u) -> Rbar_lt y 0 -> Rbar_lt 0 y' -> In (Finite 0) (widen u)).
Proof.
  intros SU. unfold widen. splits; [apply np_unique_sorted| | |]; destruct (zero_ix u) as [i|] eqn:E.
  - intros r H. rewrite np_unique_In. destruct (_ && _)%bool; [apply insort_left_In; right|]; (destruct (inf_at _ _); [apply insort_left_In; right|]; auto).
  - intros r H. rewrite np_unique_In. destruct (neg_prod _ _); auto. apply insort_left_In; auto.
  - intros r H. rewrite np_unique_In in H. destruct (_ && _)%bool; [rewrite insort_left_In in H; destruct H as [->|H]; auto|]; (destruct (inf_at _ _); [rewrite insort_left_In in H; destruct H as [->|H]; auto|]; auto).
  - intros r H. rewrite np_unique_In in H. destruct (neg_prod _ _); auto. rewrite insort_left_In in H. destruct H as [->|H]; auto.
  - intros y y' _ _ _ _. apply zero_ix_some, nth_error_In in E. rewrite np_unique_In. destruct (_ && _)%bool; [apply insort_left_In; right|]; (destruct (inf_at _ _); [apply insort_left_In; right|]; auto).
  - intros y y' Hy Hy' Ly Ly'. rewrite np_unique_In in *. destruct (neg_prod _ _) eqn:K; [apply insort_left_In; auto|]. exfalso.
    destruct u as [|x u]; [destruct Hy|]. rewrite (last_some u x x) in K. cbn [hd_error neg_prod] in K.
    destruct (sorted_last u x y x SU Hy) as (A & _). destruct (sorted_last u x y' x SU Hy') as (_ & B).
    apply orb_false_iff in K. destruct K as (K & _). apply andb_false_iff in K. destruct K as [K|K].
    + assert (Z : Rbar_lt x 0) by (eapply Rbar_le_lt_trans; eauto). apply blt_true in Z. congruence.
    + assert (Z : Rbar_lt 0 (last (x :: u) x)) by (eapply Rbar_lt_le_trans; eauto). apply blt_true in Z. congruence.
Qed.

Lemma op_div_fin nz p q (r : R) : op_div nz p q = Some (Finite r) -> r = 0 \/ exists a b : R, p = Finite a /\ q = Finite b /\ b <> 0 /\ r = a / b.
Proof.
  destruct p as [x| |], q as [y| |]; unfold op_div; try discriminate; intros H.
  - destruct (reqP y 0); [destruct (reqP x 0); [discriminate|]; destruct (xorb _ _); discriminate|]. injection H as <-. right. exists x, y. auto.
  - injection H as <-. auto.
  - injection H as <-. auto.
  - destruct (_ || _)%bool; discriminate.
  - destruct (_ || _)%bool; discriminate.
Qed.

Section Ends.
Variables (ueps : R) (nz : bool) (f g f' g' : list segment).
Hypothesis Rf : refines f f'.
Hypothesis Rg : refines g g'.
Hypothesis QS : quots_sep ueps f g.

Definition quots : list Rbar := drop_nan (div_list nz f' g').
Definition dub : list Rbar := div_ub ueps nz f' g'.
Lemma quots_quot p q r : is_end f' p -> is_end g' q -> op_div nz p q = Some r -> In r quots.
Proof.
  intros Hp Hq E. apply drop_nan_In. unfold div_list. assert (K : In (Some r) (outer_div nz (getBreaks f') (getBreaks g') ++ inf_ends f' g')).
  { apply in_app_iff. left. unfold outer_div. apply in_flat_map. exists p. split; [apply getBreaks_end; auto|]. rewrite <- E. apply in_map. apply getBreaks_end; auto. }
  destruct (neg_prod _ _); auto. apply in_app_iff; auto.
Qed.
Lemma quots_inf r : In (Some r) (inf_ends f' g') -> In r quots.
Proof.
  intros H. apply drop_nan_In. unfold div_list. destruct (neg_prod _ _); [apply in_app_iff; left|]; apply in_app_iff; auto.
Qed.
Lemma quots_fin (r : R) : In (Finite r) quots -> end_quot f g r \/ r = 0.
Proof.
  intros H. apply drop_nan_In in H. unfold div_list in H.
  assert (K : In (Some (Finite r)) (outer_div nz (getBreaks f') (getBreaks g') ++ inf_ends f' g') -> end_quot f g r \/ r = 0).
  { intros K. apply in_app_iff in K. destruct K as [K|K].
    - unfold outer_div in K. apply in_flat_map in K. destruct K as (p & Hp & K). apply in_map_iff in K. destruct K as (q & K & Hq).
      apply op_div_fin in K. destruct K as [K|(a & b & -> & -> & Z & ->)]; auto. left.
      destruct Rf as (_ & _ & _ & _ & Ef & _), Rg as (_ & _ & _ & _ & Eg & _). exists a, b. splits; auto.
      + apply Ef. apply getBreaks_end; auto.
      + apply Eg. apply getBreaks_end; auto.
    - exfalso. unfold inf_ends in K. apply in_app_iff in K. destruct K as [K|K]; destruct (_ || _)%bool; simpl in K; intuition discriminate. }
  destruct (neg_prod _ _); auto. apply in_app_iff in H. destruct H as [H|[H|[]]]; auto. injection H as <-. auto.
Qed.
Lemma quots_dub r : In r quots -> In r dub.
Proof.
  intros H. unfold dub, div_ub. fold quots. destruct (epsunique_separated_main ueps quots) as (S1 & _ & _ & S4).
  apply widen_spec; auto. destruct (S4 r H) as [F|]; auto. destruct r as [r| |]; try discriminate.
  destruct (epsunique_dropped_main ueps _ r H) as [|(u & U1 & U2 & U3 & _)]; auto. exfalso. apply quots_fin in H. apply quots_fin in U1.
  specialize (QS u r U1 H U2). lra.
Qed.
Lemma dub_fin (r : R) : In (Finite r) dub -> end_quot f g r \/ r = 0 \/ r = 1 \/ r = -1.
Proof.
  intros H. unfold dub, div_ub in H. fold quots in H. destruct (epsunique_separated_main ueps quots) as (S1 & S2 & _).
  apply widen_spec in H; auto. destruct H as [H|[H|[H|H]]]; try (injection H as ->; auto). apply S2, quots_fin in H. tauto.
Qed.
Lemma dub_sorted : StronglySorted Rbar_lt dub.
Proof. apply widen_spec. apply epsunique_separated_main. Qed.
Lemma dub_zero y y' : In y dub -> In y' dub -> Rbar_lt y 0 -> Rbar_lt 0 y' -> In (Finite 0) dub.
Proof. apply widen_spec. apply epsunique_separated_main. Qed.
Lemma dub_good : (exists p : R, is_end f' p) -> (exists q : Rbar, is_end g' q /\ q <> Finite 0) -> good_ub dub.
Proof.
  intros (p & Hp) (q & Hq & Nq). split; [apply dub_sorted|]. destruct q as [q| |].
  - exists (p / q). apply quots_dub. apply (quots_quot p q); auto. unfold op_div. destruct (reqP q 0) as [->|]; auto. congruence.
  - exists 0. apply quots_dub. apply (quots_quot p p_infty); auto.
  - exists 0. apply quots_dub. apply (quots_quot p m_infty); auto.
Qed.
(** x in a cell has the sign of any other point of the cell *)
Lemma cell_sign a b (z x : R) : In (a, b) (pairs_up dub) -> Rbar_lt a z -> Rbar_lt z b -> Rbar_lt a x -> Rbar_lt x b -> x <> 0 -> 0 < z * x.
Proof.
  intros H A1 B1 A2 B2 X. apply pairs_up_In in H; [|apply dub_sorted]. destruct H as (Ha & Hb & _ & N).
  assert (C : ~ (Rbar_lt a 0 /\ Rbar_lt 0 b)). { intros (C1 & C2). apply (N 0); auto. exact (dub_zero a b Ha Hb C1 C2). }
  destruct (Rtotal_order z 0) as [Z|[Z|Z]], (Rtotal_order x 0) as [Y|[Y|Y]]; try nra; try congruence; exfalso; apply C.
  - split; [apply (Rbar_lt_trans a z 0); auto|apply (Rbar_lt_trans 0 x b); auto].
  - subst z. auto.
  - subst z. auto.
  - split; [apply (Rbar_lt_trans a x 0); auto|apply (Rbar_lt_trans 0 z b); auto].
Qed.
Lemma cell_same a b (z x : R) : In (a, b) (pairs_up dub) -> Rbar_lt a z -> Rbar_lt z b -> Rbar_lt a x -> Rbar_lt x b -> x <> 0 -> same_quot_cell f' g' z x.
Proof.
  intros H A1 B1 A2 B2 X. split; [eapply cell_sign; eauto|]. intros p q Hp Hq Q. apply pairs_up_In in H; [|apply dub_sorted]. destruct H as (Ha & Hb & _ & N).
  assert (K : In (Finite (p / q)) dub). { apply quots_dub, (quots_quot p q); auto. unfold op_div. destruct (reqP q 0); auto; congruence. }
  specialize (N _ K). unfold same_side.
  destruct (Rbar_lt_dec a (p / q)) as [L|L].
  - right. assert (L' : ~ Rbar_lt (p / q) b) by tauto. apply Rbar_not_lt in L'.
    split; [apply (Rbar_lt_le_trans z b (p / q) B1 L')|apply (Rbar_lt_le_trans x b (p / q) B2 L')].
  - left. apply Rbar_not_lt in L. split; [apply (Rbar_le_lt_trans (p / q) a z L A1)|apply (Rbar_le_lt_trans (p / q) a x L A2)].
Qed.
(** quotients of values of two pieces lie between break points *)
Lemma inf_pos si sj (p : Rbar) : In si f' -> In sj g' -> (Rbar_lt 0 (sb si) /\ Rbar_le (sa sj) 0 /\ Rbar_lt 0 (sb sj)) \/ (Rbar_lt (sa si) 0 /\ Rbar_lt (sa sj) 0 /\ Rbar_le 0 (sb sj)) -> In p_infty quots.
Proof.
  intros Hi Hj H. apply quots_inf. unfold inf_ends. apply in_app_iff. right.
  replace (_ || _)%bool with true; [simpl; auto|]. symmetry. apply orb_true_iff.
  destruct H as [(H1 & H2 & H3)|(H1 & H2 & H3)]; [left|right]; apply andb_true_iff; split; unfold has_pos, has_neg, zero_pos, zero_neg, at_zero; apply existsb_exists.
  - exists si. split; auto. apply blt_true; auto.
  - exists sj. split; auto. rewrite !andb_true_iff. splits; [apply ble_true|apply ble_true; apply Rbar_lt_le|apply blt_true]; auto.
  - exists si. split; auto. apply blt_true; auto.
  - exists sj. split; auto. rewrite !andb_true_iff. splits; [apply ble_true; apply Rbar_lt_le|apply ble_true|apply blt_true]; auto.
Qed.
Lemma inf_neg si sj (p : Rbar) : In si f' -> In sj g' -> (Rbar_lt (sa si) 0 /\ Rbar_le (sa sj) 0 /\ Rbar_lt 0 (sb sj)) \/ (Rbar_lt 0 (sb si) /\ Rbar_lt (sa sj) 0 /\ Rbar_le 0 (sb sj)) -> In m_infty quots.
Proof.
  intros Hi Hj H. apply quots_inf. unfold inf_ends. apply in_app_iff. left.
  replace (_ || _)%bool with true; [simpl; auto|]. symmetry. apply orb_true_iff.
  destruct H as [(H1 & H2 & H3)|(H1 & H2 & H3)]; [right|left]; apply andb_true_iff; split; unfold has_pos, has_neg, zero_pos, zero_neg, at_zero; apply existsb_exists.
  - exists si. split; auto. apply blt_true; auto.
  - exists sj. split; auto. rewrite !andb_true_iff. splits; [apply ble_true|apply ble_true; apply Rbar_lt_le|apply blt_true]; auto.
  - exists si. split; auto. apply blt_true; auto.
  - exists sj. split; auto. rewrite !andb_true_iff. splits; [apply ble_true; apply Rbar_lt_le|apply ble_true|apply blt_true]; auto.
Qed.
End Ends.

Section Bounds.
Variables (nz : bool) (f' g' : list segment).
Notation quots := (quots nz f' g').
Lemma quots_real p (q : R) : is_end f' p -> is_end g' q -> q <> 0 -> In (Rbar_mult p (/ q)) quots.
Proof.
  intros Hp Hq Z. apply (quots_quot nz f' g' p q); auto. destruct p as [p| |]; unfold op_div.
  - destruct (reqP q 0); [congruence|]. simpl. auto.
  - destruct (Rtotal_order q 0) as [L|[L|L]]; [|congruence|].
    + assert (K : / q < 0) by (apply Rinv_lt_0_compat; auto). rewrite (Rbar_mult_comm p_infty), (proj1 (mul_n_inf _ K)). destruct (rltP q 0); [auto|lra].
    + assert (K : 0 < / q) by (apply Rinv_0_lt_compat; auto). rewrite (Rbar_mult_comm p_infty), (proj1 (mul_p_inf _ K)). destruct (rltP q 0); [lra|]. destruct (reqP q 0); [lra|]. auto.
  - destruct (Rtotal_order q 0) as [L|[L|L]]; [|congruence|].
    + assert (K : / q < 0) by (apply Rinv_lt_0_compat; auto). rewrite (Rbar_mult_comm m_infty), (proj2 (mul_n_inf _ K)). destruct (rltP q 0); [auto|lra].
    + assert (K : 0 < / q) by (apply Rinv_0_lt_compat; auto). rewrite (Rbar_mult_comm m_infty), (proj2 (mul_p_inf _ K)). destruct (rltP q 0); [lra|]. destruct (reqP q 0); [lra|]. auto.
Qed.
Lemma quots_far (p : R) q : is_end f' p -> is_end g' q -> isinf q = true -> In (Finite 0) quots.
Proof. intros Hp Hq Z. apply (quots_quot nz f' g' p q); auto. destruct q; auto; discriminate. Qed.

Lemma div_up1 u t U b : 0 < t -> t <= b -> u <= U -> U <= 0 -> u / t <= U * / b.
Proof.
  intros T B L Z. assert (B0 : 0 < b) by lra. assert (K : / b <= / t) by (apply Rinv_le_contravar; auto). assert (0 < / b) by (apply Rinv_0_lt_compat; auto).
  unfold Rdiv. nra.
Qed.
Lemma div_up2 u t U a : 0 < a -> a <= t -> u <= U -> 0 <= U -> u / t <= U * / a.
Proof.
  intros T B L Z. assert (B0 : 0 < t) by lra. assert (K : / t <= / a) by (apply Rinv_le_contravar; auto). assert (0 < / t) by (apply Rinv_0_lt_compat; auto).
  unfold Rdiv. nra.
Qed.
Lemma quot_upper si sj (u t : R) : In si f' -> In sj g' -> one_sided sj -> t <> 0 ->
  Rbar_le (sa si) u -> Rbar_le u (sb si) -> Rbar_le (sa sj) t -> Rbar_le t (sb sj) -> exists r, In r quots /\ Rbar_le (u / t) r.
Proof.
  intros Hi Hj O Z L U A B.
  assert (E1 : is_end f' (sa si)) by (exists si; auto). assert (E2 : is_end f' (sb si)) by (exists si; auto).
  assert (E3 : is_end g' (sa sj)) by (exists sj; auto). assert (E4 : is_end g' (sb sj)) by (exists sj; auto).
  destruct (Rlt_dec 0 t) as [T|T].
  - assert (Z0 : Rbar_le 0 (sa sj)). { destruct O as [O|O]; auto. exfalso. pose proof (Rbar_le_trans t (sb sj) 0 B O) as K. simpl in K. lra. }
    destruct (Rbar_lt_dec 0 (sb si)) as [P|P].
    + destruct (sa sj) as [a| |] eqn:Ea; simpl in Z0, A; try tauto. destruct (Req_dec a 0) as [->|Na].
      * exists p_infty. split; [|exact I]. apply (inf_pos nz f' g' si sj 0); auto. left. rewrite Ea. splits; auto; first [apply Rbar_le_refl | apply (Rbar_lt_le_trans 0 t (sb sj)); auto].
      * exists (Rbar_mult (sb si) (/ a)). split; [apply quots_real; auto|]. destruct (sb si) as [b| |]; simpl in P, U; try tauto.
        -- simpl. apply div_up2; lra.
        -- rewrite Rbar_mult_comm, (proj1 (mul_p_inf (/ a) ltac:(apply Rinv_0_lt_compat; lra))). exact I.
    + apply Rbar_not_lt in P. destruct (sb si) as [v| |]; simpl in P, U; try tauto. destruct (sb sj) as [b| |]; simpl in B; try tauto.
      * exists (Rbar_mult v (/ b)). split; [apply quots_real; auto; lra|]. simpl. apply div_up1; lra.
      * exists 0. split; [apply (quots_far v p_infty); auto|]. simpl. assert (0 < / t) by (apply Rinv_0_lt_compat; auto). unfold Rdiv. nra.
  - assert (T' : t < 0) by lra. assert (Q : u / t = (- u) / (- t)) by (field; auto).
    assert (Z0 : Rbar_le (sb sj) 0). { destruct O as [O|O]; auto. exfalso. pose proof (Rbar_le_trans 0 (sa sj) t O A) as K. simpl in K. lra. }
    destruct (Rbar_lt_dec (sa si) 0) as [P|P].
    + destruct (sb sj) as [b| |] eqn:Eb; simpl in Z0, B; try tauto. destruct (Req_dec b 0) as [->|Nb].
      * exists p_infty. split; [|exact I]. apply (inf_pos nz f' g' si sj 0); auto. right. rewrite Eb. splits; auto; first [apply Rbar_le_refl | apply (Rbar_le_lt_trans (sa sj) t 0); auto].
      * exists (Rbar_mult (sa si) (/ b)). split; [apply quots_real; auto|]. destruct (sa si) as [a| |]; simpl in P, L; try tauto.
        -- simpl. rewrite Q. replace (a * / b) with ((- a) * / (- b)) by (field; auto). apply div_up2; lra.
        -- rewrite Rbar_mult_comm, (proj2 (mul_n_inf (/ b) ltac:(apply Rinv_lt_0_compat; lra))). exact I.
    + apply Rbar_not_lt in P. destruct (sa si) as [v| |]; simpl in P, L; try tauto. destruct (sa sj) as [a| |]; simpl in A; try tauto.
      * exists (Rbar_mult v (/ a)). split; [apply quots_real; auto; lra|]. simpl. rewrite Q. replace (v * / a) with ((- v) * / (- a)) by (field; lra). apply div_up1; lra.
      * exists 0. split; [apply (quots_far v m_infty); auto|]. simpl. assert (/ t < 0) by (apply Rinv_lt_0_compat; auto). unfold Rdiv. nra.
Qed.
Lemma quot_lower si sj (u t : R) : In si f' -> In sj g' -> one_sided sj -> t <> 0 ->
  Rbar_le (sa si) u -> Rbar_le u (sb si) -> Rbar_le (sa sj) t -> Rbar_le t (sb sj) -> exists r, In r quots /\ Rbar_le r (u / t).
Proof.
  intros Hi Hj O Z L U A B.
  assert (E1 : is_end f' (sa si)) by (exists si; auto). assert (E2 : is_end f' (sb si)) by (exists si; auto).
  assert (E3 : is_end g' (sa sj)) by (exists sj; auto). assert (E4 : is_end g' (sb sj)) by (exists sj; auto).
  destruct (Rlt_dec 0 t) as [T|T].
  - assert (Q : u / t = - ((- u) / t)) by (field; auto).
    assert (Z0 : Rbar_le 0 (sa sj)). { destruct O as [O|O]; auto. exfalso. pose proof (Rbar_le_trans t (sb sj) 0 B O) as K. simpl in K. lra. }
    destruct (Rbar_lt_dec (sa si) 0) as [P|P].
    + destruct (sa sj) as [a| |] eqn:Ea; simpl in Z0, A; try tauto. destruct (Req_dec a 0) as [->|Na].
      * exists m_infty. split; [|exact I]. apply (inf_neg nz f' g' si sj 0); auto. left. rewrite Ea. splits; auto; first [apply Rbar_le_refl | apply (Rbar_lt_le_trans 0 t (sb sj)); auto].
      * exists (Rbar_mult (sa si) (/ a)). split; [apply quots_real; auto|]. destruct (sa si) as [b| |]; simpl in P, L; try tauto.
        -- simpl. rewrite Q. replace (b * / a) with (- ((- b) * / a)) by ring. apply Ropp_le_contravar, div_up2; lra.
        -- rewrite Rbar_mult_comm, (proj2 (mul_p_inf (/ a) ltac:(apply Rinv_0_lt_compat; lra))). exact I.
    + apply Rbar_not_lt in P. destruct (sa si) as [v| |]; simpl in P, L; try tauto. destruct (sb sj) as [b| |]; simpl in B; try tauto.
      * exists (Rbar_mult v (/ b)). split; [apply quots_real; auto; lra|]. simpl. rewrite Q. replace (v * / b) with (- ((- v) * / b)) by ring. apply Ropp_le_contravar, div_up1; lra.
      * exists 0. split; [apply (quots_far v p_infty); auto|]. simpl. assert (0 < / t) by (apply Rinv_0_lt_compat; auto). unfold Rdiv. nra.
  - assert (T' : t < 0) by lra. assert (Q : u / t = - (u / (- t))) by (field; auto).
    assert (Z0 : Rbar_le (sb sj) 0). { destruct O as [O|O]; auto. exfalso. pose proof (Rbar_le_trans 0 (sa sj) t O A) as K. simpl in K. lra. }
    destruct (Rbar_lt_dec 0 (sb si)) as [P|P].
    + destruct (sb sj) as [b| |] eqn:Eb; simpl in Z0, B; try tauto. destruct (Req_dec b 0) as [->|Nb].
      * exists m_infty. split; [|exact I]. apply (inf_neg nz f' g' si sj 0); auto. right. rewrite Eb. splits; auto; first [apply Rbar_le_refl | apply (Rbar_le_lt_trans (sa sj) t 0); auto].
      * exists (Rbar_mult (sb si) (/ b)). split; [apply quots_real; auto|]. destruct (sb si) as [a| |]; simpl in P, U; try tauto.
        -- simpl. rewrite Q. replace (a * / b) with (- (a * / (- b))) by (field; auto). apply Ropp_le_contravar, div_up2; lra.
        -- rewrite Rbar_mult_comm, (proj1 (mul_n_inf (/ b) ltac:(apply Rinv_lt_0_compat; lra))). exact I.
    + apply Rbar_not_lt in P. destruct (sb si) as [v| |]; simpl in P, U; try tauto. destruct (sa sj) as [a| |]; simpl in A; try tauto.
      * exists (Rbar_mult v (/ a)). split; [apply quots_real; auto; lra|]. simpl. rewrite Q. replace (v * / a) with (- (v * / (- a))) by (field; lra). apply Ropp_le_contravar, div_up1; lra.
      * exists 0. split; [apply (quots_far v m_infty); auto|]. simpl. assert (/ t < 0) by (apply Rinv_lt_0_compat; auto). unfold Rdiv. nra.
Qed.
End Bounds.
