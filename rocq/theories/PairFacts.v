(** Sums over pairs of pieces with a general kernel. *)
From Coq Require Import Reals Lra Lia List Bool Sorted Permutation.
From Coquelicot Require Import Coquelicot.
From Verif Require Import Base Bisect Seg Piecewise PiecewiseSpec PiecewiseFacts Integral IntegralFacts SegInt SegIntSpec IntParts IntPartsFacts Indep IndepSpec AtomFacts AtomFacts2 AtomFacts3 ConvolFacts.
Import List ListNotations.
Open Scope R_scope.

Section Pairs.
Variables u v w : R -> R.
Variables wa ha wb hb : R -> R.
Variables f g : list segment.
Variable rel : segment -> segment -> bool.
Variable F : segment -> segment -> res R.
Variable pv : segment -> segment -> R.
Hypothesis F_ok : forall si sj, In si f -> In sj g -> rel si sj = true -> F si sj = Ok (pv si sj).
Hypothesis pv_cont : forall si sj, In si f -> In sj g -> isDirac si = false -> isDirac sj = false ->
  has_int (fun t => dens1 si (u t) * dens1 sj (v t) * w t) m_infty p_infty (if rel si sj then pv si sj else 0).
Hypothesis pv_left : forall a m sj, In (DiracSeg a m) f -> In sj g -> isDirac sj = false ->
  (if rel (DiracSeg a m) sj then pv (DiracSeg a m) sj else 0) = m * (wa a * dens1 sj (ha a)).
Hypothesis pv_right : forall b k si, In si f -> In (DiracSeg b k) g -> isDirac si = false ->
  (if rel si (DiracSeg b k) then pv si (DiracSeg b k) else 0) = k * (wb b * dens1 si (hb b)).
Hypothesis pv_both : forall a m b k, In (DiracSeg a m) f -> In (DiracSeg b k) g ->
  (if rel (DiracSeg a m) (DiracSeg b k) then pv (DiracSeg a m) (DiracSeg b k) else 0) = 0.

Lemma pair_int si sj : In si f -> In sj g -> exists I, has_int (fun t => dens1 si (u t) * dens1 sj (v t) * w t) m_infty p_infty I /\
  (if rel si sj then pv si sj else 0) = I + match si with DiracSeg a m => m * (wa a * dens1 sj (ha a)) | _ => 0 end
      + match sj with DiracSeg b k => k * (wb b * dens1 si (hb b)) | _ => 0 end.
Proof.
  intros Hi Hj. destruct (isDirac si) eqn:Di.
  - exists 0. split; [apply has_int_null; intros; rewrite dens1_dirac; auto; ring|].
    destruct si as [| | | |a m|]; try discriminate. destruct (isDirac sj) eqn:Dj.
    + destruct sj as [| | | |b k|]; try discriminate. rewrite pv_both by auto. rewrite !dens1_dirac by auto. ring.
    + rewrite pv_left by auto. destruct sj; try discriminate; ring.
  - destruct (isDirac sj) eqn:Dj.
    + exists 0. split; [apply has_int_null; intros; rewrite (dens1_dirac sj); auto; ring|].
      destruct sj as [| | | |b k|]; try discriminate. rewrite pv_right by auto. destruct si; try discriminate; ring.
    + exists (if rel si sj then pv si sj else 0). split; auto. destruct si, sj; try discriminate; ring.
Qed.

Lemma pairs_value : exists val, sum_pairs F (filter (fun p => rel (fst p) (snd p)) (seg_pairs f g)) 0 = Ok val /\
  exists I, has_int (fun t => dens f (u t) * dens g (v t) * w t) m_infty p_infty I /\
    val = I + atom_sum (fun a => wa a * dens g (ha a)) f + atom_sum (fun b => wb b * dens f (hb b)) g.
Proof.
  exists (0 + sumR (map (fun p => pv (fst p) (snd p)) (filter (fun p => rel (fst p) (snd p)) (seg_pairs f g)))). split.
  - apply (sum_pairs_val _ (fun p => pv (fst p) (snd p))). intros p Hp. apply filter_In in Hp. destruct Hp as (Hp & R).
    apply seg_pairs_In in Hp. destruct Hp. auto.
  - rewrite Rplus_0_l, (sumR_filter (fun p => rel (fst p) (snd p)) (fun p => pv (fst p) (snd p))).
    assert (CH : forall l, (forall p, In p l -> In (fst p) f /\ In (snd p) g) -> exists I,
       has_int (fun t => sumR (map (fun p => dens1 (fst p) (u t) * dens1 (snd p) (v t)) l) * w t) m_infty p_infty I /\
       sumR (map (fun p => if rel (fst p) (snd p) then pv (fst p) (snd p) else 0) l) =
        I + sumR (map (fun p => match fst p with DiracSeg a m => m * (wa a * dens1 (snd p) (ha a)) | _ => 0 end) l)
          + sumR (map (fun p => match snd p with DiracSeg b k => k * (wb b * dens1 (fst p) (hb b)) | _ => 0 end) l)).
    { induction l as [|p l IH]; intros Hl.
      - exists 0. split; [apply has_int_null; intros t; simpl; ring|simpl; ring].
      - destruct IH as (I1 & H1 & E1); [intros; apply Hl; simpl; auto|].
        destruct (Hl p) as (Hi & Hj); [simpl; auto|].
        destruct (pair_int (fst p) (snd p)) as (I2 & H2 & E2); auto.
        exists (I2 + I1). split.
        + eapply has_int_ext; [exact (has_int_plus _ _ _ _ _ H2 _ H1)|]. intros t. simpl map. rewrite sumR_cons. ring.
        + cbn [map]. rewrite !sumR_cons, E1, E2. ring. }
    destruct (CH (seg_pairs f g)) as (I & H & E); [intros p Hp; apply seg_pairs_In; auto|].
    exists I. split.
    + eapply has_int_ext; [exact H|]. intros t. simpl. rewrite dens_prod. reflexivity.
    + rewrite E. f_equal; [f_equal|].
      * rewrite sumR_pairs. unfold atom_sum. apply sumR_ext. intros s _. cbn [fst snd].
        destruct s; try (apply sumR_zero; intros y Hy; apply in_map_iff in Hy; destruct Hy as (? & <- & _); auto).
        rewrite dens_sum. rewrite (sumR_ext _ (fun sj => (m * wa a) * dens1 sj (ha a))); [rewrite sumR_scal; ring|intros; ring].
      * rewrite sumR_pairs. cbn [fst snd]. rewrite sumR_swap. unfold atom_sum. apply sumR_ext. intros s _.
        destruct s; try (apply sumR_zero; intros y Hy; apply in_map_iff in Hy; destruct Hy as (? & <- & _); auto).
        rewrite dens_sum. rewrite (sumR_ext _ (fun sj => (m * wb a) * dens1 sj (hb a))); [rewrite sumR_scal; ring|intros; ring].
Qed.
End Pairs.

(** integral over the window where both pieces are met *)
Lemma window_int (u v w : R -> R) (h : R -> R) si sj L U :
  isDirac si = false -> isDirac sj = false ->
  (forall t : R, Rbar_lt L t /\ Rbar_lt t U <-> Rbar_lt (sa si) (u t) /\ Rbar_lt (u t) (sb si) /\ Rbar_lt (sa sj) (v t) /\ Rbar_lt (v t) (sb sj)) ->
  (Rbar_lt L U -> integrable (fun t => sf si (u t) * sf sj (v t) * w t) L U) ->
  (forall t : R, Rbar_lt L t -> Rbar_lt t U -> h t = sf si (u t) * sf sj (v t) * w t) ->
  has_int (fun t => dens1 si (u t) * dens1 sj (v t) * w t) m_infty p_infty (segint h L U false false).
Proof.
  intros Di Dj IN HI E. unfold segint. cbn [andb].
  assert (OUT : forall t : R, ~ (Rbar_lt L t /\ Rbar_lt t U) -> dens1 si (u t) * dens1 sj (v t) * w t = 0).
  { intros t N. destruct (Rbar_lt_dec (sa si) (u t)) as [A|A]; [|rewrite (dens1_out si); [ring|tauto]].
    destruct (Rbar_lt_dec (u t) (sb si)) as [B|B]; [|rewrite (dens1_out si); [ring|tauto]].
    rewrite (dens1_out sj); [ring|]. intros (C & D). apply N. apply IN. auto. }
  destruct (bltP U L) as [K|K]; [|destruct (beqP L U) as [K'|K']].
  - apply has_int_null. intros t. apply OUT. intros (A & B). apply (Rbar_lt_not_eq U U); auto.
    apply (Rbar_lt_trans U L); auto. eapply Rbar_lt_trans; eauto.
  - apply has_int_null. intros t. apply OUT. subst. intros (A & B). apply (Rbar_lt_not_eq U U); auto. eapply Rbar_lt_trans; eauto.
  - apply Rbar_not_lt in K. destruct (Rbar_le_lt_or_eq_dec _ _ K) as [LU|LU]; [|contradiction].
    apply has_int_window.
    + destruct L; simpl; auto.
    + destruct U; simpl; auto.
    + eapply integrable_ext; [|apply HI; auto]. intros t (T1 & T2). symmetry. apply E; auto.
    + intros t (T1 & T2). rewrite E by auto. destruct (proj1 (IN t) (conj T1 T2)) as (A & B & C & D). rewrite !dens1_in; auto.
    + intros t T. apply OUT. intros (A & B). destruct T as [T|T]; eapply Rbar_lt_not_le; try exact T; apply Rbar_lt_le; auto.
Qed.
