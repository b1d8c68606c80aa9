(** Proofs about discrete distributions: sampling and sign. *)
From Coq Require Import Reals Lra List Bool Arith Sorted Permutation Lia.
From Coquelicot Require Import Coquelicot.
From Verif Require Import Base Bisect BisectFacts Seg Piecewise PiecewiseSpec PiecewiseFacts PiecewiseFacts2 PiecewiseFacts4 Integral IntegralFacts SegInt SegIntSpec SegIntFacts CumintFacts SegIntMain IntParts Indep IndepSpec AtomFacts AtomFacts2 AtomFacts3 Discr DiscrSpec DiscrFacts.
Import List ListNotations.
Open Scope R_scope.

Lemma cumsum_from_app l1 : forall acc l2, cumsum_from acc (l1 ++ l2) = cumsum_from acc l1 ++ cumsum_from (acc + sumR l1) l2.
Proof.
  induction l1 as [|p l1 IH]; intros acc l2; simpl; [rewrite Rplus_0_r; auto|]. rewrite IH. f_equal. f_equal. f_equal. ring.
Qed.
Lemma cumsum_from_len l : forall acc, length (cumsum_from acc l) = length l.
Proof. induction l; simpl; auto. Qed.
Lemma cumsum_from_bounds l : Forall (fun p => 0 <= p) l -> forall acc c, In c (cumsum_from acc l) -> acc <= c <= acc + sumR l.
Proof.
  induction 1 as [|p l Hp Hl IH]; intros acc c; [intros []|]. simpl.
  assert (0 <= sumR l) by (apply sumR_nonneg; rewrite Forall_forall in Hl; auto).
  intros [<-|Hc]; [lra|]. apply IH in Hc. lra.
Qed.
Lemma search_cum l1 p l2 u : Forall (fun p => 0 <= p) (l1 ++ p :: l2) -> sumR l1 < u -> u <= sumR l1 + p ->
  bisect_left rlt (cumsum (l1 ++ p :: l2)) u = length l1.
Proof.
  intros F L U. unfold cumsum. rewrite cumsum_from_app. apply bisect_left_spec.
  rewrite <- (cumsum_from_len l1 0). apply Forall_app in F. destruct F as [F1 F2]. inversion F2; subst.
  apply (partitioned_app (fun s => rlt s u)).
  - apply Forall_forall. intros c Hc. apply rlt_true. apply cumsum_from_bounds in Hc; auto. lra.
  - simpl. constructor; [apply rlt_false; lra|]. apply Forall_forall. intros c Hc. apply rlt_false.
    apply cumsum_from_bounds in Hc; auto. lra.
Qed.
Lemma search_over l u : Forall (fun p => 0 <= p) l -> sumR l < u -> bisect_left rlt (cumsum l) u = length l.
Proof.
  intros F L. apply bisect_left_spec. unfold cumsum. rewrite <- (cumsum_from_len l 0).
  rewrite <- (app_nil_r (cumsum_from 0 l)) at 1. apply (partitioned_app (fun s => rlt s u)); [|constructor].
  apply Forall_forall. intros c Hc. apply rlt_true. apply cumsum_from_bounds in Hc; auto. lra.
Qed.
Lemma find_cum px : forall acc u, acc < u -> u <= acc + p_all px ->
  exists l1 x p l2, px = l1 ++ (x, p) :: l2 /\ acc + p_all l1 < u /\ u <= acc + p_all l1 + p.
Proof.
  unfold p_all. induction px as [|[x p] px IH]; simpl; intros acc u H1 H2; [lra|].
  destruct (Rle_lt_dec u (acc + p)) as [L|L].
  - exists [], x, p, px. simpl. repeat split; auto; lra.
  - destruct (IH (acc + p) u) as (l1 & y & k & l2 & -> & A & B); try lra.
    exists ((x, p) :: l1), y, k, l2. simpl. repeat split; auto; lra.
Qed.
Lemma sorted_app_lt l1 x (p : R) l2 : StronglySorted Rlt (map fst (l1 ++ (x, p) :: l2)) ->
  (forall q, In q l1 -> fst q < x) /\ (forall q, In q l2 -> x < fst q).
Proof.
  induction l1 as [|a l1 IH]; simpl; intros H; apply StronglySorted_inv in H; destruct H as [H F]; rewrite Forall_forall in F.
  - split; [intros q []|]. intros q Hq. apply F. apply in_map; auto.
  - destruct (IH H) as [A B]. split; auto. intros q [<-|Hq]; auto.
    apply F. rewrite map_app. apply in_or_app. right; left; auto.
Qed.
Lemma p_split l1 x p l2 : StronglySorted Rlt (map fst (l1 ++ (x, p) :: l2)) ->
  p_lt (l1 ++ (x, p) :: l2) x = p_all l1 /\ p_le (l1 ++ (x, p) :: l2) x = p_all l1 + p.
Proof.
  intros H. destruct (sorted_app_lt _ _ _ _ H) as [A B]. unfold p_lt, p_le, p_all. rewrite !map_app, !sumR_app. simpl.
  assert (E1 : map (fun q : R * R => if Rlt_dec (fst q) x then snd q else 0) l1 = map snd l1).
  { apply map_ext_in. intros q Hq. specialize (A q Hq). destruct (Rlt_dec (fst q) x); auto; lra. }
  assert (E2 : map (fun q : R * R => if Rle_dec (fst q) x then snd q else 0) l1 = map snd l1).
  { apply map_ext_in. intros q Hq. specialize (A q Hq). destruct (Rle_dec (fst q) x); auto; lra. }
  rewrite E1, E2.
  assert (E3 : sumR (map (fun q : R * R => if Rlt_dec (fst q) x then snd q else 0) l2) = 0).
  { apply sumR_zero. intros v Hv. apply in_map_iff in Hv. destruct Hv as (q & <- & Hq). specialize (B q Hq).
    destruct (Rlt_dec (fst q) x); auto; lra. }
  assert (E4 : sumR (map (fun q : R * R => if Rle_dec (fst q) x then snd q else 0) l2) = 0).
  { apply sumR_zero. intros v Hv. apply in_map_iff in Hv. destruct Hv as (q & <- & Hq). specialize (B q Hq).
    destruct (Rle_dec (fst q) x); auto; lra. }
  rewrite E3, E4. destruct (Rlt_dec x x); [lra|]. destruct (Rle_dec x x); [|lra]. split; ring.
Qed.
Lemma rand_at l1 x p l2 u : Forall (fun p => 0 <= p) (map snd (l1 ++ (x, p) :: l2)) -> p_all l1 < u -> u <= p_all l1 + p ->
  let px := l1 ++ (x, p) :: l2 in
  disc_rand (Disc (map fst px) (map snd px) (cumsum (map snd px))) u = Ok x.
Proof.
  intros F L U px. unfold disc_rand. cbn [d_xi d_cum]. unfold px. rewrite !map_app in *. cbn [map fst snd] in *.
  rewrite search_cum; auto. rewrite map_length, app_length, map_length.
  destruct (Nat.ltb_spec (length l1 + length (x :: map fst l2)) (length l1)); [lia|].
  rewrite nth_error_app2 by (rewrite map_length; lia). rewrite map_length, Nat.sub_diag. auto.
Qed.
Lemma rand_over px u : Forall (fun p => 0 <= p) (map snd px) -> p_all px < u ->
  disc_rand (Disc (map fst px) (map snd px) (cumsum (map snd px))) u = Err EIndex.
Proof.
  intros F U. unfold disc_rand. cbn [d_xi d_cum]. rewrite search_over; auto. rewrite !map_length, Nat.ltb_irrefl.
  destruct (nth_error (map fst px) (length px)) eqn:E; auto.
  apply nth_error_Some_lt in E || (assert (nth_error (map fst px) (length px) <> None) as E' by congruence;
    apply nth_error_Some in E'; rewrite map_length in E'; lia).
Qed.
Lemma rand_iff px u x : StronglySorted Rlt (map fst px) -> Forall (fun p => 0 <= p) (map snd px) -> 0 < u ->
  disc_rand (Disc (map fst px) (map snd px) (cumsum (map snd px))) u = Ok x <-> In x (map fst px) /\ p_lt px x < u <= p_le px x.
Proof.
  intros H F U. split.
  - intros E. destruct (Rle_lt_dec u (p_all px)) as [L|L]; [|rewrite rand_over in E; auto; discriminate].
    destruct (find_cum px 0 u) as (l1 & y & p & l2 & -> & A & B); try lra.
    rewrite (rand_at l1 y p l2 u) in E; auto; try lra. injection E as ->.
    destruct (p_split _ _ _ _ H) as [-> ->]. split; [|lra]. rewrite map_app. apply in_or_app. right; left; auto.
  - intros (Hx & A & B). apply in_map_iff in Hx. destruct Hx as ([y p] & E & Hin). simpl in E. subst y.
    apply in_split in Hin. destruct Hin as (l1 & l2 & ->). destruct (p_split _ _ _ _ H) as [E1 E2]. rewrite E1 in A. rewrite E2 in B.
    apply rand_at; auto.
Qed.

(** ccdf_value *)
Lemma ccdf_ok eps l x : density l -> total_mass l = 1 -> ccdf_value eps l x = Ok (prob_above l x).
Proof.
  intros D T. unfold ccdf_value. destruct (rev l) as [|s r] eqn:E.
  - destruct D as (N & _). apply (f_equal (@rev segment)) in E. rewrite rev_involutive in E. contradiction.
  - destruct (ble x (sa s) || negb (isPInf s))%bool eqn:B.
    + destruct (cdf_exact_main eps l D) as (q & -> & _ & _ & V). simpl. rewrite (proj1 (V x)). simpl. unfold prob_above. rewrite T. auto.
    + apply orb_false_iff in B. destruct B as [B1 B2]. apply ble_false in B1. apply negb_false_iff in B2.
      apply (f_equal (@rev segment)) in E. rewrite rev_involutive in E. simpl in E.
      destruct D as (_ & W & HI & O & C). f_equal. unfold prob_above, total_mass, cdf_spec. rewrite E, !map_app, !sumR_app. simpl.
      assert (Es : In s l) by (rewrite E; apply in_or_app; right; left; auto).
      rewrite Forall_forall in W, HI. specialize (W s Es) as Ws. specialize (HI s Es) as Is.
      assert (EE : map (fun t => mass_upto t x) (rev r) = map mass (rev r)).
      { apply map_ext_in. intros t Ht. assert (Ht' : In t l) by (rewrite E; apply in_or_app; auto).
        rewrite mass_upto_cpart, <- cmass_mass by auto. apply cpart_left; auto.
        assert (Bf : before t s). { rewrite E in O. clear - O Ht. induction (rev r) as [|a l IH]; [contradiction|].
          simpl in O. apply StronglySorted_inv in O. destruct O as [O F]. destruct Ht as [<-|Ht]; auto.
          rewrite Forall_forall in F. apply F. apply in_or_app; right; left; auto. }
        destruct Bf as [Bf _]. eapply Rbar_le_trans; [exact Bf|]. apply Rbar_lt_le; auto. }
      rewrite EE. destruct s; try discriminate.
      rewrite above_piece by auto. ring.
Qed.
