(** Continuous parts of minima and maxima: values at a point. *)
From Coq Require Import Reals Lra Lia List Bool Sorted Permutation.
From Coquelicot Require Import Coquelicot.
From Verif Require Import Base Bisect Seg Piecewise PiecewiseSpec PiecewiseFacts PiecewiseFacts2 PiecewiseFacts3 PiecewiseFacts4 Integral IntegralFacts SegInt SegIntSpec SegIntFacts CumintFacts IntParts IntPartsFacts Indep IndepSpec AtomFacts AtomFacts2 AtomFacts3 ConvolFacts.
Import List ListNotations.
Open Scope R_scope.

Lemma bmin_lt' a b c : Rbar_lt (bmin a b) c <-> Rbar_lt a c \/ Rbar_lt b c.
Proof.
  unfold bmin. destruct (bltP b a) as [H|H].
  - split; auto. intros [K|K]; auto. eapply Rbar_lt_trans; eauto.
  - apply Rbar_not_lt in H. split; auto. intros [K|K]; auto. eapply Rbar_le_lt_trans; eauto.
Qed.
Lemma bmax_lt' a b c : Rbar_lt c (bmax a b) <-> Rbar_lt c a \/ Rbar_lt c b.
Proof.
  unfold bmax. destruct (bltP a b) as [H|H].
  - split; auto. intros [K|K]; auto. eapply Rbar_lt_trans; eauto.
  - apply Rbar_not_lt in H. split; auto. intros [K|K]; auto. eapply Rbar_lt_le_trans; eauto.
Qed.
Lemma wf_le s : wf_seg s -> Rbar_le (sa s) (sb s).
Proof. intros W. destruct s; simpl in *; auto; lra. Qed.

(** relevance of a pair, minimum and maximum *)
Definition min_rel (z : R) (si sj : segment) : bool := (blt (bmin (sa si) (sa sj)) z && blt z (bmin (sb si) (sb sj)))%bool.
Definition max_rel (z : R) (si sj : segment) : bool := (blt (bmax (sa si) (sa sj)) z && blt z (bmax (sb si) (sb sj)))%bool.

Lemma bool_iff (p q : bool) : (p = true <-> q = true) -> p = q.
Proof. intros (A & B). destruct p, q; auto; symmetry; auto. Qed.
Lemma pair_relevant_min z si sj : wf_seg si -> wf_seg sj -> pair_relevant op_min z si sj = Ok (min_rel z si sj).
Proof.
  intros Wi Wj. apply wf_le in Wi, Wj. unfold pair_relevant, corners, op_min, min_rel. cbn [flat_map fst snd app]. f_equal. apply bool_iff.
  rewrite !andb_true_iff, !blt_true. cbn [fold_left]. rewrite !bmin_lt', !bmax_lt', !bmin_lt.
  assert (A : Rbar_lt (sb si) z -> Rbar_lt (sa si) z) by (apply Rbar_le_lt_trans; auto).
  assert (B : Rbar_lt (sb sj) z -> Rbar_lt (sa sj) z) by (apply Rbar_le_lt_trans; auto).
  assert (C : Rbar_lt z (sa si) -> Rbar_lt z (sb si)) by (intros H; apply (Rbar_lt_le_trans _ _ _ H); auto).
  assert (D : Rbar_lt z (sa sj) -> Rbar_lt z (sb sj)) by (intros H; apply (Rbar_lt_le_trans _ _ _ H); auto).
  tauto.
Qed.
Lemma pair_relevant_max z si sj : wf_seg si -> wf_seg sj -> pair_relevant op_max z si sj = Ok (max_rel z si sj).
Proof.
  intros Wi Wj. apply wf_le in Wi, Wj. unfold pair_relevant, corners, op_max, max_rel. cbn [flat_map fst snd app]. f_equal. apply bool_iff.
  rewrite !andb_true_iff, !blt_true. cbn [fold_left]. rewrite !bmin_lt', !bmax_lt', !bmax_lt.
  assert (A : Rbar_lt (sb si) z -> Rbar_lt (sa si) z) by (apply Rbar_le_lt_trans; auto).
  assert (B : Rbar_lt (sb sj) z -> Rbar_lt (sa sj) z) by (apply Rbar_le_lt_trans; auto).
  assert (C : Rbar_lt z (sa si) -> Rbar_lt z (sb si)) by (intros H; apply (Rbar_lt_le_trans _ _ _ H); auto).
  assert (D : Rbar_lt z (sa sj) -> Rbar_lt z (sb sj)) by (intros H; apply (Rbar_lt_le_trans _ _ _ H); auto).
  tauto.
Qed.
Lemma filter_res_ok {A} (p : A -> res bool) (q : A -> bool) l : (forall x, In x l -> p x = Ok (q x)) -> filter_res p l = Ok (filter q l).
Proof.
  induction l as [|x l IH]; intros H; auto. cbn [filter_res]. rewrite (H x) by (simpl; auto). cbn [rbind].
  rewrite IH by (intros; apply H; simpl; auto). cbn. destruct (q x); auto.
Qed.
Lemma findSegList_min f g z : Forall wf_seg f -> Forall wf_seg g ->
  findSegList f g z op_min = Ok (filter (fun p => min_rel z (fst p) (snd p)) (seg_pairs f g)).
Proof.
  intros Wf Wg. unfold findSegList. apply filter_res_ok. intros p Hp. apply seg_pairs_In in Hp. rewrite Forall_forall in Wf, Wg.
  apply pair_relevant_min; [apply Wf|apply Wg]; tauto.
Qed.
Lemma findSegList_max f g z : Forall wf_seg f -> Forall wf_seg g ->
  findSegList f g z op_max = Ok (filter (fun p => max_rel z (fst p) (snd p)) (seg_pairs f g)).
Proof.
  intros Wf Wg. unfold findSegList. apply filter_res_ok. intros p Hp. apply seg_pairs_In in Hp. rewrite Forall_forall in Wf, Wg.
  apply pair_relevant_max; [apply Wf|apply Wg]; tauto.
Qed.

(** probability above and below x in one piece *)
Definition tmin (s : segment) (x : R) : R := mass s - mass_upto s x.
Definition tmax (s : segment) (x : R) : R := mass_upto s x - pm1 x s.

Definition not_end (s : segment) (x : R) : Prop := Finite x <> sa s /\ Finite x <> sb s.

Lemma tmin_cont s (x : R) : isDirac s = false -> wf_seg s -> integrable_piece s -> tmin s x = Q (sf s) (clamp s x) (sb s).
Proof.
  intros D W HI. pose proof (wf_le s W) as WL. pose proof (integrable_piece_int s D HI) as HI'.
  unfold tmin. rewrite mass_upto_cpart, mass_Q by auto.
  assert (E : cpart s x = Q (sf s) (sa s) (clamp s x)) by (destruct s; try discriminate; reflexivity).
  destruct (clamp_in s x WL).
  rewrite E, <- (Q_chasles (sf s) (sa s) (sb s) (sa s) (clamp s x) (sb s)); auto using Rbar_le_refl. ring.
Qed.
Lemma tmax_cont s (x : R) : isDirac s = false -> wf_seg s -> tmax s x = Q (sf s) (sa s) (clamp s x).
Proof.
  intros D W. unfold tmax. rewrite mass_upto_cpart by auto.
  destruct s; try discriminate; unfold cpart, pm1; ring.
Qed.

Lemma lim_min_ok s (x k : R) : isDirac s = false -> wf_seg s -> integrable_piece s ->
  segint (fun t => sf s t * k) (fst (lim_min s x)) (snd (lim_min s x)) false false = k * tmin s x.
Proof.
  intros D W HI. pose proof (wf_le s W) as WL. pose proof (integrable_piece_int s D HI) as HI'. assert (L : Rbar_lt (sa s) (sb s)) by apply HI'.
  rewrite tmin_cont by auto. unfold lim_min. cbn [fst snd].
  destruct (Rbar_lt_dec x (sb s)) as [X|X].
  - assert (E : bmax (sa s) x = clamp s x).
    { unfold bmax. destruct (bltP (sa s) x) as [K|K].
      - rewrite clamp_id; auto using Rbar_lt_le.
      - apply Rbar_not_lt in K. rewrite clamp_low; auto. }
    rewrite E. destruct (clamp_in s x WL) as (C1 & C2).
    assert (C3 : Rbar_lt (clamp s x) (sb s)). { rewrite <- E. apply bmax_lt. auto. }
    assert (HS : integrable (sf s) (clamp s x) (sb s)).
    { apply (integrable_sub (sf s) (sa s) (sb s)); auto using Rbar_le_refl. }
    unfold segint. rewrite (proj2 (blt_false (sb s) (clamp s x))) by (apply Rbar_lt_le; auto).
    rewrite (proj2 (beq_false (clamp s x) (sb s))) by (intros K; rewrite K in C3; destruct (sb s); simpl in C3; lra). cbn [andb].
    rewrite (Q_ext (fun t => sf s t * k) (fun t => k * sf s t)); auto; [|intros; ring]. apply Q_scal; auto.
  - apply Rbar_not_lt in X. rewrite clamp_high, Q_refl by auto. unfold segint.
    destruct (bltP (sb s) (bmax (sa s) x)) as [K|K]; [ring|].
    assert (E : bmax (sa s) x = x). { unfold bmax. destruct (bltP (sa s) x) as [J|J]; auto. exfalso. apply J. eapply Rbar_lt_le_trans; eauto. }
    rewrite E in *. apply Rbar_not_lt in K. rewrite (Rbar_le_antisym _ _ K X). rewrite beq_refl. ring.
Qed.
Lemma lim_max_ok s (x k : R) : isDirac s = false -> wf_seg s -> integrable_piece s ->
  segint (fun t => sf s t * k) (fst (lim_max s x)) (snd (lim_max s x)) false false = k * tmax s x.
Proof.
  intros D W HI. pose proof (wf_le s W) as WL. pose proof (integrable_piece_int s D HI) as HI'. assert (L : Rbar_lt (sa s) (sb s)) by apply HI'.
  rewrite tmax_cont by auto. unfold lim_max. cbn [fst snd].
  destruct (Rbar_lt_dec (sa s) x) as [X|X].
  - assert (E : bmin (sb s) x = clamp s x).
    { unfold bmin. destruct (bltP x (sb s)) as [K|K].
      - rewrite clamp_id; auto using Rbar_lt_le.
      - apply Rbar_not_lt in K. rewrite clamp_high; auto. }
    rewrite E. destruct (clamp_in s x WL) as (C1 & C2).
    assert (C3 : Rbar_lt (sa s) (clamp s x)). { rewrite <- E. apply bmin_lt. auto. }
    assert (HS : integrable (sf s) (sa s) (clamp s x)).
    { apply (integrable_sub (sf s) (sa s) (sb s)); auto using Rbar_le_refl. }
    unfold segint. rewrite (proj2 (blt_false (clamp s x) (sa s))) by (apply Rbar_lt_le; auto).
    rewrite (proj2 (beq_false (sa s) (clamp s x))) by (intros K; rewrite K in C3; destruct (clamp s x); simpl in C3; lra). cbn [andb].
    rewrite (Q_ext (fun t => sf s t * k) (fun t => k * sf s t)); auto; [|intros; ring]. apply Q_scal; auto.
  - apply Rbar_not_lt in X. rewrite clamp_low, Q_refl by auto. unfold segint.
    destruct (bltP (bmin (sb s) x) (sa s)) as [K|K]; [ring|].
    assert (E : bmin (sb s) x = x). { unfold bmin. destruct (bltP x (sb s)) as [J|J]; auto. exfalso. apply J. eapply Rbar_le_lt_trans; eauto. }
    rewrite E in *. apply Rbar_not_lt in K. rewrite (Rbar_le_antisym _ _ K X). rewrite beq_refl. ring.
Qed.

(** one half of the loop body, with the selection of the pair *)
Lemma own_contains s (x : R) : wf_seg s -> not_end s x ->
  ((ble (sa s) x && ble x (sb s) && negb (beq (sa s) (sb s)))%bool = true /\ isDirac s = false /\ Rbar_lt (sa s) x /\ Rbar_lt x (sb s)) \/
  ((ble (sa s) x && ble x (sb s) && negb (beq (sa s) (sb s)))%bool = false /\ dens1 s x = 0).
Proof.
  intros W (N1 & N2). destruct (Rbar_lt_dec (sa s) x) as [A|A]; [destruct (Rbar_lt_dec x (sb s)) as [B|B]|].
  - left. assert (D : isDirac s = false). { destruct s; auto. simpl in A, B. lra. }
    splits; auto. rewrite (proj2 (ble_true (sa s) x)) by (apply Rbar_lt_le; auto). rewrite (proj2 (ble_true x (sb s))) by (apply Rbar_lt_le; auto).
    rewrite (proj2 (beq_false (sa s) (sb s))); auto. intros E. rewrite E in A. apply (Rbar_lt_irrefl x). eapply Rbar_lt_trans; eauto.
  - right. split.
    + replace (ble x (sb s)) with false; [rewrite andb_false_r; auto|]. symmetry. destruct (bleP x (sb s)) as [K|K]; auto. exfalso.
      destruct (Rbar_le_lt_or_eq_dec _ _ K); auto.
    + apply dens1_out. tauto.
  - right. split.
    + replace (ble (sa s) x) with false; auto. symmetry. destruct (bleP (sa s) x) as [K|K]; auto. exfalso.
      destruct (Rbar_le_lt_or_eq_dec _ _ K); auto.
    + apply dens1_out. tauto.
Qed.

(** x and z on the same side of every end of a piece *)
Definition same_cell1 (s : segment) (z x : R) : Prop := forall p : R, Finite p = sa s \/ Finite p = sb s -> same_side p z x.
Lemma same_cell1_ne s z x : same_cell1 s z x -> not_end s x /\ not_end s z.
Proof.
  intros H. unfold not_end. splits; intros E; [assert (K := H x (or_introl E))|assert (K := H x (or_intror E))|assert (K := H z (or_introl E))|assert (K := H z (or_intror E))];
  unfold same_side in K; lra.
Qed.
Lemma same_lo s z x : same_cell1 s z x -> Rbar_lt (sa s) x <-> Rbar_lt (sa s) z.
Proof. intros H. destruct (sa s) as [p| |] eqn:E; simpl; try tauto. assert (K := H p (or_introl (eq_sym E))). unfold same_side in K. lra. Qed.
Lemma same_hi s z x : same_cell1 s z x -> Rbar_lt x (sb s) <-> Rbar_lt z (sb s).
Proof. intros H. destruct (sb s) as [p| |] eqn:E; simpl; try tauto. assert (K := H p (or_intror (eq_sym E))). unfold same_side in K. lra. Qed.

Lemma min_half z x other own : wf_seg other -> integrable_piece other -> wf_seg own -> same_cell1 other z x -> same_cell1 own z x ->
  (if min_rel z other own then extr_half lim_min x other own else 0) = dens1 own x * tmin other x.
Proof.
  intros Wo Io W So Sw. destruct (same_cell1_ne _ _ _ Sw) as (Nx & _). unfold extr_half, isSegment.
  destruct (own_contains own x W Nx) as [(-> & D & A & B)|(-> & ->)]; [|destruct (min_rel z other own); ring].
  rewrite (dens1_in own x D A B), D. cbn [negb].
  assert (R : min_rel z other own = blt z (sb other)).
  { apply bool_iff. unfold min_rel. rewrite andb_true_iff, !blt_true, bmin_lt', bmin_lt.
    apply (same_lo own z x Sw) in A. apply (same_hi own z x Sw) in B. tauto. }
  rewrite R. destruct (bltP z (sb other)) as [K|K].
  - destruct (isDirac other) eqn:Do; cbn [negb andb].
    + destruct other as [| | | |a m|]; try discriminate. unfold tmin, mass, mass_upto. cbn [smass].
      apply (same_hi _ z x So) in K. simpl in K. destruct (Rle_dec a x); [lra|ring].
    + apply lim_min_ok; auto.
  - assert (K' : Rbar_le (sb other) x). { apply Rbar_not_lt. intros H. apply K. apply (same_hi other z x So); auto. }
    assert (T : tmin other x = 0); [|rewrite T; ring].
    destruct (isDirac other) eqn:Do.
    + destruct other as [| | | |a m|]; try discriminate. unfold tmin, mass, mass_upto. simpl in K'. destruct (Rle_dec a x); [ring|lra].
    + rewrite tmin_cont by auto. rewrite clamp_high, Q_refl; auto using wf_le.
Qed.
Lemma max_half z x other own : wf_seg other -> integrable_piece other -> wf_seg own -> same_cell1 other z x -> same_cell1 own z x ->
  (if max_rel z other own then extr_half lim_max x other own else 0) = dens1 own x * tmax other x.
Proof.
  intros Wo Io W So Sw. destruct (same_cell1_ne _ _ _ Sw) as (Nx & _). unfold extr_half, isSegment.
  destruct (own_contains own x W Nx) as [(-> & D & A & B)|(-> & ->)]; [|destruct (max_rel z other own); ring].
  rewrite (dens1_in own x D A B), D. cbn [negb].
  assert (R : max_rel z other own = blt (sa other) z).
  { apply bool_iff. unfold max_rel. rewrite andb_true_iff, !blt_true, bmax_lt', bmax_lt.
    apply (same_lo own z x Sw) in A. apply (same_hi own z x Sw) in B. tauto. }
  rewrite R. destruct (bltP (sa other) z) as [K|K].
  - destruct (isDirac other) eqn:Do; cbn [negb andb].
    + destruct other as [| | | |a m|]; try discriminate. unfold tmax, pm1, mass_upto. cbn [smass].
      apply (same_lo _ z x So) in K. simpl in K. destruct (Rle_dec a x); destruct (Req_EM_T a x); try lra.
    + apply lim_max_ok; auto.
  - assert (K' : Rbar_le x (sa other)). { apply Rbar_not_lt. intros H. apply K. apply (same_lo other z x So); auto. }
    assert (T : tmax other x = 0); [|rewrite T; ring].
    destruct (isDirac other) eqn:Do.
    + destruct other as [| | | |a m|]; try discriminate. unfold tmax, pm1, mass_upto. simpl in K'.
      destruct (Rle_dec a x); destruct (Req_EM_T a x); try lra.
    + rewrite tmax_cont by auto. rewrite clamp_low, Q_refl; auto using wf_le.
Qed.

Lemma min_rel_comm z si sj : min_rel z si sj = min_rel z sj si.
Proof. unfold min_rel. rewrite (bmin_comm (sa si)), (bmin_comm (sb si)). auto. Qed.
Lemma max_rel_comm z si sj : max_rel z si sj = max_rel z sj si.
Proof. unfold max_rel. rewrite (bmax_comm (sa si)), (bmax_comm (sb si)). auto. Qed.

(** all ends on the same side *)
Definition same_cell (l : list segment) (z x : R) : Prop := forall p : R, is_end l p -> same_side p z x.
Lemma same_cell_piece l z x s : same_cell l z x -> In s l -> same_cell1 s z x.
Proof. intros H Hs p Hp. apply H. exists s. auto. Qed.

Lemma pairs_product f g (u v : segment -> R) : sumR (map (fun p => u (fst p) * v (snd p)) (seg_pairs f g)) = sumR (map u f) * sumR (map v g).
Proof.
  rewrite (sumR_pairs (fun p => u (fst p) * v (snd p))). cbn [fst snd].
  rewrite (sumR_ext (fun si => sumR (map (fun sj => u si * v sj) g)) (fun si => sumR (map v g) * u si)).
  - rewrite sumR_scal. ring.
  - intros s _. rewrite sumR_scal. ring.
Qed.

Lemma extr_value lim (rel : R -> segment -> segment -> bool) (tl : segment -> R -> R) f g z x :
  (forall z si sj, rel z si sj = rel z sj si) ->
  (forall other own, wf_seg other -> integrable_piece other -> wf_seg own -> same_cell1 other z x -> same_cell1 own z x ->
     (if rel z other own then extr_half lim x other own else 0) = dens1 own x * tl other x) ->
  Forall wf_seg f -> Forall wf_seg g -> Forall integrable_piece f -> Forall integrable_piece g ->
  same_cell f z x -> same_cell g z x ->
  sum_pairs (extr_pair lim x) (filter (fun p => rel z (fst p) (snd p)) (seg_pairs f g)) 0 =
    Ok (dens f x * sumR (map (fun s => tl s x) g) + dens g x * sumR (map (fun s => tl s x) f)).
Proof.
  intros RC H Wf Wg If Ig Sf Sg.
  rewrite (sum_pairs_val _ (fun p : segment * segment => extr_half lim x (fst p) (snd p) + extr_half lim x (snd p) (fst p))) by (intros; reflexivity).
  f_equal. rewrite Rplus_0_l, (sumR_filter (fun p : segment * segment => rel z (fst p) (snd p))).
  rewrite (sumR_ext _ (fun p : segment * segment => tl (fst p) x * dens1 (snd p) x + dens1 (fst p) x * tl (snd p) x)).
  - rewrite sumR_plus. rewrite (pairs_product f g (fun s => tl s x) (fun s => dens1 s x)), (pairs_product f g (fun s => dens1 s x) (fun s => tl s x)).
    rewrite !dens_sum. ring.
  - intros p Hp. apply seg_pairs_In in Hp. destruct Hp as (Hi & Hj). rewrite Forall_forall in Wf, Wg, If, Ig.
    pose proof (same_cell_piece _ _ _ _ Sf Hi) as S1. pose proof (same_cell_piece _ _ _ _ Sg Hj) as S2.
    pose proof (H (fst p) (snd p) (Wf _ Hi) (If _ Hi) (Wg _ Hj) S1 S2) as A.
    pose proof (H (snd p) (fst p) (Wg _ Hj) (Ig _ Hj) (Wf _ Hi) S2 S1) as B. rewrite (RC z (snd p) (fst p)) in B.
    destruct (rel z (fst p) (snd p)); lra.
Qed.

Lemma tmin_sum l x : sumR (map (fun s => tmin s x) l) = prob_above l x.
Proof. unfold prob_above, total_mass, cdf_spec, tmin. induction l as [|s l IH]; simpl; [ring|]. rewrite IH. ring. Qed.
Lemma tmax_sum l x : sumR (map (fun s => tmax s x) l) = prob_below l x.
Proof. unfold prob_below, cdf_spec, tmax. induction l as [|s l IH]; [unfold pm; simpl; ring|]. rewrite pm_cons. cbn [map]. rewrite !sumR_cons, IH. unfold pm. simpl. ring. Qed.

Lemma min_value f g z x : Forall wf_seg f -> Forall wf_seg g -> Forall integrable_piece f -> Forall integrable_piece g ->
  same_cell f z x -> same_cell g z x ->
  rbind (findSegList f g z op_min) (fun l => convmin_at_point l x) = Ok (dens f x * prob_above g x + dens g x * prob_above f x).
Proof.
  intros Wf Wg If Ig Sf Sg. rewrite findSegList_min by auto. cbn [rbind]. unfold convmin_at_point.
  rewrite (extr_value lim_min min_rel tmin); auto; [rewrite !tmin_sum; auto|apply min_rel_comm|]. intros; apply min_half; auto.
Qed.
Lemma max_value f g z x : Forall wf_seg f -> Forall wf_seg g -> Forall integrable_piece f -> Forall integrable_piece g ->
  same_cell f z x -> same_cell g z x ->
  rbind (findSegList f g z op_max) (fun l => convmax_at_point l x) = Ok (dens f x * prob_below g x + dens g x * prob_below f x).
Proof.
  intros Wf Wg If Ig Sf Sg. rewrite findSegList_max by auto. cbn [rbind]. unfold convmax_at_point.
  rewrite (extr_value lim_max max_rel tmax); auto; [rewrite !tmax_sum; auto|apply max_rel_comm|]. intros; apply max_half; auto.
Qed.
